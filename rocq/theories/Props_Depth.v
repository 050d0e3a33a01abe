(** * Props_Depth: property C99, how deep Walk and ToAST recurse. *)
From Verif Require Import Base Cst Ast Parser SelfGrammar TableGen FromCst FromCstDepth Spec_Parse Spec_Grammar Spec_Table
  Spec_Time Spec_Size GrammarProofs ParseApi TGMain Props_Parser Props_TableGen Props_Size ConvertDepth TGCheck Props_Bnf Props_Convert.

(** The functions that keep track of the depth are the functions. *)
Theorem C99_same_result :
  (forall V S visit (v : V) (s : S) n, snd (walk_d visit v s n) = walk visit v s n) /\
  (forall b root str, snd (ToAST_deep b root str) = ToAST b root str).
Proof. split; [intros; apply any_erase|exact deep_result]. Qed.
Print Assumptions C99_same_result.

(** Walk with any visitor is never active more often than there are nodes on a
    longest path of the tree, and is so often when the visitor visits
    everything. *)
Theorem C99_walk :
  forall V S visit (v : V) (s : S) n,
    fst (walk_d visit v s n) <= depth n /\
    ((forall v s n, exists s' w, visit v s n = Ok (s', Some w)) -> fst (walk_d visit v s n) = depth n).
Proof. intros. split; [apply any_depth|]. intros F. apply any_full, F. Qed.
Print Assumptions C99_walk.

(** ToAST: six more, whatever the tree, the bindings and the text, also when it
    fails or panics. *)
Theorem C99_toast :
  forall b root str, fst (ToAST_deep b root str) <= depth root + 6.
Proof. exact deep_bound. Qed.
Print Assumptions C99_toast.

(** The six are needed. *)
Theorem C99_six_more :
  exists b, fst (ToAST_deep b (Node 16 0 0 []) []) = depth (Node 16 0 0 []) + 6.
Proof.
  exists {| IgnoreNodeTypes := []; RuleType := 16; RuleHeadType := 16; RuleTailType := 16;
            ExpressionSequencesType := 16; SequencesSymbolType := 16; SymbolTerminalTypes := [16%Z];
            SymbolNonTerminalType := 16; EscapeCharacterType := 16; EscapeMapping := [] |}.
  vm_compute. reflexivity.
Qed.
Print Assumptions C99_six_more.

(** Reading a BNF text: linear in its length. *)
Theorem C99_reading_bnf :
  forall order fuel0 tbl names m src text fuel t,
    FromGrammar_order order fuel0 SelfGrammar = Ok (tbl, names) -> delivers src text ->
    parses_to fuel tbl (Some m) src t ->
    fst (ToAST_deep SelfCSTtoASTBindings t text) <= 10 + 988 * length text.
Proof.
  intros order fuel0 tbl names m src text fuel t E Hd Hp. destruct C42_ll1 as (W & L).
  assert (G : length SelfGrammar * largest_alternative SelfGrammar = 494) by (vm_compute; reflexivity).
  destruct (C70_linear _ _ _ _ _ _ _ _ _ _ W L E Hd Hp) as (N1 & N2). rewrite G in N2.
  pose proof (C99_toast SelfCSTtoASTBindings t text). lia.
Qed.
Print Assumptions C99_reading_bnf.

(** ** Trees are as deep as texts are long

    S ::= "b" S | "" *)
Definition nested : grammar := [ru "S" [[tm "b"; nt "S"]; [SNothing]]].
Fixpoint nest (k p : nat) : node :=
  match k with
  | 0 => mk 0 p p [nothing_at p]
  | S k' => mk 0 p (p + k) [literal_at p (p + 1); nest k' (p + 1)]
  end.
Lemma nest_depth k : forall p, depth (nest k p) = k + 2.
Proof.
  induction k as [|k IH]; intros p; [reflexivity|]. cbn [nest]. unfold mk. rewrite depth_node. unfold deepest. cbn [map].
  rewrite IH. unfold literal_at, mk. rewrite depth_node. unfold deepest. cbn [map list_max fold_right]. unfold list_max. cbn [fold_right]. lia.
Qed.
Definition bees (k : nat) : bytes := repeat "b"%char k.
Lemma nest_derives j : forall k p, k + p = j ->
  derives (fst (gen_of nested)) (bees j) (OpNonTerminal 0) p (nest k p) (p + k).
Proof.
  assert (C1 : cell (fst (gen_of nested)) 0 "b" [OpTerminal (s2b "b"); OpNonTerminal 0])
    by (eexists; split; vm_compute; reflexivity).
  assert (C2 : cell (fst (gen_of nested)) 0 NUL []) by (eexists; split; vm_compute; reflexivity).
  induction k as [|k IH]; intros p E.
  - rewrite Nat.add_0_r. cbn [nest]. constructor; [lia|].
    replace (byte_at (bees j) p) with NUL; [exact C2|]. symmetry. apply nth_overflow. unfold bees. rewrite repeat_length. lia.
  - assert (B : byte_at (bees j) p = "b"%char) .
    { unfold byte_at, bees. revert E. clear. revert j. induction p as [|p IHp]; intros [|j] E; try lia; [reflexivity|].
      apply (IHp j). lia. }
    cbn [nest]. econstructor; [lia| | |].
    + rewrite B. exact C1.
    + discriminate.
    + econstructor.
      * assert (X := d_terminal (fst (gen_of nested)) (bees j) (s2b "b") p). apply X; [discriminate|].
        intros i Hi. cbn in Hi. replace i with 0 by lia. rewrite Nat.add_0_r. exact B.
      * apply (d_cons _ _ (OpNonTerminal 0) [] (p + 1) (nest k (p + 1)) (p + 1 + k) [] (p + S k)); [apply IH; lia|].
        replace (p + 1 + k) with (p + S k) by lia. constructor.
Qed.

(** The linear growth is not an artefact of the bound: for an LL(1) grammar of
    one rule the tree of a text of k bytes is k + 2 deep. *)
Theorem C99_depth_of_text :
  wf_grammar nested /\ LL1 nested /\ FromGrammar (256 * length nested + 1) nested = Ok (gen_of nested) /\
  forall k m src, delivers src (bees k) ->
    exists fuel, parses_to fuel (fst (gen_of nested)) (Some m) src (nest k 0) /\ depth (nest k 0) = length (bees k) + 2.
Proof.
  assert (P : passes nested (auto_cert nested) = true) by (vm_compute; reflexivity).
  pose proof (proj1 (passes_ok _ _ P)) as D.
  assert (G : FromGrammar (256 * length nested + 1) nested = Ok (gen_of nested)) by (vm_compute; reflexivity).
  split; [exact (dg_wf _ D)|]. split; [apply rules_LL1; [discriminate|exact (dg_ll1 _ D)]|]. split; [exact G|].
  intros k m src Hd.
  assert (Pub : table_public (fst (gen_of nested))).
  { destruct (gen_of nested) as (tbl, names). exact (TGClosed.FromGrammar_public _ _ _ _ _ G). }
  destruct (proj2 (C11_parse_iff_derivation (fst (gen_of nested)) m src (bees k) (nest k 0) Pub Hd)) as (fuel & H).
  - exists (0 + k). split; [apply nest_derives; lia|]. apply nth_overflow. unfold bees. rewrite repeat_length. lia.
  - exists fuel. split; [exact H|]. rewrite nest_depth. unfold bees. rewrite repeat_length. reflexivity.
Qed.
Print Assumptions C99_depth_of_text.

(** A tree of depth eight with an escape sequence: thirteen calls at once. *)
Example C99_case :
  ToAST_deep renumbered (escape_tree 16) (s2b "a\n") = (13, Ok [mkRule (s2b "a") [[STerminal [LF]]]]) /\
  depth (escape_tree 16) = 8.
Proof. vm_compute. auto. Qed.
