(** * Props_Renumber: property C95, ToAST knows rules by the numbers in its bindings. *)
From Verif Require Import Base ByteSet Ast Cst Parser TableGen FromCst SelfGrammar Spec_Parse Spec_Tree Spec_Grammar Spec_Table Spec_Bnf NulProofs
  Spec_Reorder Spec_Renumber GrammarProofs ParseApi ParseApi2 TGFirsts TGMain TGCells TGClosed TGNames TGParse TGCheck
  Props_Parser Props_TableGen BnfParser Props_Bnf TGReorder Props_Reorder Props_Json Renumber.
From Coq Require Import Permutation.

(** ToAST looks at a type only to compare it with the numbers in the bindings,
    with the number -1 of a terminal and with the number 16 that is written into
    the code: two trees of the same shape and positions whose types play the
    same roles give the same grammar, or the same error. *)
Theorem C95_renumbered :
  forall R b b' t t' text,
    alike R t t' -> same_bindings R b b' -> same_role R 16 16 -> same_role R (-1) (-1) ->
    ToAST b' t' text = ToAST b t text.
Proof. intros R b b' t t' text A B S T. exact (ToAST_alike R b b' text B S T t t' A). Qed.
Print Assumptions C95_renumbered.


(** A grammar written down differently -- its rules behind the first reordered,
    its alternatives reordered, its non-terminals renamed -- together with
    bindings that give the numbers of the same rules reads every text as the
    same grammar or with the same error, provided the rule with the number 16 is
    the same one (or there is none). *)
Theorem C95_reordered :
  forall f h order order' fuel0 fuel0' g g' tbl tbl' names names' m m' b b' src text t,
    (forall l, Permutation (order l) l) -> (forall l, Permutation (order' l) l) ->
    wf_grammar g -> first_disjoint g -> renaming f h -> rewritten f g g' ->
    FromGrammar_order order fuel0 g = Ok (tbl, names) ->
    FromGrammar_order order' fuel0' g' = Ok (tbl', names') ->
    bindings_moved f names names' b b' ->
    (forall n, map_get Z.eqb 16%Z names = Some n <-> map_get Z.eqb 16%Z names' = Some (f n)) ->
    delivers src text ->
    (exists fuel, parses_to fuel tbl (Some m) src t) ->
    exists fuel' t', parses_to fuel' tbl' (Some m') src t' /\ ToAST b' t' text = ToAST b t text.
Proof.
  intros f h order order' fuel0 fuel0' g g' tbl tbl' names names' m m' b b' src text t O O' W Df FH R E E' B H16 Hd Hp.
  pose proof (rewritten_wf f h FH g g' R W) as W'.
  destruct (C59_same_trees f h order order' fuel0 fuel0' g g' tbl tbl' names names' m m' src text t O O' W Df FH R E E' Hd Hp) as (fuel' & t' & Hp' & St).
  pose proof (proj1 (C25_names_distinct_heads _ _ _ _ _ O (wf_distinct _ W) E)) as Nm.
  pose proof (proj1 (C25_names_distinct_heads _ _ _ _ _ O' (wf_distinct _ W') E')) as Nm'.
  exists fuel', t'. split; [exact Hp'|]. apply (C95_renumbered (same_type f names names')).
  - apply same_tree_alike, St.
  - exact (moved_same f h g g' names names' FH (wf_distinct _ W) (wf_distinct _ W') Nm Nm' b b' B).
  - exact (moved_16 f h g g' names names' FH (wf_distinct _ W) (wf_distinct _ W') Nm Nm' H16).
  - apply (moved_role f h g g' names names' FH (wf_distinct _ W) (wf_distinct _ W') Nm Nm'). left. split; [lia|reflexivity].
Qed.
Print Assumptions C95_reordered.

(** The grammar of BNF itself and its bindings are an instance: whatever order
    its rules and alternatives are put in and whatever they are called, with the
    bindings moved along and the escape sequence left at number 16 the pair
    reads exactly the BNF texts. *)
Theorem C95_bnf :
  forall f h order order' fuel0 fuel0' g' tbl tbl' names names' m b' src text g,
    (forall l, Permutation (order l) l) -> (forall l, Permutation (order' l) l) ->
    renaming f h -> rewritten f SelfGrammar g' ->
    FromGrammar_order order fuel0 SelfGrammar = Ok (tbl, names) ->
    FromGrammar_order order' fuel0' g' = Ok (tbl', names') ->
    bindings_moved f names names' SelfCSTtoASTBindings b' ->
    map_get Z.eqb 16%Z names' = Some (f (s2b "escape-sequence")) ->
    delivers src text ->
    ((exists fuel t, parses_to fuel tbl' (Some m) src t /\ ToAST b' t text = Ok g) <-> bnf_text (before_nul text) g).
Proof.
  intros f h order order' fuel0 fuel0' g' tbl tbl' names names' m b' src text g O O' FH R E E' B H16 Hd.
  rewrite <- (C47_bnf_pipeline order fuel0 tbl names m src text g E Hd).
  pose proof (dg_wf _ self_dec) as W. pose proof (ll1_first _ _ (dg_ll1 _ self_dec)) as Df.
  pose proof (rewritten_wf f h FH _ g' R W) as W'. pose proof (rewritten_disjoint f h FH _ g' R W Df) as Df'.
  pose proof (C59_symmetric f h _ g' FH R) as R'.
  assert (FH' : renaming h f) by (destruct FH; split; assumption).
  assert (N16 : map_get Z.eqb 16%Z names = Some (s2b "escape-sequence")).
  { change 16%Z with (Z.of_nat 16). rewrite (proj1 (C25_names_distinct_heads _ _ _ _ _ O (wf_distinct _ W) E)). reflexivity. }
  clear - O O' FH FH' R R' E E' B H16 N16 Hd W W' Df Df'. revert H16 N16. generalize (s2b "escape-sequence"). intros esc H16 N16.
  split; intros (fuel & t & Hp & A).
  - destruct (C95_reordered h f order' order fuel0' fuel0 g' SelfGrammar tbl' tbl names' names m m b' SelfCSTtoASTBindings src text t
      O' O W' Df' FH' R' E' E (moved_back f h names names' FH _ _ B)) as (fuel' & t' & Hp' & Et); try assumption.
    + intros n. rewrite N16, H16. split; intros X; injection X as X.
      * rewrite <- X, (proj1 FH). reflexivity.
      * rewrite X, (proj2 FH). reflexivity.
    + exists fuel. exact Hp.
    + exists fuel', t'. split; [exact Hp'|]. rewrite Et. exact A.
  - destruct (C95_reordered f h order order' fuel0 fuel0' SelfGrammar g' tbl tbl' names names' m m SelfCSTtoASTBindings b' src text t
      O O' W Df FH R E E' B) as (fuel' & t' & Hp' & Et); try assumption.
    + intros n. rewrite N16, H16. split; intros X; injection X as X.
      * rewrite <- X. reflexivity.
      * rewrite <- (proj1 FH n), <- X, (proj1 FH). reflexivity.
    + exists fuel. exact Hp.
    + exists fuel', t'. split; [exact Hp'|]. rewrite Et. exact A.
Qed.
Print Assumptions C95_bnf.

(** SelfGrammar with two neighbouring rules in the other order. *)
Definition swap_at (i : nat) (g : grammar) : grammar :=
  firstn i g ++ match skipn i g with r :: r' :: l => r' :: r :: l | l => l end.
Lemma swap_at_reordered i g : reordered g (swap_at (S i) g).
Proof.
  split.
  - destruct g; reflexivity.
  - exists (swap_at (S i) g). split.
    + unfold swap_at. rewrite <- (firstn_skipn (S i) g) at 1. apply Permutation_app_head.
      destruct (skipn (S i) g) as [|r [|r' l]]; try apply Permutation_refl. apply perm_swap.
    + induction (swap_at (S i) g) as [|r l IH]; constructor; [split; [reflexivity|apply Permutation_refl]|exact IH].
Qed.
Definition same_name (n : bytes) : bytes := n.
Lemma same_name_ok : renaming same_name same_name.
Proof. split; reflexivity. Qed.
Lemma rename_same_name g : rename same_name g = g.
Proof.
  unfold rename. rewrite <- (map_id g) at 2. apply map_ext. intros [n tl]. unfold rename_rule. cbn. f_equal.
  rewrite <- (map_id tl) at 2. apply map_ext. intros s. rewrite <- (map_id s) at 2. apply map_ext. intros []; reflexivity.
Qed.
Definition with_numbers (ign esc : Z) : bindings :=
  {| IgnoreNodeTypes := [ign]; RuleType := 4; RuleHeadType := 18; RuleTailType := 5;
     ExpressionSequencesType := 7; SequencesSymbolType := 9; SymbolTerminalTypes := [11%Z; 12%Z];
     SymbolNonTerminalType := 18; EscapeCharacterType := esc; EscapeMapping := EscapeMapping SelfCSTtoASTBindings |}.

Definition self_names : list (Z * bytes) := snd (gen_of SelfGrammar).
Definition late_swap : grammar := swap_at 24 SelfGrammar.
Definition escape_swap : grammar := swap_at 16 SelfGrammar.

Ltac corresponding_numbers :=
  right; eexists; split; [discriminate|]; split; [discriminate|]; split; vm_compute; reflexivity.
Lemma late_moved : bindings_moved same_name self_names (snd (gen_of late_swap)) SelfCSTtoASTBindings (with_numbers 24 17).
Proof. constructor; repeat apply Forall2_cons; try apply Forall2_nil; try reflexivity; corresponding_numbers. Qed.
Lemma escape_moved : bindings_moved same_name self_names (snd (gen_of escape_swap)) SelfCSTtoASTBindings (with_numbers 25 16).
Proof. constructor; repeat apply Forall2_cons; try apply Forall2_nil; try reflexivity; corresponding_numbers. Qed.

(** The condition about 16 cannot be left out: the bindings have no entry for the
    type of an escape sequence, the code compares with the literal 16. If the
    rules 16 and 17 of SelfGrammar are swapped and the bindings moved along, the
    terminal "\n" is read as a backslash and a line feed -- no error, another
    grammar. *)
Theorem C95_refuted_16 :
  exists g' tbl names tbl' names' b' text g1 g2,
    reordered SelfGrammar g' /\
    FromGrammar (256 * length SelfGrammar + 1) SelfGrammar = Ok (tbl, names) /\
    FromGrammar (256 * length g' + 1) g' = Ok (tbl', names') /\
    bindings_moved same_name names names' SelfCSTtoASTBindings b' /\
    (exists fuel t, parses_to fuel tbl (Some names) (SrcString text) t /\ ToAST SelfCSTtoASTBindings t text = Ok g1) /\
    (exists fuel t, parses_to fuel tbl' (Some names') (SrcString text) t /\ ToAST b' t text = Ok g2) /\
    g1 = [ru "a" [[STerminal [LF]]]] /\ g2 = [ru "a" [[STerminal [BSL; LF]]]].
Proof.
  exists escape_swap, (fst (gen_of SelfGrammar)), self_names, (fst (gen_of escape_swap)), (snd (gen_of escape_swap)),
    (with_numbers 25 16), (s2b "<a> ::= ""\n""" ++ [LF]), [ru "a" [[STerminal [LF]]]], [ru "a" [[STerminal [BSL; LF]]]].
  split; [apply swap_at_reordered|]. split; [vm_compute; reflexivity|]. split; [vm_compute; reflexivity|].
  split; [exact escape_moved|].
  split; [eexists 400, _; split; [eexists; vm_compute; reflexivity|vm_compute; reflexivity]|].
  split; [eexists 400, _; split; [eexists; vm_compute; reflexivity|vm_compute; reflexivity]|].
  split; reflexivity.
Qed.
Print Assumptions C95_refuted_16.

(** The rules 24 and 25 swapped; a text with spaces, which are ignored under
    their new number. *)
Example C95_case :
  rewritten same_name SelfGrammar late_swap /\
  bindings_moved same_name self_names (snd (gen_of late_swap)) SelfCSTtoASTBindings (with_numbers 24 17) /\
  map_get Z.eqb 16%Z (snd (gen_of late_swap)) = Some (s2b "escape-sequence") /\
  with_numbers 24 17 <> SelfCSTtoASTBindings /\
  FromGrammar (256 * length late_swap + 1) late_swap = Ok (gen_of late_swap) /\
  (exists fuel t, parses_to fuel (fst (gen_of late_swap)) (Some []) (SrcString (s2b "<a> ::= <b>  ""\n""" ++ [LF])) t /\
     ToAST (with_numbers 24 17) t (s2b "<a> ::= <b>  ""\n""" ++ [LF]) = Ok [ru "a" [[nt "b"; STerminal [LF]]]]).
Proof.
  split; [unfold rewritten; rewrite rename_same_name; apply swap_at_reordered|].
  split; [exact late_moved|]. split; [vm_compute; reflexivity|]. split; [discriminate|]. split; [vm_compute; reflexivity|].
  eexists 400, _; split; [eexists; vm_compute; reflexivity|vm_compute; reflexivity].
Qed.
