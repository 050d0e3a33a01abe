(** * Props_Sub: property C77, parsing a part of a text on its own. *)
From Verif Require Import Base ByteSet Ast Cst Parser TableGen Spec_Parse Spec_Tree Spec_Grammar Spec_Table Spec_Reorder Spec_Sub
  GrammarProofs ParserProofs TreeProofs ParseApi ParseApi2 TGFirsts TGMain TGCells TGClosed TGNames TGParse TGTrees TGCheck Props_Parser Props_TableGen
  TGReorder TGSub.
From Coq Require Import Permutation.

(** If a rule has a node in a tree, FromGrammar also accepts the grammar that
    starts with this rule. *)
Theorem C77_restart_accepted :
  forall order fuel0 order' fuel' g g' n tbl names m src text t u,
    (forall l, Permutation (order l) l) ->
    wf_grammar g -> first_disjoint g ->
    FromGrammar_order order fuel0 g = Ok (tbl, names) ->
    delivers src text ->
    (exists fuel, parses_to fuel tbl (Some m) src t) ->
    subnode u t -> (0 <= n_type u)%Z -> map_get Z.eqb (n_type u) names = Some n ->
    restarted g n g' -> 256 * length g' + 1 <= fuel' ->
    exists tbl' names', FromGrammar_order order' fuel' g' = Ok (tbl', names').
Proof.
  intros order fuel0 order' fuel' g g' n tbl names m src text t u O W D E Hd Hp Hu Ht Hn [P S] Hf.
  pose proof (FromGrammar_table _ _ _ _ _ (wf_distinct _ W) (wf_nulfree _ W) E) as T.
  apply (C11_parse_iff_derivation tbl m src text t (FromGrammar_public _ _ _ _ _ E) Hd) in Hp.
  destruct Hp as (q & Hp & _).
  destruct (sub_placed g tbl W T D text t q Hp u Hu Ht) as (i & k & p & e & Ei & _ & _ & Hi & y & Fy).
  rewrite Ei, (proj1 (C25_names_distinct_heads _ _ _ _ _ O (wf_distinct _ W) E)), Hi in Hn. injection Hn as ->.
  apply C29_reported; [exact (perm_wf _ _ P W)|exact Hf|].
  eapply restart_not_late; [exact W|exact P|rewrite S; exact Fy|].
  eapply accepted_not_late; eassumption.
Qed.
Print Assumptions C77_restart_accepted.

(** The text below a node, parsed on its own with a parser made of the grammar
    that starts with the rule of this node, gives this node again (counted from
    its first byte): what a tree says about a part of the text depends on
    nothing around this part. *)
Theorem C77_part_parses_alone :
  forall order fuel0 order' fuel0' g g' n tbl names tbl' names' m m' src src' text t u,
    (forall l, Permutation (order l) l) -> (forall l, Permutation (order' l) l) ->
    wf_grammar g -> first_disjoint g ->
    FromGrammar_order order fuel0 g = Ok (tbl, names) ->
    delivers src text -> ~ In NUL text ->
    (exists fuel, parses_to fuel tbl (Some m) src t) ->
    subnode u t -> (0 <= n_type u)%Z -> map_get Z.eqb (n_type u) names = Some n ->
    restarted g n g' -> FromGrammar_order order' fuel0' g' = Ok (tbl', names') ->
    delivers src' (text_of text (n_pos u) (n_end u)) ->
    exists fuel t', parses_to fuel tbl' (Some m') src' t' /\
      same_tree (fun x => x) names names' (moved (n_pos u) u) t'.
Proof.
  intros order fuel0 order' fuel0' g g' n tbl names tbl' names' m m' src src' text t u
    O O' W D E Hd Nul Hp Hu Ht Hn [P S] E' Hd'.
  pose proof (FromGrammar_table _ _ _ _ _ (wf_distinct _ W) (wf_nulfree _ W) E) as T.
  pose proof (perm_wf _ _ P W) as W'.
  pose proof (FromGrammar_table _ _ _ _ _ (wf_distinct _ W') (wf_nulfree _ W') E') as T'.
  apply (C11_parse_iff_derivation tbl m src text t (FromGrammar_public _ _ _ _ _ E) Hd) in Hp.
  destruct Hp as (q & Hp & _).
  destruct (sub_placed g tbl W T D text t q Hp u Hu Ht) as (i & k & p & e & Ei & Hu' & He & Hi & _).
  pose proof (proj1 (C25_names_distinct_heads _ _ _ _ _ O (wf_distinct _ W) E)) as Nm.
  pose proof (proj1 (C25_names_distinct_heads _ _ _ _ _ O' (wf_distinct _ W') E')) as Nm'.
  rewrite Ei, Nm, Hi in Hn. injection Hn as ->.
  assert (B : n_pos u = Z.of_nat p /\ n_end u = Z.of_nat e) by (inversion Hu'; subst; split; reflexivity).
  destruct B as [B1 B2]. rewrite B1, B2 in *. rewrite text_of_nat in Hd'.
  destruct (part_parses g tbl text g' tbl' names names' i n p u e W T D P T' Nul Nm Nm' Hu' He Hi S) as (t' & H1 & H2).
  apply (C11_parse_iff_derivation tbl' m' src' _ t' (FromGrammar_public _ _ _ _ _ E') Hd') in H1.
  destruct H1 as (fuel & H1). exists fuel, t'. auto.
Qed.
Print Assumptions C77_part_parses_alone.

(** A rule without a node in any tree need not be able to stand first: nothing
    follows A in S ::= "a", A ::= "" | B, B ::= "", but the end of input does in
    A ::= "" | B, B ::= "", S ::= "a". *)
Theorem C77_refuted_unused_rule :
  exists g g' n, wf_grammar g /\ first_disjoint g /\ In n (heads g) /\ restarted g n g' /\
    (exists x, FromGrammar (256 * length g + 1) g = Ok x) /\
    FromGrammar (256 * length g' + 1) g' = Err EConflict.
Proof.
  exists [ru "S" [[tm "a"]]; ru "A" [[SNothing]; [nt "B"]]; ru "B" [[SNothing]]],
         [ru "A" [[SNothing]; [nt "B"]]; ru "B" [[SNothing]]; ru "S" [[tm "a"]]], (s2b "A").
  split; [apply wfb_spec; vm_compute; reflexivity|].
  split.
  { intros n s1 s2 c (r & l1 & l2 & l3 & Hr & <- & E) F1 F2.
    destruct Hr as [<-|[<-|[<-|[]]]]; cbn in E.
    - destruct l1 as [|? [|? ?]]; [|discriminate|discriminate]. injection E as <- E. destruct l2; discriminate.
    - destruct l1 as [|? [|? [|? ?]]]; try discriminate.
      + injection E as <- E. destruct (first_nil _ _ F1).
      + injection E as _ <- E. destruct l2; discriminate.
    - destruct l1 as [|? [|? ?]]; [|discriminate|discriminate]. injection E as <- E. destruct l2; discriminate. }
  split; [cbn; auto|]. split; [split; [|reflexivity]|].
  { eapply perm_trans; [apply perm_swap|]. apply perm_skip, perm_swap. }
  split; [eexists; vm_compute; reflexivity|vm_compute; reflexivity].
Qed.
Print Assumptions C77_refuted_unused_rule.

(** The middle of "(()x)x" parsed from A: S ::= A "x", A ::= "(" B ")",
    B ::= A "x" | "". *)
Definition nested : grammar :=
  [ru "S" [[nt "A"; tm "x"]]; ru "A" [[tm "("; nt "B"; tm ")"]]; ru "B" [[nt "A"; tm "x"]; [SNothing]]].
Definition nested' : grammar :=
  [ru "B" [[nt "A"; tm "x"]; [SNothing]]; ru "A" [[tm "("; nt "B"; tm ")"]]; ru "S" [[nt "A"; tm "x"]]].
Lemma nested_passes : passes nested (auto_cert nested) = true.
Proof. vm_compute. reflexivity. Qed.
Definition nested_inner : node :=
  Node 2 1 4 [Node 1 1 3 [Node (-1) 1 2 []; Node 2 2 2 [Node (-2) 2 2 []]; Node (-1) 2 3 []]; Node (-1) 3 4 []].
Definition nested_tree : node :=
  Node 0 0 6 [Node 1 0 5 [Node (-1) 0 1 []; nested_inner; Node (-1) 4 5 []]; Node (-1) 5 6 []].
Example C77_case :
  wf_grammar nested /\ first_disjoint nested /\ restarted nested (s2b "B") nested' /\
  (exists fuel, parses_to fuel (fst (gen_of nested)) (Some []) (SrcString (s2b "(()x)x")) nested_tree) /\
  subnode nested_inner nested_tree /\ map_get Z.eqb 2%Z (snd (gen_of nested)) = Some (s2b "B") /\
  text_of (s2b "(()x)x") 1 4 = s2b "()x" /\
  (exists fuel, parses_to fuel (fst (gen_of nested')) (Some []) (SrcString (s2b "()x"))
     (Node 0 0 3 [Node 1 0 2 [Node (-1) 0 1 []; Node 0 1 1 [Node (-2) 1 1 []]; Node (-1) 1 2 []]; Node (-1) 2 3 []])).
Proof.
  pose proof (proj1 (passes_ok _ _ nested_passes)) as Dg.
  split; [exact (dg_wf _ Dg)|]. split; [exact (ll1_first _ _ (dg_ll1 _ Dg))|]. split.
  { split; [|reflexivity]. eapply perm_trans; [apply perm_swap|]. eapply perm_trans; [apply perm_skip, perm_swap|]. apply perm_swap. }
  split; [exists 60; eexists; vm_compute; reflexivity|]. split.
  { eapply sub_child; [left; reflexivity|]. eapply sub_child; [right; left; reflexivity|]. apply sub_here. }
  split; [vm_compute; reflexivity|]. split; [vm_compute; reflexivity|].
  exists 60. eexists. vm_compute. reflexivity.
Qed.
