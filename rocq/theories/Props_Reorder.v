(** * Props_Reorder: property C59, the same grammar written down differently. *)
From Verif Require Import Base ByteSet Ast Cst Parser TableGen Spec_Parse Spec_Tree Spec_Grammar Spec_Table Spec_Reorder
  GrammarProofs ParseApi ParseApi2 TGFirsts TGMain TGCells TGClosed TGNames TGParse TGCheck Props_Parser Props_TableGen TGReorder.
From Coq Require Import Permutation.

(** Reordering the rules behind the first one, reordering the alternatives and
    renaming the non-terminals changes nothing but names and numbers: the
    parsers made of the two grammars accept the same sources, ... *)
Theorem C59_same_trees :
  forall f h order order' fuel0 fuel0' g g' tbl tbl' names names' m m' src text t,
    (forall l, Permutation (order l) l) -> (forall l, Permutation (order' l) l) ->
    wf_grammar g -> first_disjoint g -> renaming f h -> rewritten f g g' ->
    FromGrammar_order order fuel0 g = Ok (tbl, names) ->
    FromGrammar_order order' fuel0' g' = Ok (tbl', names') ->
    delivers src text ->
    (exists fuel, parses_to fuel tbl (Some m) src t) ->
    exists fuel' t', parses_to fuel' tbl' (Some m') src t' /\ same_tree f names names' t t'.
Proof.
  intros f h order order' fuel0 fuel0' g g' tbl tbl' names names' m m' src text t O O' W D FH R E E' Hd Hp.
  pose proof (rewritten_wf f h FH g g' R W) as W'. pose proof (rewritten_disjoint f h FH g g' R W D) as D'.
  apply (C11_parse_iff_derivation tbl m src text t (FromGrammar_public _ _ _ _ _ E) Hd) in Hp.
  destruct (corr_text f h g g' FH (rewritten_into f g g' R W) (rewritten_back f h FH g g' R W) tbl tbl' W W'
    (FromGrammar_table _ _ _ _ _ (wf_distinct _ W) (wf_nulfree _ W) E)
    (FromGrammar_table _ _ _ _ _ (wf_distinct _ W') (wf_nulfree _ W') E') D D' names names'
    (proj1 (C25_names_distinct_heads _ _ _ _ _ O (wf_distinct _ W) E))
    (proj1 (C25_names_distinct_heads _ _ _ _ _ O' (wf_distinct _ W') E')) text t Hp) as (t' & H1 & H2).
  apply (C11_parse_iff_derivation tbl' m' src text t' (FromGrammar_public _ _ _ _ _ E') Hd) in H1.
  destruct H1 as (fuel & H1). exists fuel, t'. auto.
Qed.
Print Assumptions C59_same_trees.

(** ... and refuse the others with the same errors. *)
Theorem C59_same_errors :
  forall f h order order' fuel0 fuel0' g g' tbl tbl' names names' src text e,
    (forall l, Permutation (order l) l) -> (forall l, Permutation (order' l) l) ->
    wf_grammar g -> first_disjoint g -> renaming f h -> rewritten f g g' ->
    FromGrammar_order order fuel0 g = Ok (tbl, names) ->
    FromGrammar_order order' fuel0' g' = Ok (tbl', names') ->
    delivers src text ->
    (exists fuel, fails_with fuel tbl (Some names) src e) ->
    exists fuel', fails_with fuel' tbl' (Some names') src (rename_error f e).
Proof.
  intros f h order order' fuel0 fuel0' g g' tbl tbl' names names' src text e O O' W D FH R E E' Hd Hp.
  pose proof (rewritten_wf f h FH g g' R W) as W'. pose proof (rewritten_disjoint f h FH g g' R W D) as D'.
  apply (C19_error_diagnosis tbl names src text e (FromGrammar_public _ _ _ _ _ E) (FromGrammar_row0 _ _ _ _ _ E) Hd) in Hp.
  destruct Hp as (k & Hp).
  apply (C19_error_diagnosis tbl' names' src text _ (FromGrammar_public _ _ _ _ _ E') (FromGrammar_row0 _ _ _ _ _ E') Hd).
  exists k.
  exact (corr_refuses f h g g' FH (rewritten_into f g g' R W) (rewritten_back f h FH g g' R W) tbl tbl' W W'
    (FromGrammar_table _ _ _ _ _ (wf_distinct _ W) (wf_nulfree _ W) E)
    (FromGrammar_table _ _ _ _ _ (wf_distinct _ W') (wf_nulfree _ W') E') D D' names names'
    (proj1 (C25_names_distinct_heads _ _ _ _ _ O (wf_distinct _ W) E))
    (proj1 (C25_names_distinct_heads _ _ _ _ _ O' (wf_distinct _ W') E')) text k e Hp).
Qed.
Print Assumptions C59_same_errors.

(** "Written down differently" goes both ways; the two theorems therefore give
    equivalences. *)
Theorem C59_symmetric :
  forall f h g g', renaming f h -> rewritten f g g' -> rewritten h g' g.
Proof.
  intros f h g g' FH R. assert (R' := reordered_sym _ _ R).
  destruct R' as (S & l & P & F). split.
  - destruct g as [|r g0].
    + cbn. destruct g' as [|r' g1]; [reflexivity|]. apply reordered_heads, Permutation_nil in R. discriminate.
    + cbn in S. destruct g' as [|r' g1]; [apply reordered_heads, Permutation_sym, Permutation_nil in R; discriminate|].
      cbn in *. rewrite S. apply FH.
  - exists (rename h l). split; [apply Permutation_map, P|].
    rewrite <- (rename_inv f h g (proj1 FH)).
    clear - F. revert F. generalize (rename f g). intros gf F. unfold rename. induction F as [|r r' l l' [A B] _ IH]; [constructor|].
    cbn [map]. constructor; [|exact IH]. cbn. rewrite A. split; [reflexivity|]. apply Permutation_map, B.
Qed.
Print Assumptions C59_symmetric.

(** Whether the grammar is accepted does not depend on the order either, as long
    as it has none of the conflicts FromGrammar looks for. *)
Theorem C59_still_accepted :
  forall f h order fuel g g',
    wf_grammar g -> LL1_wrt (follow_code g) g -> renaming f h -> rewritten f g g' ->
    256 * length g' + 1 <= fuel ->
    exists tbl names, FromGrammar_order order fuel g' = Ok (tbl, names).
Proof.
  intros f h order fuel g g' W L FH R Hf. pose proof (rewritten_wf f h FH g g' R W) as W'.
  apply C29_reported; [exact W'|exact Hf|]. apply (LL1_not_late g' (follow_code g') W'); [|auto].
  apply (rewritten_LL1 f h FH g g' R W (follow_code g)); [|exact L].
  intros n x. apply (into_follow _ _ _ (rewritten_back f h FH g g' R W)).
Qed.
Print Assumptions C59_still_accepted.

(** With a conflict it can: S ::= A "a", A ::= "" | "a" is accepted, with the
    alternatives of A swapped it is refused (C29). *)
Theorem C59_refuted_acceptance :
  exists g g', wf_grammar g /\ first_disjoint g /\ reordered g g' /\
    (exists x, FromGrammar (256 * length g + 1) g = Ok x) /\
    FromGrammar (256 * length g' + 1) g' = Err EConflict.
Proof.
  exists first_follow, [ru "S" [[nt "A"; tm "a"]]; ru "A" [[tm "a"]; [SNothing]]].
  split; [apply wfb_spec; vm_compute; reflexivity|].
  split; [|split; [|split; [eexists; vm_compute; reflexivity|vm_compute; reflexivity]]].
  - intros n s1 s2 c (r & l1 & l2 & l3 & [<-|[<-|[]]] & <- & E) F1 F2.
    + cbn in E. destruct l1 as [|? [|? ?]]; [|discriminate|discriminate]. injection E as <- E. destruct l2; discriminate.
    + cbn in E. destruct l1 as [|? [|? [|? ?]]]; try discriminate.
      * injection E as <- E. eapply first_nil, F1.
      * injection E as _ <- E. destruct l2; discriminate.
  - split; [reflexivity|]. exists first_follow. split; [apply Permutation_refl|].
    repeat (constructor; [split; [reflexivity|apply Permutation_refl]|]). constructor; [split; [reflexivity|apply perm_swap]|constructor].
Qed.
Print Assumptions C59_refuted_acceptance.

(** And without [first_disjoint] the order of the alternatives can be seen: the
    two alternatives of S ::= "a" "b" | "a" "c" are put one behind the other. *)
Theorem C59_refuted_first_first :
  exists g g' tbl names tbl' names' text fuel t,
    wf_grammar g /\ reordered g g' /\
    FromGrammar (256 * length g + 1) g = Ok (tbl, names) /\
    FromGrammar (256 * length g' + 1) g' = Ok (tbl', names') /\
    parses_to fuel tbl (Some names) (SrcString text) t /\
    forall fuel' t', ~ parses_to fuel' tbl' (Some names') (SrcString text) t'.
Proof.
  set (g := [ru "S" [[tm "a"; tm "b"]; [tm "a"; tm "c"]]]).
  set (g' := [ru "S" [[tm "a"; tm "c"]; [tm "a"; tm "b"]]]).
  exists g, g', (fst (gen_of g)), (snd (gen_of g)), (fst (gen_of g')), (snd (gen_of g')), (s2b "abac"), 20. eexists.
  split; [apply wfb_spec; vm_compute; reflexivity|].
  split; [split; [reflexivity|]; exists g; split; [apply Permutation_refl|]; constructor; [split; [reflexivity|apply perm_swap]|constructor]|].
  split; [vm_compute; reflexivity|]. split; [vm_compute; reflexivity|].
  split; [eexists; vm_compute; reflexivity|].
  apply (never_parses _ _ _ 20 (EExpectedChar "c"%char "b"%char)). vm_compute. reflexivity.
Qed.
Print Assumptions C59_refuted_first_first.

(** demo with its alternatives swapped, the rule of A moved in front of a third
    rule, and A renamed to X. *)
Definition swap_AX (n : bytes) : bytes :=
  if bytes_eqb n (s2b "A") then s2b "X" else if bytes_eqb n (s2b "X") then s2b "A" else n.
Lemma swap_AX_ok : renaming swap_AX swap_AX.
Proof.
  assert (H : forall n, swap_AX (swap_AX n) = n); [|split; exact H].
  intros n. unfold swap_AX. destruct (bytes_eqb n (s2b "A")) eqn:E1.
  - apply bytes_eqb_eq in E1. subst. reflexivity.
  - destruct (bytes_eqb n (s2b "X")) eqn:E2; [apply bytes_eqb_eq in E2; subst; reflexivity|]. rewrite E1, E2. reflexivity.
Qed.
Definition three : grammar :=
  [ru "S" [[nt "A"; nt "B"; tm "c"]]; ru "B" [[tm "b"]]; ru "A" [[tm "a"]; [SNothing]]].
Definition three' : grammar :=
  [ru "S" [[nt "X"; nt "B"; tm "c"]]; ru "X" [[SNothing]; [tm "a"]]; ru "B" [[tm "b"]]].
Lemma three_passes : passes three (auto_cert three) = true.
Proof. vm_compute. reflexivity. Qed.
Example C59_case :
  wf_grammar three /\ first_disjoint three /\ rewritten swap_AX three three' /\
  (exists fuel, parses_to fuel (fst (gen_of three)) (Some []) (SrcString (s2b "bc"))
     (Node 0 0 2 [Node 2 0 0 [Node (-2) 0 0 []]; Node 1 0 1 [Node (-1) 0 1 []]; Node (-1) 1 2 []])) /\
  (exists fuel, parses_to fuel (fst (gen_of three')) (Some []) (SrcString (s2b "bc"))
     (Node 0 0 2 [Node 1 0 0 [Node (-2) 0 0 []]; Node 2 0 1 [Node (-1) 0 1 []]; Node (-1) 1 2 []])) /\
  (exists fuel, fails_with fuel (fst (gen_of three)) (Some (snd (gen_of three))) (SrcString (s2b "x"))
     (ENoRulesForByte "x"%char (s2b "S"))).
Proof.
  pose proof (proj1 (passes_ok _ _ three_passes)) as Dg.
  split; [exact (dg_wf _ Dg)|]. split; [exact (ll1_first _ _ (dg_ll1 _ Dg))|]. split.
  - split; [reflexivity|]. exists [ru "S" [[nt "X"; nt "B"; tm "c"]]; ru "X" [[tm "a"]; [SNothing]]; ru "B" [[tm "b"]]].
    split; [cbn; apply perm_skip, perm_swap|]. constructor; [split; [reflexivity|apply Permutation_refl]|]. constructor; [split; [reflexivity|apply perm_swap]|]. constructor; [split; [reflexivity|apply Permutation_refl]|constructor].
  - split; [exists 40; eexists; vm_compute; reflexivity|]. split; [exists 40; eexists; vm_compute; reflexivity|]. exists 20. vm_compute. reflexivity.
Qed.
