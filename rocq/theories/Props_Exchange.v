(** * Props_Exchange: property C78, exchanging a part of a text. *)
From Verif Require Import Base ByteSet Ast Cst Parser TableGen Spec_Parse Spec_Tree Spec_Grammar Spec_Table Spec_Reorder Spec_Sub
  Spec_ParseTree Spec_Viable GrammarProofs ParserProofs TreeProofs ParseApi ParseApi2 TGFirsts TGMain TGCells TGClosed TGNames TGParse TGTrees TGCheck
  Props_Parser Props_TableGen Props_Trees Props_Handled TGReorder TGSub TGExchange Props_Sub.
From Coq Require Import Permutation.

(** In a text of the grammar, the part below a node may be exchanged for any
    other text that parses from the rule of this node; the new text parses, and
    if the new part is not empty, its tree is the old one with the sub-tree
    exchanged (the two halves of C77 and C78 are what re-parsing only an edited
    part of a text relies on). *)
Theorem C78_exchange :
  forall order fuel0 order' fuel0' g g' n tbl names tbl' names' m m' src srcb src' a b b' c t u u',
    (forall l, Permutation (order l) l) -> (forall l, Permutation (order' l) l) ->
    wf_grammar g -> LL1 g ->
    (forall k x, nullable g [NT k] -> follows_in_word g k x -> follow_code g k x) ->
    FromGrammar_order order fuel0 g = Ok (tbl, names) ->
    delivers src (a ++ b ++ c) -> ~ In NUL (a ++ b ++ c) ->
    (exists fuel, parses_to fuel tbl (Some m) src t) ->
    subnode u t -> (0 <= n_type u)%Z -> map_get Z.eqb (n_type u) names = Some n ->
    n_pos u = Z.of_nat (length a) -> n_end u = Z.of_nat (length a + length b) ->
    restarted g n g' -> FromGrammar_order order' fuel0' g' = Ok (tbl', names') ->
    delivers srcb b' -> ~ In NUL b' ->
    (exists fuel, parses_to fuel tbl' (Some m') srcb u') ->
    delivers src' (a ++ b' ++ c) ->
    exists fuel t', parses_to fuel tbl (Some m) src' t' /\
      (b' <> [] -> exists v,
         exchanged (Z.of_nat (length b') - Z.of_nat (length b)) u v t t' /\
         same_tree (fun x => x) names names' (moved (Z.of_nat (length a)) v) u').
Proof.
  intros order fuel0 order' fuel0' g g' n tbl names tbl' names' m m' src srcb src' a b b' c t u u'
    O O' W L Fw E Hd Nul (fuel & Hp) Hu Ht Hn Pa Pb [P S] E' Hdb Nulb (fuelb & Hpb) Hd'.
  pose proof (perm_wf _ _ P W) as W'.
  pose proof (proj1 (C25_names_distinct_heads _ _ _ _ _ O (wf_distinct _ W) E)) as Nm.
  pose proof (proj1 (C25_names_distinct_heads _ _ _ _ _ O' (wf_distinct _ W') E')) as Nm'.
  (* the node in the parse tree *)
  destruct (C53_parser_tree _ _ _ _ _ _ _ _ _ _ W L E Hd Nul Hp) as (T & HT & ->).
  destruct (proj1 (inside_collapse g (a ++ b ++ c)) _ _ _ _ HT u Hu Ht) as (U & -> & HI).
  assert (Et : n_type (collapse U) = n_type U) by (destruct U as [ty p q l]; cbn; destruct ((0 <=? ty) && (p =? q))%Z; reflexivity).
  rewrite Et in *.
  destruct (inside_ptree g (a ++ b ++ c) U T HI _ _ _ HT Ht) as (i & n' & pu & qu & Ei & Hi & HU & _ & _ & Lq & w & w' & Y).
  rewrite Ei, Nm, Hi in Hn. injection Hn as ->.
  destruct (collapse_pos U) as [Cp Ce]. rewrite Cp in Pa. rewrite Ce in Pb.
  destruct (proj1 (ptree_facts_both g (a ++ b ++ c)) _ _ _ _ HU) as (_ & P1 & P2 & _).
  assert (pu = length a) by lia. assert (qu = length a + length b) by lia. subst pu qu.
  (* the tree of the new part *)
  assert (L' : LL1 g').
  { eapply restart_LL1; [exact L|exact P|]. rewrite S. exists (chars w), (chars w'). exact Y. }
  destruct (C53_parser_tree _ _ _ _ _ _ _ _ _ _ W' L' E' Hdb Nulb Hpb) as (U' & HU' & ->).
  assert (P' : Permutation g' g) by (symmetry; exact P).
  set (R := fun ty ty' : Z => ((ty < 0)%Z /\ ty = ty') \/
    exists n, (0 <= ty)%Z /\ (0 <= ty')%Z /\ map_get Z.eqb ty names' = Some n /\ map_get Z.eqb ty' names = Some n).
  unfold parse_tree in HU'. rewrite S in HU'.
  assert (R1 : forall ty, (ty < 0)%Z -> R ty ty) by (intros ty Hty; left; auto).
  assert (R2 : forall k j x, nth_error (heads g') k = Some x -> nth_error (heads g) j = Some x -> R (Z.of_nat k) (Z.of_nat j)).
  { intros k j x Hk Hj. right. exists x. rewrite Nm, Nm', Hk, Hj. repeat split; lia. }
  destruct (proj1 (ptree_move g' g P' R R1 R2 b' (a ++ b' ++ c)) _ _ _ _ HU' (length a)) as (V & HV & AV).
  - lia.
  - rewrite !app_length. lia.
  - unfold slice_nat. rewrite Nat.sub_0_r. cbn [skipn]. rewrite firstn_all.
    rewrite skipn_app, skipn_all, Nat.sub_diag. cbn [app skipn].
    replace (length a + length b' - length a) with (length b') by lia. rewrite firstn_app, firstn_all, Nat.sub_diag. cbn. symmetry. apply app_nil_r.
  - rewrite Nat.sub_0_r in HV.
    destruct (exchange g W a b b' c n U V HU HV T HI _ _ _ HT) as (T' & HT' & _ & _ & _ & X); [lia|].
    assert (HT2 : parse_tree g (a ++ b' ++ c) T').
    { unfold parse_tree. replace (length (a ++ b' ++ c)) with (length (a ++ b ++ c) + length b' - length b) by (rewrite !app_length; lia). exact HT'. }
    pose proof (parse_tree_word _ _ _ (wf_nonempty _ W) HT2) as Hw.
    destruct (proj2 (C65_every_word_general _ _ _ _ _ m W L E) Fw src' _ Hd' Hw) as (fuel' & t' & Hp').
    exists fuel', t'. split; [exact Hp'|]. intros Nb.
    assert (Nul' : ~ In NUL (a ++ b' ++ c)).
    { intros H. rewrite !in_app_iff in *. tauto. }
    destruct (C53_parser_tree _ _ _ _ _ _ _ _ _ _ W L E Hd' Nul' Hp') as (T2 & HT3 & ->).
    rewrite (proj2 (C53_unambiguous g _ W L) _ _ HT3 HT2).
    exists (collapse V). split; [exact (X Nb)|].
    pose proof (alike_same names' names R (fun ty ty' H => H) _ _ _ AV) as Sm.
    replace (Z.of_nat 0 - Z.of_nat (length a))%Z with (- Z.of_nat (length a))%Z in Sm by lia.
    apply same_tree_back, Sm.
Qed.
Print Assumptions C78_exchange.

Lemma in_word_rules g k x : g <> [] -> follows_in_word g k x -> follow_rules g k x.
Proof.
  intros Ne (p & q & w & w' & Y & _ & Yq & Ew). apply follow_in_rules; [exact Ne|].
  destruct w' as [|z w']; cbn in Ew; subst x.
  - exists p. eapply yields_trans; [exact Y|]. apply yields_app; [constructor|].
    apply (yields_app _ [NT k] q [NT k] []); [constructor|exact Yq].
  - exists p, (chars w'). eapply yields_trans; [exact Y|]. apply yields_app; [constructor|].
    apply (yields_app _ [NT k] q [NT k] (Ch z :: chars w')); [constructor|exact Yq].
Qed.

(** In "(()x)x" (C77_case), the part "()x" exchanged for "(()x)x". *)
Definition nested_new : node :=
  Node 2 1 7 [Node 1 1 6 [Node (-1) 1 2 []; moved (-1) nested_inner; Node (-1) 5 6 []]; Node (-1) 6 7 []].
Example C78_case :
  wf_grammar nested /\ LL1 nested /\
  (forall k x, nullable nested [NT k] -> follows_in_word nested k x -> follow_code nested k x) /\
  restarted nested (s2b "B") nested' /\
  (exists fuel, parses_to fuel (fst (gen_of nested)) (Some []) (SrcString (s2b "(()x)x")) nested_tree) /\
  (exists fuel u', parses_to fuel (fst (gen_of nested')) (Some []) (SrcString (s2b "(()x)x")) u') /\
  (exists fuel t', parses_to fuel (fst (gen_of nested)) (Some []) (SrcString (s2b "((()x)x)x")) t' /\
     exchanged 3 nested_inner nested_new nested_tree t').
Proof.
  pose proof (proj1 (passes_ok _ _ nested_passes)) as Dg.
  destruct C77_case as (W & _ & R & P & _).
  split; [exact W|]. split; [apply rules_LL1; [discriminate|exact (dg_ll1 _ Dg)]|]. split.
  { intros k x Hk H. apply (dg_follow _ Dg); [exact Hk|]. apply in_word_rules; [discriminate|exact H]. }
  split; [exact R|]. split; [exact P|]. split; [exists 60; do 2 eexists; vm_compute; reflexivity|].
  exists 90, (Node 0 0 9 [Node 1 0 8 [Node (-1) 0 1 []; nested_new; Node (-1) 7 8 []]; Node (-1) 8 9 []]). split; [eexists; vm_compute; reflexivity|].
  apply (ex_child 3 _ _ 0 0 6 [] (Node 1 0 5 [Node (-1) 0 1 []; nested_inner; Node (-1) 4 5 []]) _ [Node (-1) 5 6 []]).
  apply (ex_child 3 _ _ 1 0 5 [Node (-1) 0 1 []] nested_inner _ [Node (-1) 4 5 []]). apply ex_here.
Qed.

(** With an empty new part the tree can lose more than the sub-tree: in
    S ::= A "c", A ::= B, B ::= "b" | "" the text "bc" has a node for B, and "c"
    has none. *)
Definition be_first : grammar :=
  [ru "B" [[tm "b"]; [SNothing]]; ru "S" [[nt "A"; tm "c"]]; ru "A" [[nt "B"]]].
Theorem C78_refuted_empty_part :
  exists g g' tbl names tbl' names' b c t u t',
    wf_grammar g /\ LL1 g /\ (forall k x, nullable g [NT k] -> follows_in_word g k x -> follow_code g k x) /\
    FromGrammar (256 * length g + 1) g = Ok (tbl, names) /\
    (exists fuel, parses_to fuel tbl (Some names) (SrcString (b ++ c)) t) /\
    subnode u t /\ n_type u = 2%Z /\ map_get Z.eqb 2%Z names = Some (s2b "B") /\
    n_pos u = 0%Z /\ n_end u = Z.of_nat (length b) /\
    restarted g (s2b "B") g' /\ FromGrammar (256 * length g' + 1) g' = Ok (tbl', names') /\
    (exists fuel u', parses_to fuel tbl' (Some names') (SrcString []) u') /\
    (exists fuel, parses_to fuel tbl (Some names) (SrcString c) t') /\
    forall v, n_type v = n_type u -> ~ exchanged (0 - Z.of_nat (length b)) u v t t'.
Proof.
  pose proof (proj1 (passes_ok _ _ passes_nested)) as Dg.
  exists nested_empty, be_first, (fst (gen_of nested_empty)), (snd (gen_of nested_empty)), (fst (gen_of be_first)), (snd (gen_of be_first)),
    (s2b "b"), (s2b "c"), (Node 0 0 2 [Node 1 0 1 [Node 2 0 1 [Node (-1) 0 1 []]]; Node (-1) 1 2 []]), (Node 2 0 1 [Node (-1) 0 1 []]),
    (Node 0 0 1 [Node 1 0 0 [Node (-2) 0 0 []]; Node (-1) 0 1 []]).
  split; [exact nested_wf|]. split; [exact nested_LL1|]. split.
  { intros k x Hk H. apply (dg_follow _ Dg); [exact Hk|]. apply in_word_rules; [discriminate|exact H]. }
  split; [exact gen_nested|]. split; [exists 40; eexists; vm_compute; reflexivity|].
  split; [eapply sub_child; [left; reflexivity|]; eapply sub_child; [left; reflexivity|]; apply sub_here|].
  split; [reflexivity|]. split; [vm_compute; reflexivity|]. split; [reflexivity|]. split; [reflexivity|].
  split; [split; [|reflexivity]|].
  { eapply perm_trans; [apply perm_skip, perm_swap|]. apply perm_swap. }
  split; [vm_compute; reflexivity|]. split; [exists 40; do 2 eexists; vm_compute; reflexivity|].
  split; [exists 40; eexists; vm_compute; reflexivity|].
  assert (Inv : forall d u v t t', exchanged d u v t t' -> t = u \/
    exists l1 k k' l2, n_childs t = l1 ++ k :: l2 /\ n_childs t' = l1 ++ k' :: map (moved (- d)) l2 /\ exchanged d u v k k').
  { intros d u v t t' H. destruct H as [|ty p q l1 k k' l2 X]; [left; reflexivity|right]. exists l1, k, k', l2. auto. }
  intros v Tv H. apply Inv in H. destruct H as [H|(l1 & k & k' & l2 & E1 & E2 & X)]; [discriminate|]. cbn [n_childs] in E1, E2.
  destruct l1 as [|y [|y' l1]]; cbn [app] in E1, E2.
  - injection E1 as <- <-. injection E2 as <-. apply Inv in X.
    destruct X as [X|(l1 & k & k' & l2 & E1 & E2 & X)]; [discriminate|]. cbn [n_childs] in E1, E2.
    destruct l1 as [|y l1]; cbn [app] in E1, E2; [|injection E1 as <- E1; destruct l1; discriminate].
    injection E1 as <- <-. injection E2 as <-.
    remember (Node (-2) 0 0 []) as z eqn:Ez. destruct X as [|ty p q l1 k k' l2 X]; [subst v; discriminate|].
    injection Ez as _ _ _ Ez. destruct l1; discriminate.
  - injection E1 as <- _ _. injection E2 as E2 _. discriminate.
  - injection E1 as _ _ E1. destruct l1; discriminate.
Qed.
Print Assumptions C78_refuted_empty_part.
