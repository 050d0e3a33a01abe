(** * Props_TestTools: properties C60 - C62, the helpers of the repository's tests. *)
From Verif Require Import Base ByteSet Ast Cst Parser TableGen FromCst TestTools Spec_Parse Spec_Tree Spec_Grammar
  Spec_TestTools Spec_Reorder ParseApi ParseApi2 TGFirsts TGMain TGCells TGClosed TestToolsProofs Props_Parser Props_TableGen
  Props_Reorder.
From Coq Require Import Permutation.

(** ** C60 *)

(** FprintTreeNamed prints the tree, or panics when a node lies outside of the text. *)
Theorem C60_printout :
  forall names src t,
    (inside src t -> FprintTreeNamed t names src = Ok (printout names src 0 t)) /\
    (~ inside src t -> FprintTreeNamed t names src = Panic PanicSlice).
Proof.
  intros names src t. split; intros H; unfold FprintTreeNamed.
  - rewrite (print_ok names src t 0 [] H). reflexivity.
  - apply print_bad, H.
Qed.
Print Assumptions C60_printout.

(** What Parse returned can be printed with the text it was given. *)
Theorem C60_parsed_trees :
  forall fuel tbl m src text t names,
    table_public tbl -> table_nulfree tbl -> delivers src text -> parses_to fuel tbl (Some m) src t ->
    FprintTreeNamed t names text = Ok (printout names text 0 t).
Proof.
  intros fuel tbl m src text t names P Nf Hd Hp. apply C60_printout. intros n Hn.
  eapply C13_positions_valid; eassumption.
Qed.
Print Assumptions C60_parsed_trees.

Section Same.
  Variables a b : list (Z * bytes).
  Variables na nb : list (Z * bytes).
  Hypothesis Ha : forall k, (0 <= k)%Z -> map_get Z.eqb k na = map_get Z.eqb k a.
  Hypothesis Hb : forall k, (0 <= k)%Z -> map_get Z.eqb k nb = map_get Z.eqb k b.
  Hypothesis Hneg : forall k, (k < 0)%Z -> map_get Z.eqb k na = map_get Z.eqb k nb.
  Lemma same_printout src t : forall t' d, same_tree (fun n => n) a b t t' -> printout na src d t = printout nb src d t'.
  Proof using Ha Hb Hneg.
    induction t as [ty p q l IH] using node_ind_list. intros t' d H. inversion H as [? ty' ? ? ? l' Hty Hl]; subst.
    cbn [printout]. f_equal.
    - unfold node_line. cbn [n_type n_pos n_end]. replace (type_name nb ty') with (type_name na ty); [reflexivity|].
      unfold type_name. destruct Hty as [[Hlt <-]|(n & H1 & H2 & H3 & H4)].
      + rewrite (Hneg _ Hlt). reflexivity.
      + rewrite (Ha _ H1), (Hb _ H2), H3, H4. reflexivity.
    - clear H Hty. revert l' Hl. induction IH as [|c l Hc _ IHl]; intros l' Hl; inversion Hl; subst; [reflexivity|].
      cbn [flat_map]. f_equal; [apply Hc; assumption|apply IHl; assumption].
  Qed.
End Same.

(** Reordering rules and alternatives cannot be seen in printouts (C59). *)
Theorem C60_order_not_visible :
  forall order order' fuel0 fuel0' fuel g g' tbl tbl' names names' src text t nm,
    (forall l, Permutation (order l) l) -> (forall l, Permutation (order' l) l) ->
    wf_grammar g -> first_disjoint g -> reordered g g' ->
    FromGrammar_order order fuel0 g = Ok (tbl, names) ->
    FromGrammar_order order' fuel0' g' = Ok (tbl', names') ->
    delivers src text ->
    result fuel tbl (Some names) src = Ok (mkRet (Some t) (Some (Some nm)) None) ->
    exists fuel' t' nm',
      result fuel' tbl' (Some names') src = Ok (mkRet (Some t') (Some (Some nm')) None) /\
      FprintTreeNamed t' nm' text = FprintTreeNamed t nm text.
Proof.
  intros order order' fuel0 fuel0' fuel g g' tbl tbl' names names' src text t nm O O' W D R E E' Hd Hp.
  assert (RW : rewritten (fun n => n) g g').
  { unfold rewritten. replace (rename (fun n => n) g) with g; [exact R|]. unfold rename.
    rewrite <- map_id at 1. apply map_ext. intros [hd tl]. unfold rename_rule. cbn. f_equal.
    rewrite <- map_id at 1. apply map_ext. intros s. rewrite <- map_id at 1. apply map_ext. intros []; reflexivity. }
  assert (FH : renaming (fun n => n) (fun n => n)) by (split; reflexivity).
  pose proof (TGReorder.rewritten_wf _ _ FH g g' RW W) as W'.
  destruct (C59_same_trees _ _ _ _ _ _ _ _ _ _ _ _ names names' _ _ t O O' W D FH RW E E' Hd
    (ex_intro _ fuel (ex_intro _ nm Hp))) as (fuel' & t' & (nm' & Hp') & S).
  exists fuel', t', nm'. split; [exact Hp'|].
  assert (P : parses_to fuel tbl (Some names) src t) by (exists nm; exact Hp).
  assert (P' : parses_to fuel' tbl' (Some names') src t') by (exists nm'; exact Hp').
  rewrite (C60_parsed_trees _ _ _ _ _ _ nm (FromGrammar_public _ _ _ _ _ E)
    (FromGrammar_nulfree _ _ _ _ _ (wf_nulfree _ W) E) Hd P).
  rewrite (C60_parsed_trees _ _ _ _ _ _ nm' (FromGrammar_public _ _ _ _ _ E')
    (FromGrammar_nulfree _ _ _ _ _ (wf_nulfree _ W') E') Hd P').
  f_equal. symmetry.
  destruct (proj1 (C14_names_effect fuel tbl names src) t _ _ Hp) as (m1 & X1 & _ & G1). injection X1 as <-.
  destruct (proj1 (C14_names_effect fuel' tbl' names' src) t' _ _ Hp') as (m2 & X2 & _ & G2). injection X2 as <-.
  apply (same_printout names names'); [| | |exact S].
  - intros k Hk. rewrite G1. destruct (Z.eqb_spec k (-1)); [lia|]. destruct (Z.eqb_spec k (-2)); [lia|reflexivity].
  - intros k Hk. rewrite G2. destruct (Z.eqb_spec k (-1)); [lia|]. destruct (Z.eqb_spec k (-2)); [lia|reflexivity].
  - intros k Hk. rewrite G1, G2.
    rewrite (proj2 (C25_names_distinct_heads _ _ _ _ _ O (wf_distinct _ W) E) k Hk).
    rewrite (proj2 (C25_names_distinct_heads _ _ _ _ _ O' (wf_distinct _ W') E') k Hk). reflexivity.
Qed.
Print Assumptions C60_order_not_visible.

Example C60_case :
  FprintTreeNamed (Node 0 0 3 [Node 5 0 1 []; Node (-1) 1 3 []]) [(0%Z, s2b "S"); ((-1)%Z, s2b "_literal")] (s2b "abc") =
  Ok (s2b "S: string(abc)" ++ [LF] ++ s2b "  Unknown_5: string(a)" ++ [LF] ++ s2b "  _literal: string(bc)" ++ [LF]) /\
  FprintTreeNamed (Node 0 0 3 [Node 5 0 4 []]) [] (s2b "abc") = Panic PanicSlice.
Proof. split; reflexivity. Qed.

(** ** C61 *)

Theorem C61_map_comparison :
  forall o1 o2 o3 a b adiff bdiff missMatch isEqual,
    (forall l, Permutation (o1 l) l) -> (forall l, Permutation (o2 l) l) -> (forall l, Permutation (o3 l) l) ->
    IsMapsIntStringEqual o1 o2 o3 a b = (adiff, bdiff, missMatch, isEqual) ->
    (isEqual = true <-> same_map a b) /\
    forall k,
      map_get Z.eqb k adiff = match map_get Z.eqb k b with Some _ => None | None => map_get Z.eqb k a end /\
      map_get Z.eqb k bdiff = match map_get Z.eqb k a with Some _ => None | None => map_get Z.eqb k b end /\
      forall x y, map_get Z.eqb k missMatch = Some (x, y) <->
        map_get Z.eqb k a = Some x /\ map_get Z.eqb k b = Some y /\ x <> y.
Proof.
  intros o1 o2 o3 a b adiff bdiff mm eq O1 O2 O3 H. unfold IsMapsIntStringEqual in H.
  pose proof (copy_get o1 a O1) as Ca. pose proof (copy_get o2 b O2) as Cb.
  set (a0 := copy_map o1 a) in *. set (b0 := copy_map o2 b) in *.
  assert (G := fun k => rounds_get k (o3 (map fst a0)) (a0, b0, [])). cbv zeta in G.
  destruct (fold_left (fun st k => diff_round k st) (o3 (map fst a0)) (a0, b0, [])) as [[a1 b1] m1].
  injection H as <- <- <- <-.
  assert (K : forall k,
      map_get Z.eqb k a1 = match map_get Z.eqb k b with Some _ => None | None => map_get Z.eqb k a end /\
      map_get Z.eqb k b1 = match map_get Z.eqb k a with Some _ => None | None => map_get Z.eqb k b end /\
      forall x y, map_get Z.eqb k m1 = Some (x, y) <->
        map_get Z.eqb k a = Some x /\ map_get Z.eqb k b = Some y /\ x <> y).
  { intros k. destruct (G k) as [G1 G2]. rewrite <- (Ca k), <- (Cb k).
    destruct (map_get Z.eqb k a0) as [x0|] eqn:Ea.
    - assert (Hin : In k (o3 (map fst a0))).
      { apply (Permutation_in _ (Permutation_sym (O3 _))).
        destruct (in_dec Z.eq_dec k (map fst a0)) as [X|X]; [exact X|]. apply get_none in X. congruence. }
      specialize (G2 Hin). destruct (map_get Z.eqb k b0) as [y0|] eqn:Eb.
      + destruct G2 as (-> & -> & ->). split; [reflexivity|]. split; [reflexivity|]. intros x y.
        destruct (bytes_eqb x0 y0) eqn:E; cbn [map_get].
        * apply bytes_eqb_eq in E. subst y0. split; [discriminate|]. intros (X & Y & Ne). congruence.
        * apply bytes_eqb_spec2 in E. split; [intros X; injection X as <- <-; auto|]. intros (X & Y & _). congruence.
      + destruct G2 as (-> & -> & ->). split; [reflexivity|]. split; [reflexivity|]. intros x y. cbn.
        split; [discriminate|]. intros (_ & X & _). discriminate.
    - assert (Hni : ~ In k (o3 (map fst a0))).
      { intros X. apply (Permutation_in _ (O3 _)) in X. apply get_none in Ea. contradiction. }
      destruct (G1 Hni) as (-> & -> & ->). split; [destruct (map_get Z.eqb k b0); reflexivity|]. split; [reflexivity|].
      intros x y. cbn. split; [discriminate|]. intros (X & _). discriminate. }
  split; [|exact K]. rewrite !andb_true_iff, !Nat.eqb_eq, <- !get_empty. split.
  - intros [[A B] C] k. destruct (K k) as (K1 & K2 & K3). rewrite A in K1. rewrite B in K2. specialize (C k).
    destruct (map_get Z.eqb k a) as [x|] eqn:Ea, (map_get Z.eqb k b) as [y|] eqn:Eb; try congruence.
    destruct (bytes_eqb x y) eqn:E; [apply bytes_eqb_eq in E; congruence|]. apply bytes_eqb_spec2 in E.
    rewrite (proj2 (K3 x y)) in C; [discriminate|auto].
  - intros S. split; [split|]; intros k; destruct (K k) as (K1 & K2 & K3); specialize (S k); rewrite ?K1, ?K2, <- ?S;
      try (destruct (map_get Z.eqb k a); reflexivity).
    destruct (map_get Z.eqb k m1) as [[x y]|] eqn:E; [|reflexivity]. destruct (proj1 (K3 x y) eq_refl) as (X & Y & Ne). congruence.
Qed.
Print Assumptions C61_map_comparison.

Example C61_case :
  IsMapsIntStringEqual (fun l => l) (@rev Z) (@rev Z) [(1%Z, s2b "a"); (2%Z, s2b "b"); (3%Z, s2b "c")]
    [(3%Z, s2b "x"); (4%Z, s2b "d"); (1%Z, s2b "a")] =
  ([(2%Z, s2b "b")], [(4%Z, s2b "d")], [(3%Z, (s2b "c", s2b "x"))], false).
Proof. reflexivity. Qed.

(** ** C62 *)

Lemma bufsize_pos : 0 < bufsize.
Proof. unfold bufsize. lia. Qed.

(** Exactly when ReaderContentMustBeEqual lets a test on two files (or buffers)
    pass: their contents are the same, or the longer one only repeats what is
    left over in the buffer. *)
Theorem C62_passes_iff :
  forall s s' l l',
    read_in_blocks bufsize s l -> read_in_blocks bufsize s' l' ->
    (ReaderContentMustBeEqual (plain l) (plain l') = true <->
     stale_extension bufsize s s' \/ stale_extension bufsize s' s).
Proof.
  assert (Main : forall s s' l l', read_in_blocks bufsize s l -> read_in_blocks bufsize s' l' -> length s <= length s' ->
    (ReaderContentMustBeEqual (plain l) (plain l') = true <-> ext bufsize (repeat NUL bufsize) s s')).
  { intros s s' l l' R R' L. unfold ReaderContentMustBeEqual.
    destruct l' as [|c' l'].
    - inversion R'; subst. destruct s; [|cbn in L; lia]. inversion R; subst; [|congruence]. cbn.
      split; [intros _; apply ext_refl, bufsize_pos|reflexivity].
    - apply loop_ext; try assumption; [exact bufsize_pos|apply repeat_length|].
      unfold plain. rewrite !map_length. cbn [length]. lia. }
  assert (Ex : forall s s', ext bufsize (repeat NUL bufsize) s s' <-> stale_extension bufsize s s').
  { intros s s'. unfold ext, stale_extension.
    assert (X : (forall i, length s <= i < length s' ->
        nth i s' NUL = if i <? bufsize then nth i (repeat NUL bufsize) NUL else nth (i - bufsize) s' NUL) <->
      (forall i, length s <= i < length s' ->
        nth i s' NUL = if i <? bufsize then NUL else nth (i - bufsize) s' NUL)).
    { split; intros H i Hi; rewrite H by exact Hi; destruct (i <? bufsize); try reflexivity;
        rewrite nth_repeat; reflexivity. }
    tauto. }
  intros s s' l l' R R'. destruct (le_ge_dec (length s) (length s')) as [L|L].
  - rewrite (Main _ _ _ _ R R' L), Ex. split; [tauto|]. intros [H|H]; [exact H|].
    assert (E : s' = s).
    { apply Ex in H. eapply ext_same_length; [|exact H]. destruct H as (H & _). lia. }
    subst. exact H.
  - assert (Sy : ReaderContentMustBeEqual (plain l) (plain l') = ReaderContentMustBeEqual (plain l') (plain l)).
    { unfold ReaderContentMustBeEqual. rewrite loop_sym. f_equal. lia. }
    rewrite Sy, (Main _ _ _ _ R' R L), Ex. split; [tauto|]. intros [H|H]; [|exact H].
    assert (E : s = s').
    { apply Ex in H. eapply ext_same_length; [|exact H]. destruct H as (H & _). lia. }
    subst. exact H.
Qed.
Print Assumptions C62_passes_iff.

(** Equal contents pass; contents of equal length pass only if they are equal. *)
Theorem C62_same_length :
  forall s s' l l',
    read_in_blocks bufsize s l -> read_in_blocks bufsize s' l' -> length s = length s' ->
    (ReaderContentMustBeEqual (plain l) (plain l') = true <-> s = s').
Proof.
  intros s s' l l' R R' L. rewrite (C62_passes_iff _ _ _ _ R R'). split.
  - intros [(_ & _ & F & _)|(_ & _ & F & _)].
    + rewrite <- F, L. apply firstn_all.
    + rewrite <- F, <- L. symmetry. apply firstn_all.
  - intros <-. left. split; [lia|]. split; [reflexivity|]. split; [apply firstn_all|lia].
Qed.
Print Assumptions C62_same_length.

(** So a test can pass on different contents: a reference file of 4097 times
    "a" and a result of 4098 times "a"; or "a" and "a" followed by a NUL byte. *)
Theorem C62_refuted_lengths :
  exists s s' l l',
    read_in_blocks bufsize s l /\ read_in_blocks bufsize s' l' /\ s <> s' /\ ~ In NUL s /\ ~ In NUL s' /\
    ReaderContentMustBeEqual (plain l) (plain l') = true.
Proof.
  pose proof bufsize_pos as B.
  set (s := repeat "a"%char (bufsize + 1)). set (s' := repeat "a"%char (bufsize + 2)).
  destruct (blocks_exist bufsize B s) as (l & R). destruct (blocks_exist bufsize B s') as (l' & R').
  exists s, s', l, l'. split; [exact R|]. split; [exact R'|].
  assert (Ls : length s = bufsize + 1) by apply repeat_length.
  assert (Ls' : length s' = bufsize + 2) by apply repeat_length.
  split; [intros E; apply (f_equal (@length _)) in E; lia|].
  split; [intros X; apply repeat_spec in X; discriminate|]. split; [intros X; apply repeat_spec in X; discriminate|].
  apply (C62_passes_iff _ _ _ _ R R'). left. split; [lia|]. rewrite Ls, Ls'. split; [|split].
  - rewrite !blocks_step by exact B. rewrite !blocks_1; [reflexivity|exact B| |exact B|];
      (split; [lia|unfold bufsize; lia]).
  - unfold s, s'. replace (bufsize + 2) with ((bufsize + 1) + 1) by lia. rewrite (repeat_app _ (bufsize + 1) 1).
    rewrite <- (repeat_length "a"%char (bufsize + 1)) at 1. rewrite firstn_app, firstn_all, Nat.sub_diag. cbn. apply app_nil_r.
  - assert (Nth : forall i, i < bufsize + 2 -> nth i s' NUL = "a"%char).
    { intros i Hi. unfold s'. clear - Hi. revert i Hi. generalize (bufsize + 2). induction n as [|n IH]; intros i Hi; [lia|].
      destruct i; [reflexivity|]. cbn. apply IH. lia. }
    intros i Hi. rewrite !Nth by lia. destruct (Nat.ltb_spec i bufsize); [lia|reflexivity].
Qed.
Print Assumptions C62_refuted_lengths.

(** And equal contents can fail the test when the readers hand them out in
    different pieces, which io.Reader allows. *)
Theorem C62_refuted_pieces :
  exists l l', concat l = concat l' /\ ReaderContentMustBeEqual (plain l) (plain l') = false.
Proof.
  exists [s2b "ab"], [s2b "a"; s2b "b"]. split; [reflexivity|]. vm_compute. reflexivity.
Qed.
Print Assumptions C62_refuted_pieces.

Example C62_case :
  read_in_blocks bufsize (s2b "abc") [s2b "abc"] /\
  ReaderContentMustBeEqual (plain [s2b "abc"]) (plain [s2b "abc"]) = true /\
  ReaderContentMustBeEqual (plain [s2b "abc"]) (plain [s2b "abd"]) = false /\
  ReaderContentMustBeEqual (plain [s2b "abc"]) (plain []) = false.
Proof.
  split; [|vm_compute; auto].
  assert (F : firstn bufsize (s2b "abc") = s2b "abc") by (apply firstn_all2; change (length (s2b "abc")) with 3; unfold bufsize; lia).
  rewrite <- F at 2. constructor; [discriminate|].
  rewrite skipn_all2 by (change (length (s2b "abc")) with 3; unfold bufsize; lia). constructor.
Qed.
