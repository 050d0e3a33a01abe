(** * ProgramsProofs: the key listing of examples/json/main.go on any tree. *)
From Verif Require Import Base Cst Ast Parser SelfGrammar TableGen FromCst Examples Spec_Parse Spec_Tree Spec_Grammar Spec_Table
  Spec_Bnf Spec_Reading Spec_Override Spec_Outcome Spec_Predict Spec_Messages Spec_Programs WalkProofs TreeProofs.

Section Listing.
  Variable text : bytes.
  Definition inside (n : node) : Prop :=
    forall m, subnode m n -> (0 <= n_pos m <= n_end m)%Z /\ (n_end m <= Z.of_nat (length text))%Z.
  Lemma inside_child n c : inside n -> In c (n_childs n) -> inside c.
  Proof. intros H Hc m Hm. apply H. destruct n as [ty p q l]. eapply sub_child; [exact Hc|exact Hm]. Qed.

  Notation visit := (keyVisit_io text).
  Notation W := (walk (keyVisit_io text)).
  Notation E := (walk_each (keyVisit_io text)).

  Lemma stopped l level out p : E level (out, Some p) l = Ok (out, Some p).
  Proof.
    induction l as [|c l IH]; [reflexivity|]. cbn [walk_each]. rewrite walk_eq. cbn [keyVisit_io]. exact IH.
  Qed.

  Lemma visit_own level n own out : inside n -> (n_type n <= 10)%Z -> own_line text level n own ->
    visit level (out, None) n = Ok ((out ++ own, None), Some (level_below level n)).
  Proof.
    intros In Hn Ho. cbn [keyVisit_io].
    destruct (Z.ltb_spec 10 (n_type n)) as [L|_]; [lia|].
    assert (Lv : (if (n_type n =? 9)%Z || (n_type n =? 10)%Z then S level else level) = level_below level n).
    { unfold level_below. destruct (Z.eqb_spec (n_type n) 9), (Z.eqb_spec (n_type n) 10), (Z.eq_dec (n_type n) 9), (Z.eq_dec (n_type n) 10);
        try reflexivity; contradiction. }
    rewrite Lv. destruct Ho as [Ht|s Ht (c & Hc & Hs)].
    - destruct (Z.eqb_spec (n_type n) 6) as [e|_]; [contradiction|]. rewrite app_nil_r. reflexivity.
    - rewrite Ht. cbn [Z.eqb Pos.eqb]. unfold child. rewrite Hc. cbn [or_crash]. rewrite Hs. cbn [or_crash].
      assert (Hi : inside s).
      { eapply inside_child; [eapply inside_child; [exact In|]|]; eapply nth_error_In; eassumption. }
      destruct (Hi s (sub_here s)) as ((A & B) & C). unfold slice.
      destruct (Z.leb_spec 0 (n_pos s)); [|lia]. destruct (Z.leb_spec (n_pos s) (n_end s)); [|lia].
      destruct (Z.leb_spec (n_end s) (Z.of_nat (length text))); [|lia]. cbn [andb or_crash].
      unfold text_of, indentation. rewrite <- app_assoc. reflexivity.
  Qed.

  Scheme lists_ind2 := Induction for lists Sort Prop with lists_all_ind2 := Induction for lists_all Sort Prop.
  Combined Scheme lists_mut from lists_ind2, lists_all_ind2.

  Lemma lists_walk :
    (forall level n keys, lists text level n keys -> inside n -> forall out, W level (out, None) n = Ok (out ++ keys, None)) /\
    (forall level l keys, lists_all text level l keys -> (forall c, In c l -> inside c) ->
       forall out, E level (out, None) l = Ok (out ++ keys, None)).
  Proof.
    apply lists_mut.
    - intros level n L In out. rewrite walk_eq. cbn [keyVisit_io]. destruct (Z.ltb_spec 10 (n_type n)); [|lia].
      rewrite app_nil_r. reflexivity.
    - intros level n own below Hn Ho _ IH In out. rewrite walk_eq, (visit_own _ _ _ _ In Hn Ho).
      rewrite IH by (intros c Hc; eapply inside_child; eassumption). rewrite <- app_assoc. reflexivity.
    - intros level _ out. rewrite app_nil_r. reflexivity.
    - intros level n ns first rest _ IH1 _ IH2 In out. cbn [walk_each].
      rewrite IH1 by (apply In; left; reflexivity). rewrite IH2 by (intros c Hc; apply In; right; exact Hc).
      rewrite <- app_assoc. reflexivity.
  Qed.

  Lemma each_app v s l l' : E v s (l ++ l') = match E v s l with Ok s' => E v s' l' | r => r end.
  Proof.
    revert s. induction l as [|c l IH]; intros s; [reflexivity|]. cbn [app walk_each].
    destruct (W v s c); try reflexivity. apply IH.
  Qed.

  Lemma crashes_walk level n keys : list_crashes text level n keys -> inside n ->
    forall out, W level (out, None) n = Ok (out ++ keys, Some PanicIndex).
  Proof.
    induction 1 as [level n Ht Hk|level n own before c after printed part Hn Ho Hc Hl Hx IH]; intros Is out.
    - rewrite walk_eq. cbn [keyVisit_io]. rewrite Ht. cbn [Z.ltb Z.compare Pos.compare Pos.compare_cont Z.eqb Pos.eqb orb].
      unfold child. rewrite app_nil_r. destruct (nth_error (n_childs n) 0) as [c|] eqn:E0; cbn [or_crash]; [|reflexivity].
      destruct (nth_error (n_childs c) 1) as [s|] eqn:E1; cbn [or_crash]; [|reflexivity].
      destruct (Hk s). exists c. auto.
    - rewrite walk_eq, (visit_own _ _ _ _ Is Hn Ho), Hc, each_app.
      assert (Ib : forall d, In d (before ++ c :: after) -> inside d).
      { intros d Hd. eapply inside_child; [exact Is|]. rewrite Hc. exact Hd. }
      rewrite (proj2 lists_walk _ _ _ Hl) by (intros d Hd; apply Ib, in_or_app; left; exact Hd).
      cbn [walk_each]. rewrite IH by (apply Ib, in_or_app; right; left; reflexivity). rewrite stopped.
      rewrite <- !app_assoc. reflexivity.
  Qed.

  Lemma listing_ends k : forall n, size n <= k -> forall level,
    (exists keys, lists text level n keys) \/ (exists keys, list_crashes text level n keys).
  Proof.
    induction k as [|k IH]; intros n Hk level; [destruct n; cbn in Hk; lia|].
    destruct (Z_lt_le_dec 10 (n_type n)) as [L|L]; [left; exists []; constructor; exact L|].
    assert (O : (exists own, own_line text level n own) \/ (n_type n = 6%Z /\ forall s, ~ key_node n s)).
    { destruct (Z.eq_dec (n_type n) 6) as [H6|H6]; [|left; exists []; constructor; exact H6].
      destruct (nth_error (n_childs n) 0) as [c|] eqn:E0.
      - destruct (nth_error (n_childs c) 1) as [s|] eqn:E1.
        + left. eexists. eapply ow_key; [exact H6|]. exists c. eauto.
        + right. split; [exact H6|]. intros s (c' & A & B). congruence.
      - right. split; [exact H6|]. intros s (c' & A & B). congruence. }
    destruct O as [(own & Ho)|(H6 & Hs)]; [|right; exists []; constructor; assumption].
    assert (C : forall l, (forall c, In c l -> size c <= k) ->
      (exists keys, lists_all text (level_below level n) l keys) \/
      (exists before c after printed part, l = before ++ c :: after /\
         lists_all text (level_below level n) before printed /\ list_crashes text (level_below level n) c part)).
    { induction l as [|c l IHl]; intros Hl; [left; exists []; constructor|].
      destruct (IH c (Hl c (or_introl eq_refl)) (level_below level n)) as [(k1 & H1)|(k1 & H1)].
      - destruct IHl as [(k2 & H2)|(before & d & after & printed & part & -> & H2 & H3)].
        + intros d Hd. apply Hl. right. exact Hd.
        + left. exists (k1 ++ k2). constructor; assumption.
        + right. exists (c :: before), d, after, (k1 ++ printed), part. split; [reflexivity|]. split; [constructor; assumption|exact H3].
      - right. exists [], c, l, [], k1. split; [reflexivity|]. split; [constructor|exact H1]. }
    destruct (C (n_childs n)) as [(k1 & H1)|(before & c & after & printed & part & Ec & H1 & H2)].
    - intros c Hc. pose proof (size_child c n Hc). lia.
    - left. exists (own ++ k1). constructor; assumption.
    - right. exists (own ++ printed ++ part). eapply lc_below; eassumption.
  Qed.
End Listing.
