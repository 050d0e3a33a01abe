From Verif Require Import Base Cst Ast FromCst Spec_Convert ConvertProofs ConvertConcurrent.
From Coq Require Import Sorted Permutation.

Lemma put_length k v l : k < length l -> length (put k v l) = length l.
Proof.
  intros H. unfold put. rewrite app_length, firstn_length. cbn [length]. rewrite skipn_length. lia.
Qed.
Lemma nth_put k v l m : k < length l -> nth m (put k v l) 0%Z = if Nat.eqb m k then v else nth m l 0%Z.
Proof.
  intros H. unfold put.
  destruct (Nat.eqb_spec m k) as [->|N].
  - rewrite app_nth2; rewrite firstn_length, Nat.min_l by lia; [|lia]. rewrite Nat.sub_diag. reflexivity.
  - destruct (Nat.lt_ge_cases m k) as [L|L].
    + rewrite app_nth1 by (rewrite firstn_length; lia).
      rewrite <- (firstn_skipn k l) at 2. rewrite app_nth1 by (rewrite firstn_length; lia). reflexivity.
    + rewrite app_nth2; rewrite firstn_length, Nat.min_l by lia; [|lia].
      destruct (m - k) as [|d] eqn:E; [lia|]. cbn [nth].
      rewrite <- (firstn_skipn (S k) l) at 2.
      rewrite app_nth2; rewrite firstn_length; [|lia]. rewrite Nat.min_l by lia. f_equal. lia.
Qed.


Lemma F2len (A B : Type) (R : A -> B -> Prop) l1 l2 : Forall2 R l1 l2 -> length l1 = length l2.
Proof. induction 1; cbn; congruence. Qed.

(** ** A call alone *)
Section Alone.
  Variable b : bindings.
  Variables (root : node) (str : bytes).
  Let calls := [(root, str)].

  Lemma alone_step t l t' l' :
    ct_step b root str t l t' l' -> cc_step b calls ([t], l) ([t'], l').
  Proof.
    intros H. change [t] with ([] ++ t :: []). change [t'] with ([] ++ t' :: []).
    econstructor; [reflexivity|exact H].
  Qed.
  Lemma alone_inv t l c :
    cc_step b calls ([t], l) c -> exists t' l', c = ([t'], l') /\ ct_step b root str t l t' l'.
  Proof.
    intros H. inversion H as [l1 u l2 l0 t' l' r s N S E1 E2]; subst.
    destruct l1 as [|? [|? ?]]; try discriminate. cbn in *. inversion N; subst.
    inversion E1; subst. exists t', l'. split; [reflexivity|exact S].
  Qed.
  Lemma ct_det t l t1 l1 t2 l2 :
    ct_step b root str t l t1 l1 -> ct_step b root str t l t2 l2 -> t1 = t2 /\ l1 = l2.
  Proof.
    intros H1 H2. inversion H1; subst; inversion H2; subst; try (split; reflexivity); try lia; exfalso; auto.
  Qed.

  Lemma steps_trans x y z : cc_steps b calls x y -> cc_steps b calls y z -> cc_steps b calls x z.
  Proof. intros H1 H2. induction H2; [exact H1|]. econstructor; [apply IHcc_steps, H1|exact H]. Qed.
  Lemma steps_one x y : cc_step b calls x y -> cc_steps b calls x y.
  Proof. intros H. econstructor; [constructor|exact H]. Qed.
  Lemma steps_head x y : cc_steps b calls x y -> x = y \/ exists z, cc_step b calls x z /\ cc_steps b calls z y.
  Proof.
    induction 1 as [|x y z H IH S]; [left; reflexivity|]. destruct IH as [->|(w & H1 & H2)].
    - right. exists z. split; [exact S|constructor].
    - right. exists w. split; [exact H1|]. econstructor; eassumption.
  Qed.

  Lemma go_one t l t' l' c :
    ct_step b root str t l t' l' -> cc_steps b calls ([t'], l') c -> cc_steps b calls ([t], l) c.
  Proof. intros H1 H2. eapply steps_trans; [apply steps_one, alone_step, H1|exact H2]. Qed.

  Lemma put_app p x y q : put (length p) y (p ++ x :: q) = p ++ y :: q.
  Proof.
    unfold put. rewrite firstn_app, firstn_all, Nat.sub_diag. cbn [firstn]. rewrite app_nil_r. f_equal. f_equal.
    rewrite skipn_app. rewrite skipn_all2 by lia. cbn [app]. replace (S (length p) - length p) with 1 by lia. reflexivity.
  Qed.

  Lemma inner i : forall p x q r,
    length (p ++ x :: q) = S i -> StronglySorted Z.le (p ++ q) -> Forall (Z.le x) q ->
    exists s, StronglySorted Z.le s /\ Permutation s (p ++ x :: q) /\
      cc_steps b calls ([CLess i (length p)], p ++ x :: q ++ r) ([CLess (S i) (S i)], s ++ r).
  Proof.
    intros p. induction p as [|y p IH] using rev_ind; intros x q r L Hs Hx.
    - exists (x :: q). split; [constructor; assumption|]. split; [reflexivity|].
      apply steps_one, alone_step. apply ct_next; [|intros [A _]; cbn in A; lia].
      cbn in *. rewrite app_length. lia.
    - assert (Len : i < length ((p ++ [y]) ++ x :: q ++ r)).
      { change (x :: q ++ r) with ((x :: q) ++ r). rewrite app_assoc, app_length. lia. }
      assert (Nj : nth (length (p ++ [y])) ((p ++ [y]) ++ x :: q ++ r) 0%Z = x).
      { rewrite app_nth2 by lia. rewrite Nat.sub_diag. reflexivity. }
      assert (Lp : length (p ++ [y]) - 1 = length p) by (rewrite app_length; cbn; lia).
      assert (Np : nth (length (p ++ [y]) - 1) ((p ++ [y]) ++ x :: q ++ r) 0%Z = y).
      { rewrite Lp, <- app_assoc, app_nth2 by lia. rewrite Nat.sub_diag. reflexivity. }
      destruct (Z.lt_ge_cases x y) as [Lt|Ge].
      + destruct (IH x (y :: q) r) as (s & S1 & S2 & S3).
        * rewrite !app_length in *. cbn in *. lia.
        * rewrite <- app_assoc in Hs. exact Hs.
        * constructor; [lia|exact Hx].
        * exists s. split; [exact S1|]. split.
          { rewrite S2, <- app_assoc. cbn. apply Permutation_app_head, perm_swap. }
          eapply go_one; [apply ct_less; [exact Len|rewrite app_length; cbn; lia|rewrite Nj, Np; exact Lt]|].
          eapply go_one; [apply ct_read|]. rewrite Nj, Np.
          eapply go_one; [apply ct_write1|].
          rewrite put_app.
          eapply go_one; [apply ct_write2|].
          rewrite Lp. rewrite <- app_assoc. cbn [app]. rewrite put_app. exact S3.
      + exists ((p ++ [y]) ++ x :: q). split; [|split; [reflexivity|]].
        * rewrite <- app_assoc in *. cbn [app] in *.
          clear - Hs Hx Ge. induction p as [|z p IHp]; cbn in *.
          { inversion Hs; subst. constructor; [constructor; assumption|]. constructor; [lia|assumption]. }
          inversion Hs as [|? ? A B]; subst. constructor; [apply IHp, A|].
          apply Forall_app in B. destruct B as (B1 & B2). inversion B2; subst.
          apply Forall_app. split; [exact B1|]. constructor; [assumption|]. constructor; [lia|assumption].
        * rewrite <- (app_assoc (p ++ [y]) (x :: q) r). apply steps_one, alone_step.
          apply ct_next; [exact Len|].
          change ((x :: q) ++ r) with (x :: q ++ r). rewrite Nj, Np. lia.
  Qed.

  Lemma outer : forall r s, StronglySorted Z.le s -> s <> [] ->
    exists s', StronglySorted Z.le s' /\ Permutation s' (s ++ r) /\
      cc_steps b calls ([CLess (length s) (length s)], s ++ r) ([CConvert], s').
  Proof.
    induction r as [|x r IH]; intros s Hs Ne.
    - exists s. rewrite app_nil_r. split; [exact Hs|]. split; [reflexivity|].
      apply steps_one, alone_step, ct_end. lia.
    - destruct (inner (length s) s x [] r) as (s1 & S1 & S2 & S3).
      + rewrite app_length. cbn. lia.
      + rewrite app_nil_r. exact Hs.
      + constructor.
      + assert (L1 : length s1 = S (length s)).
        { rewrite (Permutation_length S2), app_length. cbn. lia. }
        destruct (IH s1) as (s' & T1 & T2 & T3); [exact S1|destruct s1; [discriminate L1|discriminate]|].
        exists s'. split; [exact T1|]. split.
        * rewrite T2, S2, <- app_assoc. reflexivity.
        * eapply steps_trans; [exact S3|]. rewrite L1 in T3. exact T3.
  Qed.

  Lemma sorted_unique s t : StronglySorted Z.le s -> StronglySorted Z.le t -> Permutation s t -> s = t.
  Proof.
    revert t. induction s as [|x s IH]; intros t Hs Ht P.
    - apply Permutation_nil in P. congruence.
    - destruct t as [|y t]; [apply Permutation_sym, Permutation_nil in P; discriminate|].
      inversion Hs as [|? ? A B]; subst. inversion Ht as [|? ? C D]; subst.
      assert (x = y).
      { assert (In x (y :: t)) by (eapply Permutation_in; [exact P|left; reflexivity]).
        assert (In y (x :: s)) by (eapply Permutation_in; [symmetry; exact P|left; reflexivity]).
        rewrite Forall_forall in B, D. cbn in *.
        assert ((y <= x)%Z) by (destruct H as [->|H]; [lia|apply D, H]).
        assert ((x <= y)%Z) by (destruct H0 as [->|H0]; [lia|apply B, H0]). lia. }
      subst y. f_equal. apply IH; [exact A|exact C|]. eapply Permutation_cons_inv, P.
  Qed.

  Lemma alone_sorts l : cc_steps b calls ([CLess 1 1], l) ([CConvert], sort_ints l).
  Proof.
    destruct l as [|x r].
    - apply steps_one, alone_step, ct_end. cbn. lia.
    - destruct (outer r [x]) as (s & S1 & S2 & S3); [repeat constructor|discriminate|].
      replace (sort_ints (x :: r)) with s; [exact S3|]. apply sorted_unique; [exact S1| |].
      + apply Sorted_StronglySorted; [intros u v w; lia|]. apply sort_ints_sorted.
      + rewrite S2, sort_ints_perm. reflexivity.
  Qed.

  Lemma alone_reaches l :
    cc_steps b calls (cc_init calls l) ([CDone (ToAST (with_ignored l b) root str)], sort_ints l).
  Proof.
    eapply steps_trans; [apply alone_sorts|]. apply steps_one, alone_step. apply ct_convert.
  Qed.

  (** Steps are determined, and there are none after the end. *)
  Lemma alone_shape t l c : cc_steps b calls ([t], l) c -> exists t' l', c = ([t'], l').
  Proof.
    intros H. remember ([t], l) as st eqn:E. induction H as [st|x y z H IH S]; [eauto|].
    destruct (IH E) as (t' & l' & ->). destruct (alone_inv _ _ _ S) as (t2 & l2 & -> & _). eauto.
  Qed.
  Lemma alone_confluent t l c r l' :
    cc_steps b calls ([t], l) c -> cc_steps b calls ([t], l) ([CDone r], l') ->
    cc_steps b calls c ([CDone r], l').
  Proof.
    intros H D. remember ([t], l) as st eqn:E. induction H as [st|x y z H IH S]; [exact D|].
    specialize (IH E D). subst x. destruct (alone_shape _ _ _ H) as (t1 & l1 & ->).
    destruct (alone_inv _ _ _ S) as (t2 & l2 & -> & S2).
    destruct (steps_head _ _ IH) as [Q|(w & W1 & W2)].
    - inversion Q; subst. inversion S2.
    - destruct (alone_inv _ _ _ W1) as (t3 & l3 & -> & S3).
      destruct (ct_det _ _ _ _ _ _ S2 S3) as (-> & ->). exact W2.
  Qed.
End Alone.

(** ** Calls on a sorted slice *)
Section SortedSlice.
  Variable b : bindings.
  Variable calls : list (node * bytes).
  Variable l : list Z.
  Hypothesis Hs : Sorted Z.le l.

  Definition undisturbed (c : node * bytes) (t : cthread) : Prop :=
    match t with
    | CLess i j => i = j
    | CConvert => True
    | CDone r => r = ToAST (with_ignored l b) (fst c) (snd c)
    | _ => False
    end.
  Definition quiet (s : cconc) : Prop := snd s = l /\ Forall2 undisturbed calls (fst s).

  Lemma sort_sorted : sort_ints l = l.
  Proof.
    apply sorted_unique.
    - apply Sorted_StronglySorted; [intros u v w; lia|]. apply sort_ints_sorted.
    - apply Sorted_StronglySorted; [intros u v w; lia|]. exact Hs.
    - apply sort_ints_perm.
  Qed.

  Lemma quiet_step s s' : quiet s -> cc_step b calls s s' -> quiet s'.
  Proof.
    intros (E & F) S. inversion S as [l1 t l2 l0 t' l' root str N C]; subst. cbn [fst snd] in *. subst l0.
    apply Forall2_app_inv_r in F. destruct F as (c1 & c2 & F1 & F2 & Ec).
    inversion F2 as [|c ? c3 ? U F3]; subst.
    assert (c = (root, str)).
    { rewrite Ec in N. rewrite nth_error_app2 in N by (rewrite (F2len _ _ _ _ _ F1); lia).
      rewrite (F2len _ _ _ _ _ F1), Nat.sub_diag in N. cbn in N. congruence. }
    subst c.
    assert (G : l' = l /\ undisturbed (root, str) t').
    { inversion C; subst; cbn in *; try contradiction; try (split; [reflexivity|auto]).
      - exfalso. subst j. apply sorted_mono in Hs. specialize (Hs (i - 1) i). lia.
      - unfold ToAST. change (sort_bindings (with_ignored l b)) with (with_ignored (sort_ints l) b).
        rewrite sort_sorted. reflexivity. }
    destruct G as (-> & G). split; [reflexivity|]. cbn. rewrite Ec. apply Forall2_app; [exact F1|]. constructor; assumption.
  Qed.
  Lemma quiet_init : quiet (cc_init calls l).
  Proof.
    split; [reflexivity|]. unfold cc_init. cbn [fst]. clear. induction calls; constructor; auto. reflexivity.
  Qed.
  Lemma quiet_always s : cc_steps b calls (cc_init calls l) s -> quiet s.
  Proof.
    intros H. remember (cc_init calls l) as s0 eqn:E. induction H as [s0|x y z H IH S].
    - subst s0. apply quiet_init.
    - eapply quiet_step; [apply IH, E|exact S].
  Qed.
End SortedSlice.

(** ** Every execution ends *)
Section Ends.
  Variable b : bindings.
  Variable calls : list (node * bytes).
  Variable n : nat.

  Definition rank (t : cthread) : nat :=
    let k i := (n - i) * (4 * n + 4) in
    match t with
    | CLess i j => k i + 4 * j + 2
    | CRead i j => k i + 4 * j + 1
    | CWrite1 i j _ _ => k i + 4 * j
    | CWrite2 i j _ => k i + 4 * j - 1
    | CConvert => 1
    | CDone _ => 0
    end.
  Definition placed (t : cthread) : Prop :=
    match t with
    | CLess i j => j <= i
    | CRead i j | CWrite1 i j _ _ | CWrite2 i j _ => 0 < j /\ j <= i /\ i < n
    | _ => True
    end.
  Lemma rank_step root str t l t' l' :
    length l = n -> placed t -> ct_step b root str t l t' l' ->
    length l' = n /\ placed t' /\ rank t' < rank t.
  Proof.
    intros L P C. inversion C; subst; cbn [rank placed] in *.
    - repeat split; lia.
    - repeat split; lia.
    - split; [lia|]. split; [lia|].
      replace (n - i) with (S (n - S i)) by lia.
      assert (D : forall d k, 4 * S i < k + 4 * j -> d * k + 4 * S i + 2 < S d * k + 4 * j + 2).
      { intros d k. rewrite (Nat.mul_succ_l d k). generalize (d * k). lia. }
      apply D. lia.
    - repeat split; lia.
    - rewrite put_length by lia. repeat split; try lia. generalize ((n - i) * (4 * n + 4)). lia.
    - rewrite put_length by lia. repeat split; lia.
    - repeat split; lia.
  Qed.
  Lemma ends m : forall ts l,
    length l = n -> Forall placed ts -> list_sum (map rank ts) <= m ->
    Acc (fun y x => cc_step b calls x y) (ts, l).
  Proof.
    induction m as [|m IH]; intros ts l L P M; constructor; intros c S;
      inversion S as [l1 t l2 l0 t' l' root str N C]; subst;
      apply Forall_app in P; destruct P as (P1 & P2); inversion P2 as [|? ? P3 P4]; subst;
      destruct (rank_step _ _ _ _ _ _ L P3 C) as (L' & P' & R);
      rewrite map_app, list_sum_app in M; cbn [map list_sum fold_right] in M;
      change (fold_right Nat.add 0 (map rank l2)) with (list_sum (map rank l2)) in M.
    - lia.
    - apply IH; [exact L'| |].
      + apply Forall_app. split; [exact P1|]. constructor; assumption.
      + rewrite map_app, list_sum_app. cbn [map list_sum fold_right].
        change (fold_right Nat.add 0 (map rank l2)) with (list_sum (map rank l2)). lia.
  Qed.
End Ends.
