(** * ConvertConcInv: calls of ToAST among others, step by step. *)
From Verif Require Import Base Cst Ast FromCst SliceMem ParserMem TableGenMem
  FromCstMem Spec_Mem Spec_GenMem ParserMemProofs TGMem ConvertMem ConvertConc Spec_ConvertConc ConvertConcProofs.

(** ** One kind of arrays *)
Section Area.
  Context {T : Type}.
  Variable base : nat.

  (** The slices of all calls hold what they should, each in its own new array. *)
  Definition area (h : heap T) (L : owned T) : Prop :=
    Forall (fun p => holds h (fst p) (snd p)) L /\ own_cells base (map fst L).

  Lemma own_add_nil A B : own_cells base (A ++ B) -> own_cells base (A ++ nil_slice :: B).
  Proof.
    rewrite !own_split. intros (F1 & F2 & N). split; [exact F1|]. split; [|exact N].
    constructor; [left; reflexivity|exact F2].
  Qed.
  Lemma area_drop h A x B : area h (A ++ x :: B) -> area h (A ++ B).
  Proof.
    intros [F O]. split.
    - rewrite Forall_app in *. destruct F as [F1 F2]. inversion F2; auto.
    - rewrite map_app in *. cbn [map] in O. apply (own_mid base _ [fst x] _ O).
  Qed.
  Lemma area_new h A B : area h (A ++ B) -> area h (A ++ (nil_slice, []) :: B).
  Proof.
    intros [F O]. split.
    - rewrite Forall_app in *. destruct F as [F1 F2]. split; [exact F1|]. constructor; [apply holds_nil_slice|exact F2].
    - rewrite map_app in *. cbn [map fst]. apply own_add_nil, O.
  Qed.
  Lemma area_gle h (l l' : owned T) : gle l l' -> forall A B, area h (A ++ l ++ B) -> area h (A ++ l' ++ B).
  Proof.
    induction 1 as [|x l l' H IH|x l l' H IH|l l' H IH]; intros A B.
    - auto.
    - intros X. change ((x :: l') ++ B) with ([x] ++ l' ++ B). rewrite app_assoc. apply IH. rewrite <- app_assoc. exact X.
    - intros X. cbn in X. apply area_drop in X. apply IH, X.
    - intros X. cbn. apply area_new, IH, X.
  Qed.

  Lemma area_append zero grow h A s xs B x h' t : area h (A ++ (s, xs) :: B) -> base <= length h ->
    slice_append zero grow h s [x] = (h', t) ->
    area h' (A ++ (t, xs ++ [x]) :: B) /\ (forall a, a < base -> nth_error h' a = nth_error h a).
  Proof.
    intros [F O] Lb Ea. rewrite map_app in O. cbn [map fst] in O.
    assert (F' := F). apply Forall_app in F'. destruct F' as [FA FB]. inversion FB as [|? ? Hs FB']; subst. clear FB. cbn in Hs.
    assert (Bs : sl_cap s = 0 \/ base <= sl_arr s).
    { destruct O as (O & _). rewrite Forall_forall in O. apply O, in_or_app. right. left. reflexivity. }
    destruct (append_one zero grow h s xs x h' t base Hs Lb Bs Ea) as (H' & B' & Lh & Fr).
    assert (FAB : Forall (fun p => holds h (fst p) (snd p)) (A ++ B)) by (apply Forall_app; auto).
    assert (Lt : forall c, In c (map fst A ++ map fst B) -> sl_cap c <> 0 -> sl_arr c < length h).
    { rewrite <- map_app. apply held_lt, FAB. }
    split; [split|].
    - assert (FAB' : Forall (fun p => holds h' (fst p) (snd p)) (A ++ B)).
      { eapply held_frame; [exact FAB|]. rewrite map_app. intros c I C. apply Fr; [apply Lt; assumption|].
        eapply own_apart; eassumption. }
      apply Forall_app in FAB'. destruct FAB'. apply Forall_app. split; [assumption|]. constructor; assumption.
    - rewrite map_app. cbn [map fst]. apply (own_replace h base _ s _ t O); [exact Lt|exact B'|].
      intros a La Na. apply Fr; assumption.
    - intros a La. apply Fr; [lia|]. destruct Bs as [Bs|Bs]; [left; exact Bs|right; lia].
  Qed.

  (** Slices at different places are in different arrays. *)
  Lemma area_apart h A s xs B s' xs' C : area h (A ++ (s, xs) :: B ++ (s', xs') :: C) ->
    sl_cap s <> 0 -> sl_cap s' <> 0 -> sl_arr s <> sl_arr s'.
  Proof.
    intros [_ O] C1 C2. rewrite map_app in O. cbn [map fst] in O. rewrite map_app in O. cbn [map fst] in O.
    destruct (own_apart base _ s _ s' O) as [E|E]; [|exact C2|contradiction|congruence].
    apply in_or_app. right. apply in_or_app. right. left. reflexivity.
  Qed.
  Lemma area_held h A s xs B : area h (A ++ (s, xs) :: B) -> holds h s xs.
  Proof. intros [F _]. apply Forall_app in F. destruct F as [_ F]. inversion F; assumption. Qed.
End Area.

Lemma concat_at {X T} (f : X -> list T) l i x : nth_error l i = Some x ->
  exists A B, forall y, concat (map f (list_set l i y)) = A ++ f y ++ B.
Proof.
  intros E. destruct (nth_error_split _ _ E) as (l1 & l2 & -> & <-).
  exists (concat (map f l1)), (concat (map f l2)). intros y. rewrite list_set_app, map_app, concat_app. reflexivity.
Qed.
Lemma list_set_self {X} (l : list X) i x : nth_error l i = Some x -> list_set l i x = l.
Proof. revert i. induction l as [|y l IH]; intros [|i] E; try discriminate; cbn in *; [congruence|]. rewrite IH by exact E. reflexivity. Qed.
Lemma list_set_at {X} (l : list X) i x y : nth_error l i = Some x -> nth_error (list_set l i y) i = Some y.
Proof. intros E. rewrite list_set_nth, Nat.eqb_refl. assert (i < length l) by (apply nth_error_Some; congruence).
  destruct (Nat.ltb_spec i (length l)); [reflexivity|lia]. Qed.
Lemma list_set_else {X} (l : list X) i j (y : X) : i <> j -> nth_error (list_set l i y) j = nth_error l j.
Proof. intros N. rewrite list_set_nth. destruct (Nat.eqb_spec i j); [contradiction|reflexivity]. Qed.

(** ** All calls *)
Section Inv.
  Variable m0 : gmem.
  Variable Qs : nat -> gores fcerror slice -> ghost -> Prop.

  Record rinv (ps : list rcall) (M : gmem) (Gs : list ghost) : Prop := mkRInv {
    ri_len : length Gs = length ps;
    ri_wp : forall i p G, nth_error ps i = Some p -> nth_error Gs i = Some G -> wp p G (Qs i);
    ri_kept : all_kept m0 M;
    ri_s : area (length (gm_syms m0)) (gm_syms M) (concat (map g_s Gs));
    ri_q : area (length (gm_seqs m0)) (gm_seqs M) (concat (map g_q Gs));
    ri_r : area (length (gm_rules m0)) (gm_rules M) (concat (map g_r Gs)) }.

  Lemma rinv_ghost ps M Gs i p : rinv ps M Gs -> nth_error ps i = Some p -> exists G, nth_error Gs i = Some G /\ wp p G (Qs i).
  Proof.
    intros R E. destruct (nth_error Gs i) as [G|] eqn:EG.
    - exists G. split; [reflexivity|]. eapply ri_wp; eassumption.
    - apply nth_error_None in EG. rewrite (ri_len _ _ _ R) in EG. assert (i < length ps) by (apply nth_error_Some; congruence). lia.
  Qed.

  Lemma rinv_weaken ps M Gs i p G G' : rinv ps M Gs -> nth_error ps i = Some p -> nth_error Gs i = Some G ->
    ghle G G' -> wp p G' (Qs i) -> rinv ps M (list_set Gs i G').
  Proof.
    intros [L W K As Aq Ar] Ep EG (Ls & Lq & Lr) H. split; [rewrite list_set_length; exact L| |exact K|..].
    - intros j q G1 Eq E1. destruct (Nat.eq_dec i j) as [<-|N].
      + rewrite (list_set_at _ _ _ _ EG) in E1. injection E1 as <-. rewrite Ep in Eq. injection Eq as <-. exact H.
      + rewrite list_set_else in E1 by exact N. eapply W; eassumption.
    - destruct (concat_at g_s Gs i G EG) as (A & B & C). rewrite C. rewrite <- (list_set_self _ _ _ EG), C in As.
      eapply area_gle; eassumption.
    - destruct (concat_at g_q Gs i G EG) as (A & B & C). rewrite C. rewrite <- (list_set_self _ _ _ EG), C in Aq.
      eapply area_gle; eassumption.
    - destruct (concat_at g_r Gs i G EG) as (A & B & C). rewrite C. rewrite <- (list_set_self _ _ _ EG), C in Ar.
      eapply area_gle; eassumption.
  Qed.

  Lemma kept_below {T} (h h1 h2 : heap T) : kept h h1 -> (forall a, a < length h -> nth_error h2 a = nth_error h1 a) -> kept h h2.
  Proof. apply kept_write. Qed.

  (** One step. *)
  Lemma rinv_step ps M Gs i p p' M' : rinv ps M Gs -> nth_error ps i = Some p -> rstep p M = (p', M') ->
    exists Gs', rinv (list_set ps i p') M' Gs'.
  Proof.
    intros R Ep St. destruct (rinv_ghost _ _ _ _ _ R Ep) as (G & EG & H). destruct p as [a|g s x k|g s x k|g s x k]; cbn in St, H.
    - injection St as <- <-. exists Gs. rewrite (list_set_self _ _ _ Ep). exact R.
    - destruct H as (X & xs & q & r & L & H). destruct (slice_append zero_symbol g (gm_syms M) s [x]) as [h t] eqn:Ea.
      injection St as <- <-. destruct L as (Ls & Lq & Lr). exists (list_set Gs i (mkGhost (X ++ [(t, xs ++ [x])]) q r)).
      destruct R as [RL W K As Aq Ar]. pose proof K as (K1 & K2 & K3 & K4 & K5).
      destruct (concat_at g_s Gs i G EG) as (A & B & C). rewrite <- (list_set_self _ _ _ EG), C in As.
      apply (area_gle _ _ _ _ Ls) in As. cbn [g_s] in As. rewrite <- app_assoc, app_assoc in As.
      destruct (area_append _ zero_symbol g _ _ _ _ _ _ _ _ As (nth_incl_length _ _ K2) Ea) as (As' & Fr).
      split.
      + rewrite !list_set_length. exact RL.
      + intros j p1 G1 E1 E2. destruct (Nat.eq_dec i j) as [<-|N].
        * rewrite (list_set_at _ _ _ _ EG) in E2. rewrite (list_set_at _ _ _ _ Ep) in E1. injection E1 as <-. injection E2 as <-. apply H.
        * rewrite list_set_else in E1 by exact N. rewrite list_set_else in E2 by exact N. eapply W; eassumption.
      + split; [exact K1|]. split; [|auto]. eapply kept_below; [exact K2|exact Fr].
      + rewrite C. cbn [g_s]. rewrite <- app_assoc, app_assoc. exact As'.
      + destruct (concat_at g_q Gs i G EG) as (A1 & B1 & C1). rewrite C1. rewrite <- (list_set_self _ _ _ EG), C1 in Aq.
        eapply area_gle; eassumption.
      + destruct (concat_at g_r Gs i G EG) as (A1 & B1 & C1). rewrite C1. rewrite <- (list_set_self _ _ _ EG), C1 in Ar.
        eapply area_gle; eassumption.
    - destruct H as (X & xs & q & r & L & H). destruct (slice_append nil_slice g (gm_seqs M) s [x]) as [h t] eqn:Ea.
      injection St as <- <-. destruct L as (Ls & Lq & Lr). exists (list_set Gs i (mkGhost q (X ++ [(t, xs ++ [x])]) r)).
      destruct R as [RL W K As Aq Ar]. pose proof K as (K1 & K2 & K3 & K4 & K5).
      destruct (concat_at g_q Gs i G EG) as (A & B & C). rewrite <- (list_set_self _ _ _ EG), C in Aq.
      apply (area_gle _ _ _ _ Lq) in Aq. cbn [g_q] in Aq. rewrite <- app_assoc, app_assoc in Aq.
      destruct (area_append _ nil_slice g _ _ _ _ _ _ _ _ Aq (nth_incl_length _ _ K3) Ea) as (Aq' & Fr).
      split.
      + rewrite !list_set_length. exact RL.
      + intros j p1 G1 E1 E2. destruct (Nat.eq_dec i j) as [<-|N].
        * rewrite (list_set_at _ _ _ _ EG) in E2. rewrite (list_set_at _ _ _ _ Ep) in E1. injection E1 as <-. injection E2 as <-. apply H.
        * rewrite list_set_else in E1 by exact N. rewrite list_set_else in E2 by exact N. eapply W; eassumption.
      + split; [exact K1|]. split; [exact K2|]. split; [|auto]. eapply kept_below; [exact K3|exact Fr].
      + destruct (concat_at g_s Gs i G EG) as (A1 & B1 & C1). rewrite C1. rewrite <- (list_set_self _ _ _ EG), C1 in As.
        eapply area_gle; eassumption.
      + rewrite C. cbn [g_q]. rewrite <- app_assoc, app_assoc. exact Aq'.
      + destruct (concat_at g_r Gs i G EG) as (A1 & B1 & C1). rewrite C1. rewrite <- (list_set_self _ _ _ EG), C1 in Ar.
        eapply area_gle; eassumption.
    - destruct H as (X & xs & q & r & L & H). destruct (slice_append zero_rule g (gm_rules M) s [x]) as [h t] eqn:Ea.
      injection St as <- <-. destruct L as (Ls & Lq & Lr). exists (list_set Gs i (mkGhost q r (X ++ [(t, xs ++ [x])]))).
      destruct R as [RL W K As Aq Ar]. pose proof K as (K1 & K2 & K3 & K4 & K5).
      destruct (concat_at g_r Gs i G EG) as (A & B & C). rewrite <- (list_set_self _ _ _ EG), C in Ar.
      apply (area_gle _ _ _ _ Lr) in Ar. cbn [g_r] in Ar. rewrite <- app_assoc, app_assoc in Ar.
      destruct (area_append _ zero_rule g _ _ _ _ _ _ _ _ Ar (nth_incl_length _ _ K4) Ea) as (Ar' & Fr).
      split.
      + rewrite !list_set_length. exact RL.
      + intros j p1 G1 E1 E2. destruct (Nat.eq_dec i j) as [<-|N].
        * rewrite (list_set_at _ _ _ _ EG) in E2. rewrite (list_set_at _ _ _ _ Ep) in E1. injection E1 as <-. injection E2 as <-. apply H.
        * rewrite list_set_else in E1 by exact N. rewrite list_set_else in E2 by exact N. eapply W; eassumption.
      + split; [exact K1|]. split; [exact K2|]. split; [exact K3|]. split; [|exact K5]. eapply kept_below; [exact K4|exact Fr].
      + destruct (concat_at g_s Gs i G EG) as (A1 & B1 & C1). rewrite C1. rewrite <- (list_set_self _ _ _ EG), C1 in As.
        eapply area_gle; eassumption.
      + destruct (concat_at g_q Gs i G EG) as (A1 & B1 & C1). rewrite C1. rewrite <- (list_set_self _ _ _ EG), C1 in Aq.
        eapply area_gle; eassumption.
      + rewrite C. cbn [g_r]. rewrite <- app_assoc, app_assoc. exact Ar'.
  Qed.

  Lemma rinv_turn ps M Gs i : rinv ps M Gs ->
    exists Gs', rinv (rc_calls (rturn (mkRConfig ps M) i)) (rc_mem (rturn (mkRConfig ps M) i)) Gs'.
  Proof.
    intros R. unfold rturn. cbn [rc_calls rc_mem]. destruct (nth_error ps i) as [p|] eqn:Ep; [|exists Gs; exact R].
    destruct (rstep p M) as [p' M'] eqn:St. cbn. eapply rinv_step; eassumption.
  Qed.
End Inv.

(** What the calls should end with. *)
Definition rwant (jobs : list rjob) (i : nat) (x : gores fcerror slice) (G : ghost) : Prop :=
  forall j, nth_error jobs i = Some j -> call_ends (ToAST (r_bindings j) (r_root j) (r_str j)) x G.

Lemma rinv_start jobs m : rinv m (rwant jobs) (map rstart jobs) m (map (fun _ => mkGhost [] [] []) jobs).
Proof.
  split.
  - rewrite !map_length. reflexivity.
  - intros i p G E1 E2. rewrite nth_error_map in E1, E2. destruct (nth_error jobs i) as [j|] eqn:E; [|discriminate].
    injection E1 as <-. injection E2 as <-. eapply wp_conseq; [|apply wp_ToAST].
    intros x G H j' Ej. rewrite E in Ej. injection Ej as <-. exact H.
  - apply all_kept_refl.
  - induction jobs; [repeat split; constructor|]. exact IHjobs.
  - induction jobs; [repeat split; constructor|]. exact IHjobs.
  - induction jobs; [repeat split; constructor|]. exact IHjobs.
Qed.

Lemma rinv_after jobs m sched : exists Gs,
  rinv m (rwant jobs) (rc_calls (rafter jobs m sched)) (rc_mem (rafter jobs m sched)) Gs.
Proof.
  unfold rafter. assert (H : exists Gs, rinv m (rwant jobs) (rc_calls (rall_start jobs m)) (rc_mem (rall_start jobs m)) Gs)
    by (eexists; apply rinv_start).
  revert H. generalize (rall_start jobs m). induction sched as [|i sched IH]; intros c H; [exact H|].
  cbn [fold_left]. apply IH. destruct c as [ps M], H as (Gs & H). eapply rinv_turn, H.
Qed.
