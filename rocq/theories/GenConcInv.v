(** * GenConcInv: calls of FromGrammar among others, step by step. *)
From Verif Require Import Base ByteSet Ast Parser SliceMem ParserMem TableGen TableGenMem TableGenConc
  Spec_Mem Spec_GenMem Spec_GenConc ParserMemProofs TGMem GenConcProofs GenConcRel.

(** ** Heaps *)
Definition dom (r : adr) : list nat := map fst r.
Definition ran (r : adr) : list nat := map snd r.

Section Heaps.
  Context {T : Type}.
  Variable base : nat.

  Definition hrel (r : adr) (h H : heap T) : Prop :=
    NoDup (dom r) /\ NoDup (ran r) /\
    forall a b, In (a, b) r -> base <= a /\ base <= b /\
      exists arr, nth_error h a = Some arr /\ nth_error H b = Some arr.

  (** What a step may do to the memory of the others. *)
  Definition heff (r r' : adr) (H H' : heap T) : Prop :=
    length H <= length H' /\
    (forall b, b < length H -> ~ In b (ran r) -> nth_error H' b = nth_error H b) /\
    (forall b, In b (ran r') -> In b (ran r) \/ length H <= b).

  Lemma heff_refl r H : heff r r H H.
  Proof. split; [lia|]. split; auto. Qed.

  Lemma hrel_lt r h H : hrel r h H -> forall b, In b (ran r) -> base <= b < length H.
  Proof.
    intros (_ & _ & C) b I. apply in_map_iff in I. destruct I as ([a b'] & <- & I). cbn.
    destruct (C _ _ I) as (_ & L & arr & _ & E). split; [exact L|]. apply nth_error_Some. congruence.
  Qed.
  Lemma hrel_dom_lt r h H : hrel r h H -> forall a, In a (dom r) -> a < length h.
  Proof.
    intros (_ & _ & C) a I. apply in_map_iff in I. destruct I as ([a' b'] & <- & I). cbn.
    destruct (C _ _ I) as (_ & L & arr & E & _). apply nth_error_Some. congruence.
  Qed.

  Lemma hrel_get r h H s s' i : hrel r h H -> srel r s s' -> slice_get h s i = slice_get H s' i.
  Proof.
    intros (_ & _ & C) (E1 & E2 & E3 & E4). unfold slice_get. rewrite <- E1, <- E2.
    destruct E4 as [[_ L]|I]; [rewrite L; reflexivity|]. destruct (C _ _ I) as (_ & _ & arr & -> & ->). reflexivity.
  Qed.
  Lemma hrel_elems r h H s s' : hrel r h H -> srel r s s' -> slice_elems h s = slice_elems H s'.
  Proof.
    intros (_ & _ & C) (E1 & E2 & E3 & E4). unfold slice_elems. rewrite <- E1, <- E2.
    destruct E4 as [[_ L]|I].
    - rewrite L. destruct (nth_error h (sl_arr s)), (nth_error H (sl_arr s')); reflexivity.
    - destruct (C _ _ I) as (_ & _ & arr & -> & ->). reflexivity.
  Qed.

  Lemma NoDup_fst_inj (r : adr) a b b' : NoDup (dom r) -> In (a, b) r -> In (a, b') r -> b = b'.
  Proof.
    induction r as [|[x y] r IH]; [contradiction|]. unfold dom in *. cbn. intros N I J. inversion N as [|? ? X Y]; subst.
    destruct I as [I|I], J as [J|J].
    - congruence.
    - injection I as -> ->. destruct X. change a with (fst (a, b')). apply in_map, J.
    - injection J as -> ->. destruct X. change a with (fst (a, b)). apply in_map, I.
    - apply IH; assumption.
  Qed.
  Lemma NoDup_snd_inj (r : adr) a a' b : NoDup (ran r) -> In (a, b) r -> In (a', b) r -> a = a'.
  Proof.
    induction r as [|[x y] r IH]; [contradiction|]. unfold ran in *. cbn. intros N I J. inversion N as [|? ? X Y]; subst.
    destruct I as [I|I], J as [J|J].
    - congruence.
    - injection I as -> ->. destruct X. change b with (snd (a', b)). apply in_map, J.
    - injection J as -> ->. destruct X. change b with (snd (a, b)). apply in_map, I.
    - apply IH; assumption.
  Qed.

  Lemma hrel_write r h H a b j x : hrel r h H -> In (a, b) r ->
    hrel r (heap_write h a j x) (heap_write H b j x) /\ heff r r H (heap_write H b j x).
  Proof.
    intros (N1 & N2 & C) I. split.
    - split; [exact N1|]. split; [exact N2|]. intros a1 b1 I1. destruct (C _ _ I1) as (B1 & B2 & arr & E1 & E2).
      split; [exact B1|]. split; [exact B2|]. destruct (Nat.eq_dec a1 a) as [->|Na].
      + assert (b1 = b) as -> by exact (NoDup_fst_inj r a b1 b N1 I1 I).
        exists (list_set arr j x). split; apply heap_write_same; assumption.
      + assert (b1 <> b) as Nb by (intros ->; apply Na; exact (NoDup_snd_inj r a1 a b N2 I1 I)).
        exists arr. rewrite !heap_write_other by assumption. auto.
    - split; [rewrite heap_write_length; lia|]. split; [|auto]. intros c _ Nc. apply heap_write_other.
      intros ->. apply Nc. change b with (snd (a, b)). apply in_map, I.
  Qed.

  Lemma hrel_set r h H s s' i x : hrel r h H -> srel r s s' ->
    match slice_set h s i x, slice_set H s' i x with
    | Some h', Some H' => hrel r h' H' /\ heff r r H H'
    | None, None => True
    | _, _ => False
    end.
  Proof.
    intros R (E1 & E2 & E3 & E4). unfold slice_set. rewrite <- E2, <- E1.
    destruct (Nat.ltb_spec i (sl_len s)) as [L|L]; [|exact I]. destruct E4 as [[_ E4]|E4]; [lia|].
    apply hrel_write; assumption.
  Qed.

  Lemma hrel_alloc r h H arr : hrel r h H -> base <= length h -> base <= length H ->
    hrel ((length h, length H) :: r) (h ++ [arr]) (H ++ [arr]) /\
    heff r ((length h, length H) :: r) H (H ++ [arr]).
  Proof.
    intros R B1 B2. pose proof R as (N1 & N2 & C). split; [split; [|split]|].
    - constructor; [|exact N1]. intros I. pose proof (hrel_dom_lt _ _ _ R _ I). cbn in *. lia.
    - constructor; [|exact N2]. intros I. pose proof (hrel_lt _ _ _ R _ I). cbn in *. lia.
    - intros a b [I|I].
      + injection I as <- <-. split; [exact B1|]. split; [exact B2|]. exists arr.
        rewrite !nth_error_app2, !Nat.sub_diag by lia. auto.
      + destruct (C _ _ I) as (X1 & X2 & ar & E1 & E2). split; [exact X1|]. split; [exact X2|]. exists ar.
        assert (a < length h) by (apply nth_error_Some; congruence). assert (b < length H) by (apply nth_error_Some; congruence).
        rewrite !nth_error_app1 by assumption. auto.
    - split; [rewrite app_length; lia|]. split.
      + intros b L _. apply nth_error_app1, L.
      + intros b [<-|I]; [right; cbn; lia|left; exact I].
  Qed.

  Lemma hrel_append zero grow r h H s s' x h' t : hrel r h H -> srel r s s' -> base <= length h -> base <= length H ->
    slice_append zero grow h s [x] = (h', t) ->
    exists r' H' t', slice_append zero grow H s' [x] = (H', t') /\ incl r r' /\
      srel r' t t' /\ hrel r' h' H' /\ heff r r' H H' /\ base <= length h' /\ base <= length H'.
  Proof.
    intros R S B1 B2. pose proof S as (E1 & E2 & E3 & E4). unfold slice_append. rewrite <- E2, <- E3, <- (hrel_elems _ _ _ _ _ R S), <- E1.
    cbn [length]. destruct (Nat.leb_spec (sl_len s + 1) (sl_cap s)) as [L|L]; intros [= <- <-].
    - destruct E4 as [[E4 _]|E4]; [lia|]. cbn [heap_write_all].
      destruct (hrel_write r h H (sl_arr s) (sl_arr s') (sl_off s + sl_len s) x R E4) as [R' F].
      exists r. do 2 eexists. split; [reflexivity|]. split; [apply incl_refl|]. split; [|split; [exact R'|split; [exact F|]]].
      + repeat split. right. exact E4.
      + rewrite !heap_write_length. auto.
    - match goal with |- context [h ++ [?ar]] => destruct (hrel_alloc r h H ar R B1 B2) as [R' F] end.
      eexists. do 2 eexists. split; [reflexivity|]. split; [apply incl_tl, incl_refl|]. split; [|split; [exact R'|split; [exact F|]]].
      + repeat split. right. left. reflexivity.
      + rewrite !app_length. lia.
  Qed.

  Lemma hrel_frame r h H H' : hrel r h H -> (forall b, In b (ran r) -> nth_error H' b = nth_error H b) -> hrel r h H'.
  Proof.
    intros (N1 & N2 & C) F. split; [exact N1|]. split; [exact N2|]. intros a b I. destruct (C _ _ I) as (X & Y & arr & E1 & E2).
    split; [exact X|]. split; [exact Y|]. exists arr. split; [exact E1|]. rewrite F; [exact E2|]. change b with (snd (a, b)). apply in_map, I.
  Qed.
End Heaps.

(** ** Memories *)
Section Mem.
  Variable m0 : gmem.
  Let bs := length (gm_sets m0).
  Let bo := length (m_ops (gm_mem m0)).

  Record msim (w : world) (m M : gmem) : Prop := mkSim {
    si_sets : hrel bs (w_s w) (gm_sets m) (gm_sets M);
    si_ops : hrel bo (w_o w) (m_ops (gm_mem m)) (m_ops (gm_mem M));
    si_rules : gm_rules m = gm_rules M;
    si_seqs : gm_seqs m = gm_seqs M;
    si_syms : gm_syms m = gm_syms M;
    si_ls : bs <= length (gm_sets m);
    si_lo : bo <= length (m_ops (gm_mem m)) }.

  Record meff (w w' : world) (M M' : gmem) : Prop := mkEff {
    ef_sets : heff (w_s w) (w_s w') (gm_sets M) (gm_sets M');
    ef_ops : heff (w_o w) (w_o w') (m_ops (gm_mem M)) (m_ops (gm_mem M'));
    ef_rules : gm_rules M' = gm_rules M;
    ef_seqs : gm_seqs M' = gm_seqs M;
    ef_syms : gm_syms M' = gm_syms M;
    ef_nodes : m_nodes (gm_mem M') = m_nodes (gm_mem M);
    ef_bytes : m_bytes (gm_mem M') = m_bytes (gm_mem M) }.
  Lemma meff_refl w M : meff w w M M.
  Proof. split; try reflexivity; apply heff_refl. Qed.

  (** One step, alone and among others. *)
  Lemma step_rel {A} (R : world -> A -> A -> Prop) w p p' m M :
    prel R w p p' -> msim w m M -> bs <= length (gm_sets M) -> bo <= length (m_ops (gm_mem M)) ->
    exists w', wle w w' /\ prel R w' (fst (pstep p m)) (fst (pstep p' M)) /\
      msim w' (snd (pstep p m)) (snd (pstep p' M)) /\ meff w w' M (snd (pstep p' M)).
  Proof.
    intros H S LS LO. destruct H as [w a b H|w e|w q|w|w s i k k' H|w s i k k' H|w s i k k' H|w s s' i k k' Hs H
      |w s s' i x k k' Hs H|w n k k' H|w grow s s' o k k' Hs H]; cbn [pstep].
    1-4: exists w; cbn [fst snd]; split; [apply wle_refl|]; split; [constructor; assumption|]; split; [exact S|apply meff_refl].
    1-4: exists w; cbn [fst snd]; split; [apply wle_refl|]; split; [|split; [exact S|apply meff_refl]]; unfold pread.
    - rewrite (si_rules _ _ _ S). destruct (slice_get (gm_rules M) s i); [apply H|constructor].
    - rewrite (si_seqs _ _ _ S). destruct (slice_get (gm_seqs M) s i); [apply H|constructor].
    - rewrite (si_syms _ _ _ S). destruct (slice_get (gm_syms M) s i); [apply H|constructor].
    - rewrite (hrel_get _ _ _ _ _ _ i (si_sets _ _ _ S) Hs). destruct (slice_get (gm_sets M) s' i); [apply H|constructor].
    - pose proof (hrel_set _ _ _ _ _ _ i x (si_sets _ _ _ S) Hs) as W. exists w. split; [apply wle_refl|].
      destruct (slice_set (gm_sets m) s i x) as [h|] eqn:E, (slice_set (gm_sets M) s' i x) as [h'|] eqn:E'; try contradiction; cbn [fst snd].
      + destruct W as [W1 W2]. split; [exact H|]. split.
        * destruct S as [S1 S2 S3 S4 S5 S6 S7]. split; cbn; auto.
          revert E. unfold slice_set. destruct (Nat.ltb i (sl_len s)); [|discriminate]. intros [= <-].
          rewrite heap_write_length. exact S6.
        * split; try reflexivity; [exact W2|apply heff_refl].
      + split; [constructor|]. split; [exact S|apply meff_refl].
    - destruct S as [S1 S2 S3 S4 S5 S6 S7]. destruct (hrel_alloc bs (w_s w) (gm_sets m) (gm_sets M) (repeat (bs_new []) n) S1 S6 LS) as [R' F].
      unfold heap_alloc. cbn [fst snd]. exists (mkW ((length (gm_sets m), length (gm_sets M)) :: w_s w) (w_o w)).
      assert (L : wle w (mkW ((length (gm_sets m), length (gm_sets M)) :: w_s w) (w_o w))) by (split; [apply incl_tl, incl_refl|apply incl_refl]).
      split; [exact L|]. split; [apply H; [exact L|]|split].
      + repeat split. right. left. reflexivity.
      + split; cbn; auto. rewrite app_length. lia.
      + split; try reflexivity; [exact F|apply heff_refl].
    - destruct S as [S1 S2 S3 S4 S5 S6 S7]. destruct (slice_append OpNil grow (m_ops (gm_mem m)) s [o]) as [h t] eqn:E.
      destruct (hrel_append bo OpNil grow _ _ _ s s' o h t S2 Hs S7 LO E) as (r' & H' & t' & E' & I & T & R' & F & L1 & L2).
      rewrite E'. cbn [fst snd]. exists (mkW (w_s w) r').
      assert (L : wle w (mkW (w_s w) r')) by (split; [apply incl_refl|exact I]).
      split; [exact L|]. split; [apply H; [exact L|exact T]|split].
      + split; cbn; auto.
      + split; try reflexivity; [apply heff_refl|exact F].
  Qed.

  (** A step of one call and the relation of another. *)
  Definition apart (w v : world) : Prop :=
    (forall b, In b (ran (w_s w)) -> ~ In b (ran (w_s v))) /\
    (forall b, In b (ran (w_o w)) -> ~ In b (ran (w_o v))).
  Lemma apart_sym w v : apart w v -> apart v w.
  Proof. intros [A B]. split; intros b I J; [exact (A b J I)|exact (B b J I)]. Qed.

  Lemma msim_other w w' v mi M M' : meff w w' M M' -> apart w v -> msim v mi M ->
    msim v mi M' /\ apart w' v.
  Proof.
    intros [F1 F2 F3 F4 F5 F6 F7] [A1 A2] [S1 S2 S3 S4 S5 S6 S7].
    destruct F1 as (F1 & F1' & F1''). destruct F2 as (F2 & F2' & F2''). split; [split|split].
    - eapply hrel_frame; [exact S1|]. intros b I. apply F1'; [eapply hrel_lt; eassumption|]. intros J. exact (A1 b J I).
    - eapply hrel_frame; [exact S2|]. intros b I. apply F2'; [eapply hrel_lt; eassumption|]. intros J. exact (A2 b J I).
    - congruence.
    - congruence.
    - congruence.
    - exact S6.
    - exact S7.
    - intros b I J. destruct (F1'' b I) as [K|K]; [exact (A1 b K J)|]. pose proof (hrel_lt _ _ _ _ S1 b J). lia.
    - intros b I J. destruct (F2'' b I) as [K|K]; [exact (A2 b K J)|]. pose proof (hrel_lt _ _ _ _ S2 b J). lia.
  Qed.

  Lemma eff_kept w w' mi M M' : meff w w' M M' -> msim w mi M -> all_kept m0 M -> all_kept m0 M'.
  Proof.
    intros [F1 F2 F3 F4 F5 F6 F7] [S1 S2 S3 S4 S5 S6 S7] ((K1 & K2 & K3) & K4 & K5 & K6 & K7).
    unfold all_kept, untouched, kept. rewrite F3, F4, F5, F6, F7.
    split; [split; [|split; assumption]|]. 2: { repeat (split; [assumption|]). 
      intros a arr E. destruct F1 as (_ & F1 & _). rewrite F1; [apply K7, E| |].
      - apply nth_error_Some. rewrite (K7 a arr E). discriminate.
      - intros I. pose proof (hrel_lt _ _ _ _ S1 a I). assert (a < bs) by (apply nth_error_Some; unfold bs; congruence). lia. }
    intros a arr E. destruct F2 as (_ & F2 & _). rewrite F2; [apply K1, E| |].
    - apply nth_error_Some. rewrite (K1 a arr E). discriminate.
    - intros I. pose proof (hrel_lt _ _ _ _ S2 a I). assert (a < bo) by (apply nth_error_Some; unfold bo; congruence). lia.
  Qed.

  Lemma kept_length {T} (h h' : heap T) : kept h h' -> length h <= length h'.
  Proof.
    intros K. destruct (Nat.le_gt_cases (length h) (length h')) as [L|L]; [exact L|].
    apply nth_error_Some in L. destruct (nth_error h (length h')) as [arr|] eqn:E; [|congruence].
    pose proof (K _ _ E) as X. assert (length h' < length h') by (apply nth_error_Some; congruence). lia.
  Qed.

  (** ** A call alone *)
  Definition solo1 (c : gcall * gmem) : gcall * gmem := pstep (fst c) (snd c).
  Fixpoint gsolo (n : nat) (c : gcall * gmem) : gcall * gmem :=
    match n with O => c | S n' => solo1 (gsolo n' c) end.

  Lemma solo_ret r m n : gsolo n (PRet r, m) = (PRet r, m).
  Proof. induction n as [|n IH]; [reflexivity|]. cbn. rewrite IH. reflexivity. Qed.
  Lemma solo_add a b c : gsolo (a + b) c = gsolo a (gsolo b c).
  Proof. induction a as [|a IH]; [reflexivity|]. cbn. rewrite IH. reflexivity. Qed.

  (** Steps until the end, and the function of TableGenMem. *)
  Lemma solo_end (p : gcall) : forall m, exists n,
    gsolo n (p, m) = (PRet (fst (prun p m)), snd (prun p m)).
  Proof.
    assert (X : forall (q : gcall) m c, solo1 c = (q, m) ->
      (exists n, gsolo n (q, m) = (PRet (fst (prun q m)), snd (prun q m))) ->
      exists n, gsolo n c = (PRet (fst (prun q m)), snd (prun q m))).
    { intros q m c E (n & H). exists (n + 1). rewrite solo_add. cbn [gsolo]. rewrite E. exact H. }
    induction p as [r|s i k IH|s i k IH|s i k IH|s i k IH|s i x k IH|n k IH|grow s o k IH]; intros m; cbn [prun].
    - exists 0. reflexivity.
    - unfold mbind, rd. destruct (slice_get (gm_rules m) s i) as [x|] eqn:E.
      + eapply X; [|apply IH]. unfold solo1. cbn. unfold pread. rewrite E. reflexivity.
      + exists 1. cbn. unfold solo1. cbn. unfold pread. rewrite E. reflexivity.
    - unfold mbind, rd. destruct (slice_get (gm_seqs m) s i) as [x|] eqn:E.
      + eapply X; [|apply IH]. unfold solo1. cbn. unfold pread. rewrite E. reflexivity.
      + exists 1. cbn. unfold solo1. cbn. unfold pread. rewrite E. reflexivity.
    - unfold mbind, rd. destruct (slice_get (gm_syms m) s i) as [x|] eqn:E.
      + eapply X; [|apply IH]. unfold solo1. cbn. unfold pread. rewrite E. reflexivity.
      + exists 1. cbn. unfold solo1. cbn. unfold pread. rewrite E. reflexivity.
    - unfold mbind, rd. destruct (slice_get (gm_sets m) s i) as [x|] eqn:E.
      + eapply X; [|apply IH]. unfold solo1. cbn. unfold pread. rewrite E. reflexivity.
      + exists 1. cbn. unfold solo1. cbn. unfold pread. rewrite E. reflexivity.
    - unfold mbind, wr_set. destruct (slice_set (gm_sets m) s i x) as [h|] eqn:E.
      + eapply X; [|apply IH]. unfold solo1. cbn. rewrite E. reflexivity.
      + exists 1. cbn. unfold solo1. cbn. rewrite E. reflexivity.
    - unfold mbind, make_sets. destruct (heap_alloc (gm_sets m) (repeat (bs_new []) n)) as [h s] eqn:E.
      eapply X; [|apply IH]. unfold solo1. cbn [fst snd pstep]. rewrite E. reflexivity.
    - destruct (slice_append OpNil grow (m_ops (gm_mem m)) s [o]) as [h t] eqn:E.
      eapply X; [|apply IH]. unfold solo1. cbn [fst snd pstep]. rewrite E. reflexivity.
  Qed.

  (** Whenever it has ended, it has ended like this. *)
  Lemma solo_outcome (p : gcall) m n r m' : gsolo n (p, m) = (PRet r, m') -> (r, m') = prun p m.
  Proof.
    intros H. destruct (solo_end p m) as (k & E).
    assert (X : gsolo k (gsolo n (p, m)) = gsolo n (gsolo k (p, m))) by (rewrite <- !solo_add; f_equal; lia).
    rewrite H, E, !solo_ret in X. injection X as -> ->. destruct (prun p m); reflexivity.
  Qed.

  (** ** All calls *)
  Variable jobs : list gjob.

  Record ginv (sched : list nat) (ws : list world) (c : gconfig) : Prop := mkInv {
    gi_len : length (gc_calls c) = length jobs;
    gi_lenw : length ws = length jobs;
    gi_kept : all_kept m0 (gc_mem c);
    gi_calls : forall i j, nth_error jobs i = Some j -> exists w p,
      nth_error ws i = Some w /\ nth_error (gc_calls c) i = Some p /\
      prel resrel w (fst (gsolo (gturns i sched) (gstart j, m0))) p /\
      msim w (snd (gsolo (gturns i sched) (gstart j, m0))) (gc_mem c);
    gi_apart : forall i k w v, i <> k -> nth_error ws i = Some w -> nth_error ws k = Some v -> apart w v }.

  Lemma turns_snoc i sched k : gturns i (sched ++ [k]) = (if Nat.eqb i k then 1 else 0) + gturns i sched.
  Proof.
    unfold gturns. rewrite count_occ_app. cbn. destruct (Nat.eq_dec k i), (Nat.eqb_spec i k); try congruence; lia.
  Qed.

  Lemma ginv_init : ginv [] (map (fun _ => mkW [] []) jobs) (gall_start jobs m0).
  Proof.
    split; cbn.
    - apply map_length.
    - apply map_length.
    - apply all_kept_refl.
    - intros i j E. exists (mkW [] []), (gstart j). rewrite !nth_error_map, E. split; [reflexivity|]. split; [reflexivity|].
      split; [apply rel_FromGrammar|]. split; try reflexivity; try (unfold bs, bo; lia);
        (split; [constructor|split; [constructor|intros a b []]]).
    - intros i k w v _ E1 E2. rewrite nth_error_map in E1, E2. destruct (nth_error jobs i), (nth_error jobs k); try discriminate.
      injection E1 as <-. injection E2 as <-. split; intros b [].
  Qed.

  Lemma ginv_step sched ws c k : ginv sched ws c -> exists ws', ginv (sched ++ [k]) ws' (gturn c k).
  Proof.
    intros [I1 I2 I3 I4 I5]. unfold gturn. destruct (nth_error (gc_calls c) k) as [p|] eqn:Ep.
    2: { exists ws. split; auto. intros i j E. destruct (I4 i j E) as (w & q & A & B & C).
      exists w, q. rewrite turns_snoc. destruct (Nat.eqb_spec i k) as [->|_]; [congruence|]. auto. }
    assert (Lk : k < length jobs) by (rewrite <- I1; apply nth_error_Some; congruence).
    destruct (nth_error jobs k) as [jk|] eqn:Ejk; [|apply nth_error_None in Ejk; lia].
    destruct (I4 k jk Ejk) as (w & p' & Ew & Ep' & Rp & Sp). rewrite Ep in Ep'. injection Ep' as <-.
    assert (LS : bs <= length (gm_sets (gc_mem c))) by (destruct I3 as (_ & _ & _ & _ & K); exact (kept_length _ _ K)).
    assert (LO : bo <= length (m_ops (gm_mem (gc_mem c)))) by (destruct I3 as ((K & _) & _); exact (kept_length _ _ K)).
    destruct (step_rel resrel w _ p _ (gc_mem c) Rp Sp LS LO) as (w' & L & R' & S' & F).
    destruct (pstep p (gc_mem c)) as [q M'] eqn:E. cbn [fst snd] in R', S', F.
    exists (list_set ws k w'). split; cbn.
    - rewrite list_set_length. exact I1.
    - rewrite list_set_length. exact I2.
    - eapply eff_kept; eassumption.
    - intros i j Ei. rewrite turns_snoc, !list_set_nth. destruct (Nat.eqb_spec k i) as [<-|Nk].
      + rewrite Ejk in Ei. injection Ei as <-. rewrite Nat.eqb_refl.
        destruct (Nat.ltb_spec k (length ws)); [|lia]. destruct (Nat.ltb_spec k (length (gc_calls c))); [|lia].
        exists w', q. auto.
      + destruct (Nat.eqb_spec i k); [congruence|]. destruct (I4 i j Ei) as (v & pi & A & B & C & D).
        exists v, pi. cbn [Nat.add]. split; [exact A|]. split; [exact B|]. split; [exact C|].
        eapply msim_other; [exact F| |exact D]. eapply I5; [|exact Ew|exact A]. exact Nk.
    - assert (X : forall i v, i <> k -> nth_error ws i = Some v -> apart w' v).
      { intros i v Ni Ev. assert (i < length jobs) by (rewrite <- I2; apply nth_error_Some; congruence).
        destruct (nth_error jobs i) as [ji|] eqn:Ej; [|apply nth_error_None in Ej; lia].
        destruct (I4 i ji Ej) as (v' & pi & A & B & C & D). rewrite Ev in A. injection A as <-.
        eapply msim_other; [exact F| |exact D]. eapply (I5 k i); [congruence|exact Ew|exact Ev]. }
      intros i l a b Nil. rewrite !list_set_nth. destruct (Nat.eqb_spec k i) as [<-|Nk], (Nat.eqb_spec k l) as [<-|Nl].
      + congruence.
      + destruct (Nat.ltb k (length ws)); [|discriminate]. intros [= <-] Eb. eapply X; [|exact Eb]. congruence.
      + destruct (Nat.ltb k (length ws)); [|discriminate]. intros Ea [= <-]. apply apart_sym. eapply X; [|exact Ea]. congruence.
      + intros Ea Eb. exact (I5 i l a b Nil Ea Eb).
  Qed.

  Lemma ginv_all sched : exists ws, ginv sched ws (gafter jobs m0 sched).
  Proof.
    induction sched as [|k sched IH] using rev_ind.
    - exists (map (fun _ => mkW [] []) jobs). apply ginv_init.
    - destruct IH as (ws & IH). unfold gafter. rewrite fold_left_app. exact (ginv_step _ _ _ k IH).
  Qed.
End Mem.
