(** * PipeConcInv: goroutines that build parsers and parse, step by step. *)
From Verif Require Import Base ByteSet Ast Parser SliceMem ParserMem TableGen TableGenMem TableGenConc ParserConc
  PipeConc Spec_Mem Spec_GenMem Spec_GenConc Spec_ParserConc Spec_PipeConc ParserMemProofs TGMem.
From Verif Require GenConcProofs GenConcRel GenConcInv.
From Verif Require Import ParserConcProofs ParserConcRel ParserConcInv.

(** Which address alone belongs to which address among others: arrays of sets,
    of operands, of nodes, of bytes. *)
Record xworld := mkX { x_s : adr; x_w : world }.
Definition gw (w : xworld) : GenConcRel.world := GenConcRel.mkW (x_s w) (w_o (x_w w)).

(** ** Heaps, seen from both sides *)
Lemma hrel_from {T} base r (h H : heap T) : GenConcInv.hrel base r h H -> hrel base eq r h H.
Proof.
  intros (N1 & N2 & C). split; [exact N1|]. split; [exact N2|]. intros a b I.
  destruct (C a b I) as (A & B & arr & E1 & E2). split; [exact A|]. split; [exact B|].
  exists arr, arr. split; [exact E1|]. split; [exact E2|apply Forall2_same].
Qed.
Lemma Forall2_eq {T} (l l' : list T) : Forall2 eq l l' -> l = l'.
Proof. induction 1; congruence. Qed.
Lemma hrel_to {T} base r (h H : heap T) : hrel base eq r h H -> GenConcInv.hrel base r h H.
Proof.
  intros (N1 & N2 & C). split; [exact N1|]. split; [exact N2|]. intros a b I.
  destruct (C a b I) as (A & B & arr & arr' & E1 & E2 & F). apply Forall2_eq in F. subst arr'.
  split; [exact A|]. split; [exact B|]. exists arr. split; assumption.
Qed.

(** ** The steps of FromGrammar and the rest of the memory *)
Lemma pstep_nodes {A} (p : prog A) m :
  m_nodes (gm_mem (snd (pstep p m))) = m_nodes (gm_mem m) /\ m_bytes (gm_mem (snd (pstep p m))) = m_bytes (gm_mem m).
Proof.
  destruct p as [r|s i k|s i k|s i k|s i k|s i x k|n k|grow s o k]; cbn [pstep snd]; auto.
  - destruct (slice_set _ _ _ _); auto.
  - destruct (slice_append _ _ _ _ _); auto.
Qed.

Lemma pstep_kept {A} (R : GenConcRel.world -> A -> A -> Prop) w p p' (m M m0 : gmem) :
  GenConcRel.prel R w p p' -> GenConcInv.hrel (length (m_ops (gm_mem m0))) (GenConcRel.w_o w) (m_ops (gm_mem m)) (m_ops (gm_mem M)) ->
  length (m_ops (gm_mem m0)) <= length (m_ops (gm_mem M)) ->
  untouched (gm_mem m0) (gm_mem m) -> untouched (gm_mem m0) (gm_mem (snd (pstep p m))).
Proof.
  intros H S LO (U1 & U2 & U3). destruct (pstep_nodes p m) as [E1 E2].
  split; [|split; [rewrite E1; exact U2|rewrite E2; exact U3]].
  destruct H as [w a b H|w e|w q|w|w s i k k' H|w s i k k' H|w s i k k' H|w s s' i k k' Hs H
      |w s s' i x k k' Hs H|w n k k' H|w grow s s' o k k' Hs H]; cbn [pstep]; try exact U1.
  - destruct (slice_set _ _ _ _); exact U1.
  - destruct (slice_append OpNil grow (m_ops (gm_mem m)) s [o]) as [h t] eqn:E. cbn [snd set_gops gm_mem set_ops m_ops].
    destruct (hrel_append (length (m_ops (gm_mem m0))) eq OpNil grow _ _ _ s s' o o h t eq_refl eq_refl
      (hrel_from _ _ _ _ S) Hs (nth_incl_len _ _ U1) LO E) as (r' & H' & t' & _ & _ & _ & _ & _ & K).
    exact (keep_kept _ _ _ K U1).
Qed.

(** ** Tables *)
Lemma trel_tabrel bo w mt mt' : GenConcRel.trel (gw w) mt mt' -> tabrel bo (x_w w) mt mt'.
Proof.
  intros H n. unfold mtable_get. induction H as [|[k r] [k' r'] mt mt' [E F] G IH]; [exact I|].
  cbn in E, F. subst k'. cbn [map_get]. destruct (Z.eqb n k); [|exact IH]. intros c.
  pose proof (GenConcRel.rrel_get _ _ _ c F) as X.
  destruct (mrow_get c r), (mrow_get c r'); try contradiction; [|exact I]. left. exact X.
Qed.
Lemma trel_nil w mt mt' : GenConcRel.trel w mt mt' -> (mt = [] <-> mt' = []).
Proof. intros H. inversion H; subst; split; congruence. Qed.

(** ** Memories *)
Section Mem.
  Variable m0 : gmem.
  Let bs := length (gm_sets m0).
  Let bo := length (m_ops (gm_mem m0)).
  Let bb := length (m_bytes (gm_mem m0)).

  Definition nx_ok (nx : option xnext) : Prop :=
    match nx with None => True | Some nx => src_ok bb (xn_source nx) end.

  Inductive xrel : xworld -> xcall -> xcall -> Prop :=
  | xr_g w p p' nx : nx_ok nx -> GenConcRel.prel GenConcRel.resrel (gw w) p p' -> xrel w (XG p nx) (XG p' nx)
  | xr_q w p p' : qrel bo bb outrel (x_w w) p p' -> xrel w (XQ p) (XQ p').

  Definition xsim (w : xworld) (m M : gmem) : Prop :=
    GenConcInv.msim m0 (gw w) m M /\ msim (gm_mem m0) (x_w w) (gm_mem m) (gm_mem M).

  Record xeff (w w' : xworld) (M M' : gmem) : Prop := mkXEff {
    xe_sets : heff (x_s w) (x_s w') (gm_sets M) (gm_sets M');
    xe_mem : meff (x_w w) (x_w w') (gm_mem M) (gm_mem M');
    xe_rules : gm_rules M' = gm_rules M;
    xe_seqs : gm_seqs M' = gm_seqs M;
    xe_syms : gm_syms M' = gm_syms M }.
  Lemma xeff_refl w M : xeff w w M M.
  Proof. split; try reflexivity; [apply heff_refl|apply meff_refl]. Qed.

  Lemma xsim_q w s' m M x X :
    xsim w m M -> msim (gm_mem m0) s' x X -> xsim (mkX (x_s w) s') (set_gmem m x) (set_gmem M X).
  Proof.
    intros [G Q] S. split; [|exact S]. destruct G as [S1 S2 S3 S4 S5 S6 S7]. split; cbn; auto.
    - apply hrel_to. exact (si_ops _ _ _ _ S).
    - exact (nth_incl_len _ _ (proj1 (si_kept _ _ _ _ S))).
  Qed.

  (** One step, alone and among others. *)
  Lemma xstep_g w p p' nx m M : nx_ok nx ->
    GenConcRel.prel GenConcRel.resrel (gw w) p p' -> xsim w m M -> all_kept m0 M ->
    exists w', xrel w' (XG (fst (pstep p m)) nx) (XG (fst (pstep p' M)) nx) /\
      xsim w' (snd (pstep p m)) (snd (pstep p' M)) /\ xeff w w' M (snd (pstep p' M)).
  Proof.
    intros N H [G Q] K.
    assert (LS : bs <= length (gm_sets M)) by (destruct K as (_ & _ & _ & _ & K); exact (nth_incl_len _ _ K)).
    assert (LO : bo <= length (m_ops (gm_mem M))) by (destruct K as ((K & _) & _); exact (nth_incl_len _ _ K)).
    destruct (GenConcInv.step_rel m0 GenConcRel.resrel (gw w) p p' m M H G LS LO) as (w' & L & R' & G' & F).
    destruct (pstep_nodes p m) as [N1 N2]. destruct (pstep_nodes p' M) as [N3 N4].
    exists (mkX (GenConcRel.w_s w') (mkW (GenConcRel.w_o w') (w_n (x_w w)) (w_b (x_w w)))).
    assert (Ew : gw (mkX (GenConcRel.w_s w') (mkW (GenConcRel.w_o w') (w_n (x_w w)) (w_b (x_w w)))) = w') by (destruct w'; reflexivity).
    split; [constructor; [exact N|rewrite Ew; exact R']|]. split; [split; [rewrite Ew; exact G'|split; cbn]|split; [|split| | |]; cbn].
    - apply hrel_from. exact (GenConcInv.si_ops _ _ _ _ G').
    - rewrite N1, N3. exact (si_nodes _ _ _ _ Q).
    - rewrite N2, N4. exact (si_bytes _ _ _ _ Q).
    - eapply pstep_kept; [exact H|exact (GenConcInv.si_ops _ _ _ _ G)|exact LO|exact (si_kept _ _ _ _ Q)].
    - exact (GenConcInv.ef_sets _ _ _ _ F).
    - exact (GenConcInv.ef_ops _ _ _ _ F).
    - rewrite N3. apply heff_refl.
    - rewrite N4. apply heff_refl.
    - exact (GenConcInv.ef_rules _ _ _ _ F).
    - exact (GenConcInv.ef_seqs _ _ _ _ F).
    - exact (GenConcInv.ef_syms _ _ _ _ F).
  Qed.

  Lemma xstep_plain (p : gcall) nx m : (forall a, p = PRet (Ok a) -> nx = None) ->
    xstep (XG p nx) m = (XG (fst (pstep p m)) nx, snd (pstep p m)).
  Proof.
    intros H. cbn [xstep].
    destruct p as [[[mt nm]|e|q|]|s i k|s i k|s i k|s i k|s i x k|n k|grow s o k];
      try (destruct (pstep _ m); reflexivity).
    rewrite (H _ eq_refl). reflexivity.
  Qed.

  Lemma xstep_rel w c c' m M : xrel w c c' -> xsim w m M -> all_kept m0 M ->
    exists w', xrel w' (fst (xstep c m)) (fst (xstep c' M)) /\
      xsim w' (snd (xstep c m)) (snd (xstep c' M)) /\ xeff w w' M (snd (xstep c' M)).
  Proof.
    intros H S K. destruct H as [w p p' nx N H|w p p' H].
    - assert (D : (exists a b nx', p = PRet (Ok a) /\ p' = PRet (Ok b) /\ nx = Some nx' /\ GenConcRel.resrel (gw w) a b) \/
        ((forall a, p = PRet (Ok a) -> nx = None) /\ (forall a, p' = PRet (Ok a) -> nx = None))).
      { inversion H; subst; try (right; split; intros; discriminate).
        destruct nx as [nx|]; [left; do 3 eexists; repeat split; try reflexivity; apply H0 || (match goal with X : GenConcRel.resrel _ _ _ |- _ => apply X end)|right; auto]. }
      destruct D as [([mt nm] & [mt' nm'] & nx' & -> & -> & -> & [T E])|[D D']].
      + cbn in T, E. subst nm'. cbn [xstep fst snd]. exists w. split; [|split; [exact S|apply xeff_refl]].
        constructor. apply rel_Parse_at; [eapply trel_nil; exact T|apply trel_tabrel, T|exact N].
      + rewrite (xstep_plain p nx m D), (xstep_plain p' nx M D'). cbn [fst snd]. apply xstep_g; assumption.
    - cbn [xstep]. pose proof S as [G Q].
      destruct (step_rel (gm_mem m0) outrel (x_w w) p p' (gm_mem m) (gm_mem M) H Q (proj1 K)) as (w' & L & R' & S' & F).
      destruct (qstep p (gm_mem m)) as [q x]. destruct (qstep p' (gm_mem M)) as [q' X]. cbn [fst snd] in *.
      exists (mkX (x_s w) w'). split; [constructor; exact R'|]. split; [apply xsim_q; assumption|].
      split; try reflexivity; [apply heff_refl|exact F].
  Qed.

  (** A step of one and the relation of another. *)
  Definition xapart (w v : xworld) : Prop :=
    (forall b, In b (ran (x_s w)) -> ~ In b (ran (x_s v))) /\ apart (x_w w) (x_w v).
  Lemma xapart_sym w v : xapart w v -> xapart v w.
  Proof. intros [A B]. split; [|apply apart_sym, B]. intros b I J. exact (A b J I). Qed.

  Lemma xsim_other w w' v mi M M' : xeff w w' M M' -> xapart w v -> xsim v mi M ->
    xsim v mi M' /\ xapart w' v.
  Proof.
    intros [F1 F2 F3 F4 F5] [A1 A2] [G Q].
    destruct (msim_other (gm_mem m0) _ _ _ _ _ _ F2 A2 Q) as [Q' A'].
    destruct F1 as (F1 & F1' & F1''). pose proof G as [S1 S2 S3 S4 S5 S6 S7]. split; [split; [split|exact Q']|split; [|exact A']]; auto.
    - eapply GenConcInv.hrel_frame; [exact S1|]. intros b I. apply F1'; [eapply GenConcInv.hrel_lt; eassumption|]. intros J. exact (A1 b J I).
    - apply hrel_to. exact (si_ops _ _ _ _ Q').
    - congruence.
    - congruence.
    - congruence.
    - intros b I J. destruct (F1'' b I) as [X|X]; [exact (A1 b X J)|]. pose proof (GenConcInv.hrel_lt _ _ _ _ S1 b J). lia.
  Qed.

  Lemma xeff_kept w w' mi M M' : xeff w w' M M' -> xsim w mi M -> all_kept m0 M -> all_kept m0 M'.
  Proof.
    intros [F1 F2 F3 F4 F5] [G Q] (K & K4 & K5 & K6 & K7). unfold all_kept, kept. rewrite F3, F4, F5.
    split; [exact (eff_kept (gm_mem m0) _ _ _ _ _ F2 Q K)|]. repeat (split; [assumption|]).
    intros a arr E. destruct F1 as (_ & F1 & _). rewrite F1; [apply K7, E| |].
    - apply nth_error_Some. rewrite (K7 a arr E). discriminate.
    - intros I. pose proof (GenConcInv.hrel_lt _ _ _ _ (GenConcInv.si_sets _ _ _ _ G) a I).
      assert (a < length (gm_sets m0)) by (apply nth_error_Some; congruence). lia.
  Qed.

  (** ** A goroutine alone *)
  Definition xsolo1 (c : xcall * gmem) : xcall * gmem := xstep (fst c) (snd c).
  Fixpoint xsolo (n : nat) (c : xcall * gmem) : xcall * gmem :=
    match n with O => c | S n' => xsolo1 (xsolo n' c) end.
  Lemma xsolo_add a b c : xsolo (a + b) c = xsolo a (xsolo b c).
  Proof. induction a as [|a IH]; [reflexivity|]. cbn. rewrite IH. reflexivity. Qed.
  Lemma xsolo_done c m n : xdone c <> None -> xsolo n (c, m) = (c, m).
  Proof.
    intros D. induction n as [|n IH]; [reflexivity|]. cbn. rewrite IH. unfold xsolo1. cbn [fst snd].
    destruct c as [p nx|p]; cbn [xdone] in D.
    - destruct p as [[[mt nm]|e|q|]|s i k|s i k|s i k|s i k|s i x k|k' k|grow s o k]; try congruence; destruct nx; try congruence; reflexivity.
    - destruct p; try congruence. cbn. destruct m; reflexivity.
  Qed.

  (** The rest of a goroutine in one go. *)
  Definition xrunq (p : qcall) (m : gmem) : xcall * gmem :=
    (XQ (QRet (fst (qrun p (gm_mem m)))), set_gmem m (snd (qrun p (gm_mem m)))).
  Definition xrun (c : xcall) (m : gmem) : xcall * gmem :=
    match c with
    | XQ p => xrunq p m
    | XG p nx =>
        let (r, m1) := GenConcProofs.prun p m in
        match r, nx with
        | Ok (mt, names), Some nx =>
            xrunq (qParse (xn_grow nx) (xn_fuel nx) mt (Some names) (xn_source nx)) m1
        | _, _ => (XG (PRet r) nx, m1)
        end
    end.

  Lemma xsolo_q n p m : xsolo n (XQ p, m) =
    (XQ (fst (qsolo n (p, gm_mem m))), set_gmem m (snd (qsolo n (p, gm_mem m)))).
  Proof.
    induction n as [|n IH]; [cbn; destruct m; reflexivity|]. cbn [xsolo qsolo]. rewrite IH. unfold xsolo1, qsolo1. cbn [fst snd].
    destruct (qsolo n (p, gm_mem m)) as [q x]. cbn [xstep fst snd]. change (gm_mem (set_gmem m x)) with x.
    destruct (qstep q x) as [q' x']. reflexivity.
  Qed.

  Lemma xsolo_g (p : gcall) nx : forall m, exists n,
    xsolo n (XG p nx, m) = (XG (PRet (fst (GenConcProofs.prun p m))) nx, snd (GenConcProofs.prun p m)).
  Proof.
    assert (X : forall (q : gcall) m c, xsolo1 c = (XG q nx, m) ->
      (exists n, xsolo n (XG q nx, m) = (XG (PRet (fst (GenConcProofs.prun q m))) nx, snd (GenConcProofs.prun q m))) ->
      exists n, xsolo n c = (XG (PRet (fst (GenConcProofs.prun q m))) nx, snd (GenConcProofs.prun q m))).
    { intros q m c E (n & H). exists (n + 1). rewrite xsolo_add. cbn [xsolo]. rewrite E. exact H. }
    induction p as [r|s i k IH|s i k IH|s i k IH|s i k IH|s i x k IH|n k IH|grow s o k IH]; intros m; cbn [GenConcProofs.prun].
    - exists 0. reflexivity.
    - unfold mbind, rd. destruct (slice_get (gm_rules m) s i) as [x|] eqn:E.
      + eapply X; [|apply IH]. unfold xsolo1. cbn. unfold pread. rewrite E. reflexivity.
      + exists 1. cbn. unfold xsolo1. cbn. unfold pread. rewrite E. reflexivity.
    - unfold mbind, rd. destruct (slice_get (gm_seqs m) s i) as [x|] eqn:E.
      + eapply X; [|apply IH]. unfold xsolo1. cbn. unfold pread. rewrite E. reflexivity.
      + exists 1. cbn. unfold xsolo1. cbn. unfold pread. rewrite E. reflexivity.
    - unfold mbind, rd. destruct (slice_get (gm_syms m) s i) as [x|] eqn:E.
      + eapply X; [|apply IH]. unfold xsolo1. cbn. unfold pread. rewrite E. reflexivity.
      + exists 1. cbn. unfold xsolo1. cbn. unfold pread. rewrite E. reflexivity.
    - unfold mbind, rd. destruct (slice_get (gm_sets m) s i) as [x|] eqn:E.
      + eapply X; [|apply IH]. unfold xsolo1. cbn. unfold pread. rewrite E. reflexivity.
      + exists 1. cbn. unfold xsolo1. cbn. unfold pread. rewrite E. reflexivity.
    - unfold mbind, wr_set. destruct (slice_set (gm_sets m) s i x) as [h|] eqn:E.
      + eapply X; [|apply IH]. unfold xsolo1. cbn. rewrite E. reflexivity.
      + exists 1. cbn. unfold xsolo1. cbn. rewrite E. reflexivity.
    - unfold mbind, make_sets. destruct (heap_alloc (gm_sets m) (repeat (bs_new []) n)) as [h s] eqn:E.
      eapply X; [|apply IH]. unfold xsolo1. cbn [fst snd xstep pstep]. rewrite E. reflexivity.
    - destruct (slice_append OpNil grow (m_ops (gm_mem m)) s [o]) as [h t] eqn:E.
      eapply X; [|apply IH]. unfold xsolo1. cbn [fst snd xstep pstep]. rewrite E. reflexivity.
  Qed.

  Lemma xsolo_qend p m : exists n, xsolo n (XQ p, m) = xrunq p m.
  Proof.
    destruct (solo_end p (gm_mem m)) as (n & E). exists n. rewrite xsolo_q, E. reflexivity.
  Qed.

  Lemma xsolo_end c m : exists n, xsolo n (c, m) = xrun c m /\ xdone (fst (xrun c m)) <> None.
  Proof.
    destruct c as [p nx|p]; cbn [xrun].
    - destruct (xsolo_g p nx m) as (n & E). destruct (GenConcProofs.prun p m) as [r m1]. cbn [fst snd] in E.
      destruct r as [[mt nm]|e|q|].
      + destruct nx as [nx|]; [|exists n; split; [exact E|discriminate]].
        destruct (xsolo_qend (qParse (xn_grow nx) (xn_fuel nx) mt (Some nm) (xn_source nx)) m1) as (k & E').
        exists (k + (1 + n)). rewrite !xsolo_add, E. cbn [xsolo]. unfold xsolo1 at 1. cbn [fst snd xstep].
        split; [exact E'|discriminate].
      + exists n. split; [exact E|destruct nx; discriminate].
      + exists n. split; [exact E|destruct nx; discriminate].
      + exists n. split; [exact E|destruct nx; discriminate].
    - destruct (xsolo_qend p m) as (n & E). exists n. split; [exact E|discriminate].
  Qed.

  (** Whenever it has ended, it has ended like this. *)
  Lemma xsolo_outcome c m n c' m' : xsolo n (c, m) = (c', m') -> xdone c' <> None -> (c', m') = xrun c m.
  Proof.
    intros H D. destruct (xsolo_end c m) as (k & E & D').
    assert (X : xsolo k (xsolo n (c, m)) = xsolo n (xsolo k (c, m))) by (rewrite <- !xsolo_add; f_equal; lia).
    rewrite H, E, xsolo_done in X by exact D. destruct (xrun c m) as [c1 m1]. cbn [fst] in D'.
    rewrite xsolo_done in X by exact D'. exact X.
  Qed.

  (** ** All goroutines *)
  Variable jobs : list xjob.
  Hypothesis jobs_ok : xjobs_in m0 jobs.

  Lemma source_src_ok s x : source_in (gm_mem m0) s x -> src_ok bb s.
  Proof.
    intros Hs. destruct s as [| |y|[y|]|rd|], x as [| |z|[z|]|rd'|]; cbn in *; try contradiction; try exact I; eapply holds_base; exact Hs.
  Qed.

  Lemma xjob_start i j w : nth_error jobs i = Some j -> xrel w (xstart j) (xstart j).
  Proof.
    intros E. apply nth_error_In in E. unfold xjobs_in in jobs_ok. rewrite Forall_forall in jobs_ok.
    pose proof (jobs_ok j E) as J. destruct j as [j|j|j nx]; cbn in J |- *.
    - constructor; [exact I|apply GenConcRel.rel_FromGrammar].
    - constructor. apply (job_start (gm_mem m0) [j]) with (i := 0); [|reflexivity].
      constructor; [exact J|constructor].
    - constructor; [|apply GenConcRel.rel_FromGrammar]. destruct J as (s & J). eapply source_src_ok, J.
  Qed.

  Record xinv (sched : list nat) (ws : list xworld) (c : xconfig) : Prop := mkXInv {
    xi_len : length (xc_calls c) = length jobs;
    xi_lenw : length ws = length jobs;
    xi_kept : all_kept m0 (xc_mem c);
    xi_calls : forall i j, nth_error jobs i = Some j -> exists w p,
      nth_error ws i = Some w /\ nth_error (xc_calls c) i = Some p /\
      xrel w (fst (xsolo (xturns i sched) (xstart j, m0))) p /\
      xsim w (snd (xsolo (xturns i sched) (xstart j, m0))) (xc_mem c);
    xi_apart : forall i k w v, i <> k -> nth_error ws i = Some w -> nth_error ws k = Some v -> xapart w v }.

  Lemma xturns_snoc i sched k : xturns i (sched ++ [k]) = (if Nat.eqb i k then 1 else 0) + xturns i sched.
  Proof.
    unfold xturns. rewrite count_occ_app. cbn. destruct (Nat.eq_dec k i), (Nat.eqb_spec i k); try congruence; lia.
  Qed.

  Lemma xinv_init : xinv [] (map (fun _ => mkX [] (mkW [] [] [])) jobs) (xall_start jobs m0).
  Proof.
    split; cbn.
    - apply map_length.
    - apply map_length.
    - apply all_kept_refl.
    - intros i j E. exists (mkX [] (mkW [] [] [])), (xstart j). rewrite !nth_error_map, E. split; [reflexivity|]. split; [reflexivity|].
      split; [eapply xjob_start; eassumption|]. split.
      + split; try reflexivity; (split; [constructor|split; [constructor|intros a b []]]).
      + split; try apply untouched_refl; (split; [constructor|split; [constructor|intros a b []]]).
    - intros i k w v _ E1 E2. rewrite nth_error_map in E1, E2. destruct (nth_error jobs i), (nth_error jobs k); try discriminate.
      injection E1 as <-. injection E2 as <-. split; [intros b []|]. repeat split; intros b [].
  Qed.

  Lemma xinv_step sched ws c k : xinv sched ws c -> exists ws', xinv (sched ++ [k]) ws' (xturn c k).
  Proof.
    intros [I1 I2 I3 I4 I5]. unfold xturn. destruct (nth_error (xc_calls c) k) as [p|] eqn:Ep.
    2: { exists ws. split; auto. intros i j E. destruct (I4 i j E) as (w & q & A & B & C).
      exists w, q. rewrite xturns_snoc. destruct (Nat.eqb_spec i k) as [->|_]; [congruence|]. auto. }
    assert (Lk : k < length jobs) by (rewrite <- I1; apply nth_error_Some; congruence).
    destruct (nth_error jobs k) as [jk|] eqn:Ejk; [|apply nth_error_None in Ejk; lia].
    destruct (I4 k jk Ejk) as (w & p' & Ew & Ep' & Rp & Sp). rewrite Ep in Ep'. injection Ep' as <-.
    destruct (xstep_rel w _ p _ (xc_mem c) Rp Sp I3) as (w' & R' & S' & F).
    destruct (xstep p (xc_mem c)) as [q M'] eqn:E. cbn [fst snd] in R', S', F.
    exists (list_set ws k w'). split; cbn.
    - rewrite list_set_length. exact I1.
    - rewrite list_set_length. exact I2.
    - eapply xeff_kept; eassumption.
    - intros i j Ei. rewrite xturns_snoc, !list_set_nth. destruct (Nat.eqb_spec k i) as [<-|Nk].
      + rewrite Ejk in Ei. injection Ei as <-. rewrite Nat.eqb_refl.
        destruct (Nat.ltb_spec k (length ws)); [|lia]. destruct (Nat.ltb_spec k (length (xc_calls c))); [|lia].
        exists w', q. auto.
      + destruct (Nat.eqb_spec i k); [congruence|]. destruct (I4 i j Ei) as (v & pi & A & B & C & D).
        exists v, pi. cbn [Nat.add]. split; [exact A|]. split; [exact B|]. split; [exact C|].
        eapply xsim_other; [exact F| |exact D]. eapply I5; [|exact Ew|exact A]. exact Nk.
    - assert (X : forall i v, i <> k -> nth_error ws i = Some v -> xapart w' v).
      { intros i v Ni Ev. assert (i < length jobs) by (rewrite <- I2; apply nth_error_Some; congruence).
        destruct (nth_error jobs i) as [ji|] eqn:Ej; [|apply nth_error_None in Ej; lia].
        destruct (I4 i ji Ej) as (v' & pi & A & B & C & D). rewrite Ev in A. injection A as <-.
        eapply xsim_other; [exact F| |exact D]. eapply (I5 k i); [congruence|exact Ew|exact Ev]. }
      intros i l a b Nil. rewrite !list_set_nth. destruct (Nat.eqb_spec k i) as [<-|Nk], (Nat.eqb_spec k l) as [<-|Nl].
      + congruence.
      + destruct (Nat.ltb k (length ws)); [|discriminate]. intros [= <-] Eb. eapply X; [|exact Eb]. congruence.
      + destruct (Nat.ltb k (length ws)); [|discriminate]. intros Ea [= <-]. apply xapart_sym. eapply X; [|exact Ea]. congruence.
      + intros Ea Eb. exact (I5 i l a b Nil Ea Eb).
  Qed.

  Lemma xinv_all sched : exists ws, xinv sched ws (xafter jobs m0 sched).
  Proof.
    induction sched as [|k sched IH] using rev_ind.
    - exists (map (fun _ => mkX [] (mkW [] [] [])) jobs). apply xinv_init.
    - destruct IH as (ws & IH). unfold xafter. rewrite fold_left_app. exact (xinv_step _ _ _ k IH).
  Qed.
End Mem.
