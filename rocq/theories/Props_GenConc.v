(** * Props_GenConc: C114, calls of FromGrammar running at the same time. *)
From Verif Require Import Base ByteSet Ast Parser SliceMem ParserMem TableGen TableGenMem TableGenConc
  Spec_Mem Spec_GenMem Spec_GenConc ParserMemProofs TGMem GenConcProofs GenConcRel GenConcInv
  Props_TableGen Props_GenMem.

(** ** From one place to the other *)
Lemma holds_moved {T} base r (h H : heap T) s s' xs :
  hrel base r h H -> srel r s s' -> holds h s xs -> holds H s' xs.
Proof.
  intros R S ((V & W) & L & G). pose proof S as (E1 & E2 & E3 & E4). split; [split|split].
  - lia.
  - destruct (Nat.eq_dec (sl_cap s') 0) as [Z|Z]; [left; exact Z|right].
    destruct E4 as [[E4 _]|I]; [lia|]. destruct R as (_ & _ & C). destruct (C _ _ I) as (_ & _ & arr & A & B).
    exists arr. split; [exact B|]. destruct W as [W|(arr' & W1 & W2)]; [lia|].
    rewrite A in W1. injection W1 as <-. lia.
  - lia.
  - intros i x E. rewrite <- (hrel_get _ _ _ _ _ _ i R S). apply G, E.
Qed.

Lemma Forall2_through {A B C} (P : A -> B -> Prop) (Q : A -> C -> Prop) (R : B -> C -> Prop) :
  (forall a b c, P a b -> Q a c -> R b c) ->
  forall l l' l'', Forall2 P l l' -> Forall2 Q l l'' -> Forall2 R l' l''.
Proof.
  intros H l l' l'' F. revert l''. induction F as [|a b l l' Pa F IH]; intros l'' G; inversion G; subst; constructor; eauto.
Qed.

Lemma table_moved base w m M mt mt' t :
  hrel base (w_o w) (m_ops (gm_mem m)) (m_ops (gm_mem M)) -> trel w mt mt' ->
  table_in (gm_mem m) mt t -> table_in (gm_mem M) mt' t.
Proof.
  intros R. unfold trel, table_in. apply Forall2_through. intros a b c [E1 F1] [E2 F2]. split; [congruence|].
  revert F1 F2. unfold rrel, row_in. apply Forall2_through. intros x y z [G1 H1] [G2 H2]. split; [congruence|].
  eapply holds_moved; eassumption.
Qed.

Lemma cells_moved w mt mt' : trel w mt mt' -> Forall2 (srel (w_o w)) (cells mt) (cells mt').
Proof.
  induction 1 as [|[k r] [k' r'] mt mt' [E F] G IH]; [constructor|]. unfold cells in *. cbn [flat_map snd].
  apply Forall2_app; [|exact IH]. clear -F. cbn in F. induction F as [|[b s] [b' s'] r r' [E S] F IH]; constructor; auto.
Qed.

Lemma cell_ran r l l' s : Forall2 (srel r) l l' -> In s l' -> sl_cap s <> 0 ->
  exists s0, In s0 l /\ sl_cap s0 <> 0 /\ In (sl_arr s0, sl_arr s) r.
Proof.
  induction 1 as [|a b l l' S F IH]; [contradiction|]. intros [<-|I] C.
  - exists a. destruct S as (_ & _ & E & [[Z _]|J]); [congruence|]. split; [left; reflexivity|]. split; [congruence|exact J].
  - destruct (IH I C) as (s0 & A & B). exists s0. split; [right; exact A|exact B].
Qed.

Lemma own_moved {T} base base' r (h H : heap T) l l' :
  hrel base r h H -> Forall2 (srel r) l l' -> own_cells base' l -> own_cells base l'.
Proof.
  intros (N1 & N2 & C) F (_ & N). fold room in N. split.
  - apply Forall_forall. intros s I. destruct (Nat.eq_dec (sl_cap s) 0) as [Z|Z]; [left; exact Z|right].
    destruct (cell_ran _ _ _ _ F I Z) as (s0 & _ & _ & J). apply (C _ _ J).
  - fold room. induction F as [|a b l l' S F IH]; [constructor|]. cbn [filter] in *.
    assert (Er : room a = room b) by (destruct S as (_ & _ & E & _); unfold room; rewrite E; reflexivity).
    rewrite <- Er. destruct (room a) eqn:Ra; [|apply IH, N]. cbn [map] in *. inversion N as [|? ? Na N']; subst.
    constructor; [|apply IH, N']. intros I. apply Na. apply in_map_iff in I. destruct I as (s & Es & Is).
    apply filter_In in Is. destruct Is as [Is Rs]. apply room_true in Rs.
    destruct (cell_ran _ _ _ _ F Is Rs) as (s0 & I0 & C0 & J). apply room_true in Ra.
    destruct S as (_ & _ & _ & [[Z _]|Ja]); [congruence|]. rewrite Es in J.
    rewrite (NoDup_snd_inj r _ _ _ N2 Ja J). apply in_map, filter_In. split; [exact I0|apply room_true, C0].
Qed.

(** Call [i] after any schedule. *)
Lemma among jobs m0 sched i j : nth_error jobs i = Some j ->
  exists w p, nth_error (gc_calls (gafter jobs m0 sched)) i = Some p /\
    prel resrel w (fst (gsolo (gturns i sched) (gstart j, m0))) p /\
    msim m0 w (snd (gsolo (gturns i sched) (gstart j, m0))) (gc_mem (gafter jobs m0 sched)).
Proof.
  intros E. destruct (ginv_all m0 jobs sched) as (ws & I). destruct (gi_calls _ _ _ _ _ I i j E) as (w & p & _ & H).
  exists w, p. exact H.
Qed.

Lemma among_done jobs m0 sched i j r : nth_error jobs i = Some j ->
  nth_error (gc_calls (gafter jobs m0 sched)) i = Some (PRet r) ->
  exists w r0 m, mFromGrammar (g_grow j) (g_order j) (g_fuel j) (g_rules j) m0 = (r0, m) /\
    prel resrel w (PRet r0) (PRet r) /\ msim m0 w m (gc_mem (gafter jobs m0 sched)).
Proof.
  intros Ej Er. destruct (among jobs m0 sched i j Ej) as (w & p & Ep & R & S). rewrite Er in Ep. injection Ep as <-.
  destruct (gsolo (gturns i sched) (gstart j, m0)) as [q m] eqn:Eq. cbn [fst snd] in *.
  assert (exists r0, q = PRet r0) as (r0 & ->) by (inversion R; subst; eexists; reflexivity).
  exists w, r0, m. split; [|auto]. apply (solo_outcome m0) in Eq. rewrite Eq. symmetry. apply run_FromGrammar.
Qed.

(** ** C114 *)

(** Any number of calls, for grammars in memory that may share arrays in any
    way, even the same grammar, under any schedule: a call that has returned has
    returned what the model with values says, whatever the others did, do and
    will do, and whatever their grammars are; its table denotes that table in
    the memory all of them work in. *)
Theorem C114_results :
  forall jobs m0 sched i j g r,
    nth_error jobs i = Some j -> grammar_in m0 (g_rules j) g ->
    nth_error (gc_calls (gafter jobs m0 sched)) i = Some (PRet r) ->
    match r, FromGrammar_order (g_order j) (g_fuel j) g with
    | Ok (mt, names), Ok (t, names') =>
        table_in (gm_mem (gc_mem (gafter jobs m0 sched))) mt t /\ names = names'
    | Err e, Err e' => e = e'
    | Panic p, Panic p' => p = p'
    | NoFuel, NoFuel => True
    | _, _ => False
    end.
Proof.
  intros jobs m0 sched i j g r Ej Hg Er. destruct (among_done _ _ _ _ _ _ Ej Er) as (w & r0 & m & E & R & S).
  pose proof (C71_result (g_grow j) (g_order j) (g_fuel j) m0 (g_rules j) g Hg) as C. rewrite E in C.
  inversion R; subst; destruct (FromGrammar_order (g_order j) (g_fuel j) g) as [[t nm]|e'|p'|]; try (destruct a as [mt0 nm0]); try contradiction; auto.
  destruct b as [mt nm1]. match goal with H : resrel _ _ _ |- _ => destruct H as [H1 H2] end. cbn in H1, H2. destruct C as [C1 C2].
  split; [|congruence]. eapply table_moved; [exact (si_ops _ _ _ _ S)|exact H1|exact C1].
Qed.
Print Assumptions C114_results.

(** Nobody waits for anybody: every call has a number of turns after which it
    has returned, whatever the others are and do; if the loops may run long
    enough it has returned a table, an error or a panic. *)
Theorem C114_progress :
  forall m0 j, exists n, forall jobs i sched,
    nth_error jobs i = Some j -> n <= gturns i sched ->
    exists r, nth_error (gc_calls (gafter jobs m0 sched)) i = Some (PRet r) /\
      (forall g, grammar_in m0 (g_rules j) g -> 256 * length g + 1 <= g_fuel j -> r <> NoFuel).
Proof.
  intros m0 j. destruct (solo_end (gstart j) m0) as (n & E). exists n. intros jobs i sched Ej L.
  destruct (among jobs m0 sched i j Ej) as (w & p & Ep & R & S).
  replace (gturns i sched) with ((gturns i sched - n) + n) in R, S by lia. rewrite solo_add, E, solo_ret in R, S. cbn [fst snd] in R, S.
  assert (exists r, p = PRet r) as (r & ->) by (inversion R; subst; eexists; reflexivity).
  exists r. split; [exact Ep|]. intros g Hg Lf ->. pose proof (C114_results _ _ _ _ _ _ _ Ej Hg Ep) as C.
  pose proof (C21_terminates (g_order j) g (g_fuel j) Lf) as T. cbv beta iota in C.
  destruct (FromGrammar_order (g_order j) (g_fuel j) g); contradiction.
Qed.
Print Assumptions C114_progress.

(** At no time has any call changed an array that existed before the calls: the
    grammars still denote the same grammars, tables returned earlier the same
    tables, ... *)
Theorem C114_nothing_overwritten :
  forall jobs m0 sched,
    let m := gc_mem (gafter jobs m0 sched) in
    all_kept m0 m /\
    (forall mg g, grammar_in m0 mg g -> grammar_in m mg g) /\
    (forall mt t, table_in (gm_mem m0) mt t -> table_in (gm_mem m) mt t).
Proof.
  intros jobs m0 sched m. destruct (ginv_all m0 jobs sched) as (ws & I). pose proof (gi_kept _ _ _ _ _ I) as K. fold m in K.
  split; [exact K|]. split.
  - intros mg g. apply grammar_in_kept, K.
  - intros mt t. apply table_in_untouched. apply K.
Qed.
Print Assumptions C114_nothing_overwritten.

Lemma access_ran {A} (R : world -> A -> A -> Prop) w q p : prel R w q p ->
  match gaccess p with
  | Some (KSets, a, _) => In a (ran (w_s w))
  | Some (KOps, a, _) => In a (ran (w_o w))
  | Some (_, _, b) => b = false
  | None => True
  end.
Proof.
  assert (X : forall r s s', srel r s s' -> sl_len s' <> 0 \/ sl_cap s' <> 0 -> In (sl_arr s') (ran r)).
  { intros r s s' (_ & E2 & E3 & [[Z1 Z2]|I]) N; [destruct N; congruence|].
    change (sl_arr s') with (snd (sl_arr s, sl_arr s')). apply in_map, I. }
  intros H. destruct H as [w a b H|w e|w q|w|w s i k k' H|w s i k k' H|w s i k k' H|w s s' i k k' Hs H
      |w s s' i x k k' Hs H|w n k k' H|w grow s s' o k k' Hs H]; cbn [gaccess]; auto.
  - destruct (Nat.ltb i (sl_len s)); auto.
  - destruct (Nat.ltb i (sl_len s)); auto.
  - destruct (Nat.ltb i (sl_len s)); auto.
  - destruct (Nat.ltb_spec i (sl_len s')); auto. eapply X; [exact Hs|lia].
  - destruct (Nat.ltb_spec i (sl_len s')); auto. eapply X; [exact Hs|lia].
  - destruct (Nat.ltb_spec (sl_len s') (sl_cap s')); [eapply X; [exact Hs|lia]|].
    destruct (Nat.ltb_spec 0 (sl_len s')); auto. eapply X; [exact Hs|lia].
Qed.

(** ... and none is ever about to: what a call writes, it has made. So parsers,
    which only read their tables, can use tables of earlier calls meanwhile. *)
Theorem C114_writes_own :
  forall jobs m0 sched i p kd a,
    nth_error (gc_calls (gafter jobs m0 sched)) i = Some p -> gaccess p = Some (kd, a, true) ->
    (kd = KSets /\ length (gm_sets m0) <= a) \/ (kd = KOps /\ length (m_ops (gm_mem m0)) <= a).
Proof.
  intros jobs m0 sched i p kd a Ep Ea. destruct (ginv_all m0 jobs sched) as (ws & I).
  assert (L : i < length jobs) by (rewrite <- (gi_len _ _ _ _ _ I); apply nth_error_Some; congruence).
  destruct (nth_error jobs i) as [j|] eqn:Ej; [|apply nth_error_None in Ej; lia].
  destruct (among jobs m0 sched i j Ej) as (w & p' & Ep' & R & S). rewrite Ep in Ep'. injection Ep' as <-.
  pose proof (access_ran _ _ _ _ R) as X. rewrite Ea in X. destruct kd; try discriminate.
  - left. split; [reflexivity|]. apply (hrel_lt _ _ _ _ (si_sets _ _ _ _ S) a X).
  - right. split; [reflexivity|]. apply (hrel_lt _ _ _ _ (si_ops _ _ _ _ S) a X).
Qed.
Print Assumptions C114_writes_own.

(** No schedule leads to a data race. *)
Theorem C114_no_race : forall jobs m0 sched, ~ grace (gafter jobs m0 sched).
Proof.
  intros jobs m0 sched (i & k & p & q & kd & a & b & N & Ep & Eq & Ap & Aq). destruct (ginv_all m0 jobs sched) as (ws & I).
  assert (J : forall i p, nth_error (gc_calls (gafter jobs m0 sched)) i = Some p -> exists j, nth_error jobs i = Some j).
  { intros l x E. destruct (nth_error jobs l) as [j|] eqn:Ej; [eauto|]. apply nth_error_None in Ej.
    rewrite <- (gi_len _ _ _ _ _ I) in Ej. apply nth_error_None in Ej. congruence. }
  destruct (J i p Ep) as (ji & Ei). destruct (J k q Eq) as (jk & Ek).
  destruct (gi_calls _ _ _ _ _ I i ji Ei) as (w & p' & Ew & Ep' & R & _). rewrite Ep in Ep'. injection Ep' as <-.
  destruct (gi_calls _ _ _ _ _ I k jk Ek) as (v & q' & Ev & Eq' & R' & _). rewrite Eq in Eq'. injection Eq' as <-.
  destruct (gi_apart _ _ _ _ _ I i k w v N Ew Ev) as [A1 A2].
  pose proof (access_ran _ _ _ _ R) as X. pose proof (access_ran _ _ _ _ R') as Y. rewrite Ap in X. rewrite Aq in Y.
  destruct kd; try discriminate; [exact (A1 a X Y)|exact (A2 a X Y)].
Qed.
Print Assumptions C114_no_race.

(** Each table owns its cells, ... *)
Theorem C114_cells_own :
  forall jobs m0 sched i j g mt names,
    nth_error jobs i = Some j -> grammar_in m0 (g_rules j) g ->
    nth_error (gc_calls (gafter jobs m0 sched)) i = Some (PRet (Ok (mt, names))) ->
    own_cells (length (m_ops (gm_mem m0))) (cells mt).
Proof.
  intros jobs m0 sched i j g mt names Ej Hg Er. destruct (among_done _ _ _ _ _ _ Ej Er) as (w & r0 & m & E & R & S).
  inversion R as [? a b [H1 _]| | | | | | | | | |]; subst. destruct a as [mt0 nm0]. cbn in H1.
  eapply own_moved; [exact (si_ops _ _ _ _ S)|apply cells_moved, H1|]. eapply C71_cells_own; eassumption.
Qed.
Print Assumptions C114_cells_own.

(** ... and the tables of two calls have no array in common. *)
Theorem C114_tables_apart :
  forall jobs m0 sched i k mt names mt' names',
    i <> k ->
    nth_error (gc_calls (gafter jobs m0 sched)) i = Some (PRet (Ok (mt, names))) ->
    nth_error (gc_calls (gafter jobs m0 sched)) k = Some (PRet (Ok (mt', names'))) ->
    forall s s', In s (cells mt) -> In s' (cells mt') -> sl_cap s <> 0 -> sl_cap s' <> 0 ->
    sl_arr s <> sl_arr s'.
Proof.
  intros jobs m0 sched i k mt names mt' names' N Ep Eq s s' Is Is' Cs Cs' E. destruct (ginv_all m0 jobs sched) as (ws & I).
  assert (J : forall i p, nth_error (gc_calls (gafter jobs m0 sched)) i = Some p -> exists j, nth_error jobs i = Some j).
  { intros l x H. destruct (nth_error jobs l) as [j|] eqn:Ej; [eauto|]. apply nth_error_None in Ej.
    rewrite <- (gi_len _ _ _ _ _ I) in Ej. apply nth_error_None in Ej. congruence. }
  destruct (J i _ Ep) as (ji & Ei). destruct (J k _ Eq) as (jk & Ek).
  destruct (gi_calls _ _ _ _ _ I i ji Ei) as (w & p' & Ew & Ep' & R & _). rewrite Ep in Ep'. injection Ep' as <-.
  destruct (gi_calls _ _ _ _ _ I k jk Ek) as (v & q' & Ev & Eq' & R' & _). rewrite Eq in Eq'. injection Eq' as <-.
  destruct (gi_apart _ _ _ _ _ I i k w v N Ew Ev) as [_ A2].
  assert (X : forall w q mt names s, prel resrel w q (PRet (Ok (mt, names))) -> In s (cells mt) -> sl_cap s <> 0 -> In (sl_arr s) (ran (w_o w))).
  { intros w0 q0 mt0 nm s0 H H1 H2. inversion H as [? a b [H3 _]| | | | | | | | | |]; subst. apply cells_moved in H3.
    destruct (cell_ran _ _ _ _ H3 H1 H2) as (s1 & _ & _ & K). change (sl_arr s0) with (snd (sl_arr s1, sl_arr s0)). apply in_map, K. }
  apply (A2 (sl_arr s)); [eapply X; eassumption|]. rewrite E. eapply X; eassumption.
Qed.
Print Assumptions C114_tables_apart.

(** A call that runs alone is the function of TableGenMem.v (C71). *)
Theorem C114_alone :
  forall j m0, exists n,
    gafter [j] m0 (repeat 0 n) =
    let (r, m) := mFromGrammar (g_grow j) (g_order j) (g_fuel j) (g_rules j) m0 in mkGConfig [PRet r] m.
Proof.
  intros j m0. destruct (solo_end (gstart j) m0) as (n & E). exists n.
  assert (X : forall k, gafter [j] m0 (repeat 0 k) = mkGConfig [fst (gsolo k (gstart j, m0))] (snd (gsolo k (gstart j, m0)))).
  { induction k as [|k IH]; [reflexivity|]. replace (S k) with (k + 1) by lia. rewrite repeat_app. unfold gafter in *.
    rewrite fold_left_app, IH. cbn [repeat fold_left]. unfold gturn. cbn [gc_calls nth_error gc_mem].
    rewrite Nat.add_1_r. cbn [gsolo]. unfold solo1. destruct (gsolo k (gstart j, m0)) as [q m]. cbn [fst snd].
    destruct (pstep q m). reflexivity. }
  rewrite X, E. cbn [fst snd]. unfold gstart. rewrite run_FromGrammar.
  destruct (mFromGrammar (g_grow j) (g_order j) (g_fuel j) (g_rules j) m0). reflexivity.
Qed.
Print Assumptions C114_alone.

(** ** A concrete case: two calls on the grammar of Props_GenMem.v and one on a
    slice that is none, taking turns. *)
Definition conc_jobs : list gjob :=
  [mkGJob (fun n => 4 * n) (fun l => l) 600 gcase_mg; mkGJob (fun n => n) (@rev _) 600 gcase_mg;
   mkGJob (fun n => n) (fun l => l) 600 (mkSlice 7 0 1 1)].
Definition conc_sched : list nat := flat_map (fun _ => [0; 1; 2]) (seq 0 200).
Definition conc_end (p : gcall) : nat * list nat :=
  match p with PRet (Ok (mt, _)) => (1, map sl_arr (cells mt)) | PRet (Panic _) => (2, []) | _ => (0, []) end.

Example C114_case :
  map conc_end (gc_calls (gafter conc_jobs gcase_m conc_sched)) = [(1, [0; 3; 0]); (1, [2; 5; 0]); (2, [])] /\
  length (m_ops (gm_mem (gc_mem (gafter conc_jobs gcase_m conc_sched)))) = 6 /\
  grammar_in gcase_m (g_rules (mkGJob (fun n => n) (@rev _) 600 gcase_mg)) gcase_g /\
  exists mt t names, FromGrammar_order (@rev _) 600 gcase_g = Ok (t, names) /\ length t = 2 /\
    nth_error (gc_calls (gafter conc_jobs gcase_m conc_sched)) 1 = Some (PRet (Ok (mt, names))) /\
    table_in (gm_mem (gc_mem (gafter conc_jobs gcase_m conc_sched))) mt t.
Proof.
  split; [vm_compute; reflexivity|]. split; [vm_compute; reflexivity|]. split; [exact gcase_in|].
  destruct (FromGrammar_order (@rev _) 600 gcase_g) as [[t names]|e|p|] eqn:Eg; [|exfalso; revert Eg; vm_compute; discriminate..].
  destruct (nth_error (gc_calls (gafter conc_jobs gcase_m conc_sched)) 1) as [[[[mt nm]|e|p|]| | | | | | |]|] eqn:Ec;
    try (exfalso; revert Ec; vm_compute; discriminate).
  pose proof (C114_results conc_jobs gcase_m conc_sched 1 (mkGJob (fun n => n) (@rev _) 600 gcase_mg) gcase_g (Ok (mt, nm)) eq_refl gcase_in Ec) as C.
  cbn [g_order g_fuel] in C. rewrite Eg in C. destruct C as [C ->]. exists mt, t, names.
  split; [reflexivity|]. split; [|split; [reflexivity|exact C]].
  apply (f_equal (fun r => match r with Ok (t, _) => length t | _ => 0 end)) in Eg. rewrite <- Eg. vm_compute. reflexivity.
Qed.

(** Two calls reading the same array is no race; two appends to the same slice
    with room, or to it and reading it, would be. *)
Example C114_reads :
  exists p q, nth_error (gc_calls (gafter conc_jobs gcase_m [])) 0 = Some p /\
    nth_error (gc_calls (gafter conc_jobs gcase_m [])) 1 = Some q /\
    gaccess p = Some (KRules, 0, false) /\ gaccess q = Some (KRules, 0, false).
Proof. do 2 eexists. repeat split. Qed.
Example C114_would_race : forall (k : slice -> gcall) m,
  grace (mkGConfig [PAppend (fun n => n) (mkSlice 3 0 1 4) (OpNil) k; PAppend (fun n => n) (mkSlice 3 0 2 4) OpNil k] m).
Proof. intros k m. exists 0, 1. do 5 eexists. repeat split. discriminate. Qed.
