(** * Props_ConvertConc: C117, calls of ToAST at the same time. *)
From Verif Require Import Base Cst Ast FromCst Spec_Convert WalkProofs ConvertProofs SliceMem ParserMem TableGenMem
  FromCstMem Spec_Mem Spec_GenMem ParserMemProofs TGMem ConvertMem Props_ConvertMem
  ConvertConc Spec_ConvertConc ConvertConcProofs ConvertConcInv.

(** ** C117 *)

(** However the steps of the calls interleave: a call that has ended has ended as
    ToAST does on plain values, and a grammar it returned stands in memory, all
    its parts in arrays that did not exist before, each in its own. *)
Theorem C117_results :
  forall jobs m0 sched i j r,
    nth_error jobs i = Some j ->
    nth_error (rc_calls (rafter jobs m0 sched)) i = Some (RRet r) ->
    let m := rc_mem (rafter jobs m0 sched) in
    match r, ToAST (r_bindings j) (r_root j) (r_str j) with
    | Ok rules, Ok g => grammar_in m rules g /\ own_grammar m0 m rules
    | Err e, Err e' => e = e'
    | Panic p, Panic p' => p = p'
    | NoFuel, NoFuel => True
    | _, _ => False
    end.
Proof.
  intros jobs m0 sched i j r Ej Er m. destruct (rinv_after jobs m0 sched) as (Gs & R). fold m in R.
  destruct (rinv_ghost _ _ _ _ _ _ _ R Er) as (G & EG & W). pose proof W as (G' & L & H). cbn in H. specialize (H j Ej).
  assert (W' : wp (RRet r) G' (rwant jobs i)).
  { exists G'. split; [apply ghle_refl|].
    intros j' Ej'. rewrite Ej in Ej'. injection Ej' as <-. exact H. }
  pose proof (rinv_weaken _ _ _ _ _ _ _ _ _ R Er EG L W') as R'. clear W W' R L.
  unfold call_ends in H. destruct r as [s|e|p|], (ToAST (r_bindings j) (r_root j) (r_str j)) as [g|e'|p'|]; try contradiction; auto.
  destruct H as (L & -> & ->).
  apply (RR_grammar m0 m s). exists L. cbn [fst snd].
  destruct R' as [_ _ K As Aq Ar]. pose proof EG as EG'.
  assert (EL : nth_error (list_set Gs i (mkGhost (concat (map snd L)) (map (fun l => (snd (fst l), map fst (snd l))) L)
                 [(s, map fst L)])) i = Some (mkGhost (concat (map snd L)) (map (fun l => (snd (fst l), map fst (snd l))) L)
                 [(s, map fst L)])) by (eapply list_set_at, EG).
  destruct (concat_at g_s _ i _ EL) as (A & B & C). rewrite <- (list_set_self _ _ _ EL), C in As. cbn [g_s] in As.
  destruct (concat_at g_q _ i _ EL) as (A1 & B1 & C1). rewrite <- (list_set_self _ _ _ EL), C1 in Aq. cbn [g_q] in Aq.
  destruct (concat_at g_r _ i _ EL) as (A2 & B2 & C2). rewrite <- (list_set_self _ _ _ EL), C2 in Ar. cbn [g_r] in Ar.
  assert (Mid : forall T (base : nat) (h : heap T) X l Y, area base h (X ++ l ++ Y) ->
            Forall (fun p => holds h (fst p) (snd p)) l /\ own_cells base (map fst l)).
  { intros T base h X l Y [F O]. rewrite !Forall_app in F. split; [apply F|]. rewrite !map_app in O.
    assert (O1 : own_cells base (map fst l ++ map fst Y)) by (apply (own_mid base [] (map fst X) _ O)).
    eapply own_prefix, O1. }
  apply Mid in As. apply Mid in Aq. apply Mid in Ar. destruct As as [F1 O1], Aq as [F2 O2], Ar as [F3 O3].
  split; [|split; [|split; [exact O3|reflexivity]]].
  - split; [exact K|]. split; [reflexivity|]. auto.
  - inversion F3; assumption.
Qed.
Print Assumptions C117_results.

(** Every call ends, after at most three appends of its own for each node of its
    tree, whatever the others do. *)
Lemma rturns_cons i k sched : rturns i (k :: sched) = (if Nat.eqb k i then 1 else 0) + rturns i sched.
Proof.
  unfold rturns. cbn [count_occ]. destruct (Nat.eq_dec k i) as [->|N]; [rewrite Nat.eqb_refl; reflexivity|].
  destruct (Nat.eqb_spec k i); [contradiction|reflexivity].
Qed.

Lemma within_steps sched : forall c i p n, nth_error (rc_calls c) i = Some p -> within p n -> n <= rturns i sched ->
  exists r, nth_error (rc_calls (fold_left rturn sched c)) i = Some (RRet r).
Proof.
  induction sched as [|k sched IH]; intros c i p n E W L.
  - cbn in L. assert (n = 0) as -> by lia. destruct p; cbn in W; [eauto| | |]; destruct W as (n' & X & _); discriminate.
  - rewrite rturns_cons in L. cbn [fold_left]. destruct (Nat.eqb_spec k i) as [->|N].
    + destruct (rstep p (rc_mem c)) as [p' m'] eqn:Es.
      assert (E' : nth_error (rc_calls (rturn c i)) i = Some p').
      { unfold rturn. rewrite E, Es. cbn. eapply list_set_at, E. }
      assert (W' : within p' (n - 1)).
      { destruct p as [a|g s x q|g s x q|g s x q]; cbn in Es, W.
        - injection Es as <- _. exact I.
        - destruct W as (n' & -> & W). destruct (slice_append _ g _ s [x]). injection Es as <- _. cbn. rewrite Nat.sub_0_r. apply W.
        - destruct W as (n' & -> & W). destruct (slice_append _ g _ s [x]). injection Es as <- _. cbn. rewrite Nat.sub_0_r. apply W.
        - destruct W as (n' & -> & W). destruct (slice_append _ g _ s [x]). injection Es as <- _. cbn. rewrite Nat.sub_0_r. apply W. }
      apply (IH _ _ _ (n - 1) E' W'). lia.
    + apply (IH _ _ p n); [|exact W|exact L]. unfold rturn. destruct (nth_error (rc_calls c) k); [|exact E].
      destruct (rstep r (rc_mem c)). cbn. rewrite list_set_else by exact N. exact E.
Qed.

Theorem C117_progress :
  forall jobs m0 sched i j,
    nth_error jobs i = Some j -> 3 * nodes_of (r_root j) <= rturns i sched ->
    exists r, nth_error (rc_calls (rafter jobs m0 sched)) i = Some (RRet r).
Proof.
  intros jobs m0 sched i j E L. unfold rafter.
  apply (within_steps sched _ i (rstart j) (3 * nodes_of (r_root j))); [|apply within_ToAST_sorted|exact L].
  cbn. rewrite nth_error_map, E. reflexivity.
Qed.
Print Assumptions C117_progress.

(** What a call has returned stays. *)
Theorem C117_final :
  forall jobs m0 sched more i r,
    nth_error (rc_calls (rafter jobs m0 sched)) i = Some (RRet r) ->
    nth_error (rc_calls (rafter jobs m0 (sched ++ more))) i = Some (RRet r).
Proof.
  intros jobs m0 sched more i r H. unfold rafter in *. rewrite fold_left_app.
  revert H. generalize (fold_left rturn sched (rall_start jobs m0)) as c. induction more as [|k more IH]; intros c H; [exact H|].
  cbn [fold_left]. apply IH. unfold rturn. destruct (nth_error (rc_calls c) k) as [p|] eqn:Ep; [|exact H].
  destruct (rstep p (rc_mem c)) as [p' m'] eqn:Es. cbn. destruct (Nat.eq_dec k i) as [->|N].
  - rewrite H in Ep. injection Ep as <-. cbn in Es. injection Es as <- _. eapply list_set_at, H.
  - rewrite list_set_else by exact N. exact H.
Qed.
Print Assumptions C117_final.

(** Nothing that existed before is changed, at any time: all arrays are as they
    were, so grammars and tables in memory still are what they were. *)
Theorem C117_nothing_overwritten :
  forall jobs m0 sched,
    let m := rc_mem (rafter jobs m0 sched) in
    all_kept m0 m /\
    (forall mg g, grammar_in m0 mg g -> grammar_in m mg g) /\
    (forall mt t, table_in (gm_mem m0) mt t -> table_in (gm_mem m) mt t).
Proof.
  intros jobs m0 sched m. destruct (rinv_after jobs m0 sched) as (Gs & R). pose proof (ri_kept _ _ _ _ _ R) as K. fold m in K.
  split; [exact K|]. split.
  - intros mg g. apply grammar_in_kept, K.
  - intros mt t. apply table_in_untouched, K.
Qed.
Print Assumptions C117_nothing_overwritten.

(** What a call is about to access is its own. *)
Definition ghost_slices (kd : rkind) (G : ghost) : list slice :=
  match kd with
  | RKSyms => map fst (g_s G)
  | RKSeqs => map fst (g_q G)
  | RKRules => map fst (g_r G)
  end.
Definition kind_base (kd : rkind) (m : gmem) : nat :=
  match kd with
  | RKSyms => length (gm_syms m)
  | RKSeqs => length (gm_seqs m)
  | RKRules => length (gm_rules m)
  end.
Lemma rinv_own m0 Qs ps M Gs kd : rinv m0 Qs ps M Gs -> own_cells (kind_base kd m0) (concat (map (ghost_slices kd) Gs)).
Proof.
  intros [_ _ _ [_ As] [_ Aq] [_ Ar]].
  assert (E : forall T (f : ghost -> owned T), map fst (concat (map f Gs)) = concat (map (fun G => map fst (f G)) Gs)).
  { intros T f. rewrite concat_map, map_map. reflexivity. }
  rewrite E in As, Aq, Ar. destruct kd; assumption.
Qed.

(** An access of call [i] is to a slice it owns. *)
Lemma access_owned m0 Qs ps M Gs i p kd a wr : rinv m0 Qs ps M Gs -> nth_error ps i = Some p ->
  raccess p = Some (kd, a, wr) ->
  exists Gs' G s, rinv m0 Qs ps M Gs' /\ nth_error Gs' i = Some G /\ In s (ghost_slices kd G) /\
    sl_cap s <> 0 /\ sl_arr s = a /\
    (forall k, k <> i -> nth_error Gs' k = nth_error Gs k).
Proof.
  intros R Ep Ea. destruct (rinv_ghost _ _ _ _ _ _ _ R Ep) as (G & EG & W).
  assert (K : forall k s, rappend_access k s = Some (kd, a, wr) -> k = kd /\ sl_arr s = a /\ (0 < sl_cap s \/ 0 < sl_len s)).
  { intros k s. unfold rappend_access. destruct (Nat.ltb_spec (sl_len s) (sl_cap s)).
    - intros [= -> -> _]. repeat split. lia.
    - destruct (Nat.ltb_spec 0 (sl_len s)); [|discriminate]. intros [= -> -> _]. repeat split. lia. }
  destruct p as [x|g s x k|g s x k|g s x k]; cbn in Ea, W; [discriminate| | |];
    destruct W as (X & xs & q & r & L & W); destruct (K _ _ Ea) as (<- & <- & P).
  - set (G' := mkGhost (X ++ [(s, xs)]) q r) in *.
    assert (W' : wp (RSym g s x k) G' (Qs i)) by (exists X, xs, q, r; split; [apply ghle_refl|exact W]).
    pose proof (rinv_weaken _ _ _ _ _ _ _ _ _ R Ep EG L W') as R'.
    exists (list_set Gs i G'), G', s. split; [exact R'|]. split; [eapply list_set_at, EG|]. split; [|split; [|split; [reflexivity|]]].
    + cbn. rewrite map_app. apply in_or_app. right. left. reflexivity.
    + destruct (concat_at g_s Gs i G EG) as (A & B & C). pose proof (ri_s _ _ _ _ _ R') as As. rewrite C in As.
      cbn [g_s G'] in As. rewrite <- app_assoc, app_assoc in As. apply area_held in As. destruct As as ((Lc & _) & _). lia.
    + intros j N. apply list_set_else. auto.
  - set (G' := mkGhost q (X ++ [(s, xs)]) r) in *.
    assert (W' : wp (RSeq g s x k) G' (Qs i)) by (exists X, xs, q, r; split; [apply ghle_refl|exact W]).
    pose proof (rinv_weaken _ _ _ _ _ _ _ _ _ R Ep EG L W') as R'.
    exists (list_set Gs i G'), G', s. split; [exact R'|]. split; [eapply list_set_at, EG|]. split; [|split; [|split; [reflexivity|]]].
    + cbn. rewrite map_app. apply in_or_app. right. left. reflexivity.
    + destruct (concat_at g_q Gs i G EG) as (A & B & C). pose proof (ri_q _ _ _ _ _ R') as As. rewrite C in As.
      cbn [g_q G'] in As. rewrite <- app_assoc, app_assoc in As. apply area_held in As. destruct As as ((Lc & _) & _). lia.
    + intros j N. apply list_set_else. auto.
  - set (G' := mkGhost q r (X ++ [(s, xs)])) in *.
    assert (W' : wp (RRule g s x k) G' (Qs i)) by (exists X, xs, q, r; split; [apply ghle_refl|exact W]).
    pose proof (rinv_weaken _ _ _ _ _ _ _ _ _ R Ep EG L W') as R'.
    exists (list_set Gs i G'), G', s. split; [exact R'|]. split; [eapply list_set_at, EG|]. split; [|split; [|split; [reflexivity|]]].
    + cbn. rewrite map_app. apply in_or_app. right. left. reflexivity.
    + destruct (concat_at g_r Gs i G EG) as (A & B & C). pose proof (ri_r _ _ _ _ _ R') as As. rewrite C in As.
      cbn [g_r G'] in As. rewrite <- app_assoc, app_assoc in As. apply area_held in As. destruct As as ((Lc & _) & _). lia.
    + intros j N. apply list_set_else. auto.
Qed.

(** A call writes only to arrays that did not exist when the calls started. *)
Theorem C117_writes_own :
  forall jobs m0 sched i p kd a,
    nth_error (rc_calls (rafter jobs m0 sched)) i = Some p -> raccess p = Some (kd, a, true) ->
    match kd with
    | RKSyms => length (gm_syms m0)
    | RKSeqs => length (gm_seqs m0)
    | RKRules => length (gm_rules m0)
    end <= a.
Proof.
  intros jobs m0 sched i p kd a Ep Ea. destruct (rinv_after jobs m0 sched) as (Gs & R).
  destruct (access_owned _ _ _ _ _ _ _ _ _ _ R Ep Ea) as (Gs' & G & s & R' & EG & Is & Cs & <- & _).
  pose proof (rinv_own _ _ _ _ _ kd R') as (F & _). rewrite Forall_forall in F.
  destruct (F s) as [Z|Z]; [|contradiction|destruct kd; exact Z].
  apply in_concat. exists (ghost_slices kd G). split; [|exact Is]. apply in_map. eapply nth_error_In, EG.
Qed.
Print Assumptions C117_writes_own.

Lemma own_lists base (ls : list (list slice)) i k l l' s s' : own_cells base (concat ls) -> i <> k ->
  nth_error ls i = Some l -> nth_error ls k = Some l' -> In s l -> In s' l' -> sl_cap s <> 0 -> sl_cap s' <> 0 ->
  sl_arr s <> sl_arr s'.
Proof.
  intros O N E E' I I' C C'. revert i k l l' s s' N E E' I I' C C'.
  assert (W : forall i k l l' s s', i < k -> nth_error ls i = Some l -> nth_error ls k = Some l' -> In s l -> In s' l' ->
            sl_cap s <> 0 -> sl_cap s' <> 0 -> sl_arr s <> sl_arr s').
  { intros i k l l' s s' L E E' I I' C C'. destruct (nth_error_split _ _ E) as (A & B & Els & Li). rewrite Els in E', O.
    rewrite nth_error_app2 in E' by lia. destruct (k - length A) as [|k'] eqn:Ek; [lia|]. cbn in E'.
    apply in_split in I. destruct I as (l1 & l2 & ->). rewrite concat_app in O. cbn [concat] in O.
    rewrite <- app_assoc in O. cbn [app] in O. rewrite app_assoc in O.
    destruct (own_apart base _ s _ s' O) as [Z|Z]; [|exact C'|contradiction|congruence].
    apply in_or_app. right. apply in_or_app. right. apply in_concat. exists l'. split; [eapply nth_error_In, E'|exact I']. }
  intros i k l l' s s' N E E' I I' C C'. destruct (Nat.lt_total i k) as [L|[->|L]].
  - eapply W; eassumption.
  - contradiction.
  - intros X. symmetry in X. revert X. eapply (W k i l' l); eassumption.
Qed.

(** No two calls are ever about to access the same array with one of them writing. *)
Theorem C117_no_race : forall jobs m0 sched, ~ rrace (rafter jobs m0 sched).
Proof.
  intros jobs m0 sched (i & k & p & q & kd & a & b & N & Ep & Eq & Ap & Aq). destruct (rinv_after jobs m0 sched) as (Gs & R).
  destruct (access_owned _ _ _ _ _ _ _ _ _ _ R Ep Ap) as (Gs1 & G & s & R1 & EG & Is & Cs & Es & _).
  destruct (access_owned _ _ _ _ _ _ _ _ _ _ R1 Eq Aq) as (Gs2 & G' & s' & R2 & EG' & Is' & Cs' & Es' & Fr).
  rewrite <- Fr in EG by exact N. pose proof (rinv_own _ _ _ _ _ kd R2) as O.
  apply (own_lists _ _ i k _ _ s s' O N (map_nth_error (ghost_slices kd) _ _ EG) (map_nth_error (ghost_slices kd) _ _ EG') Is Is' Cs Cs').
  congruence.
Qed.
Print Assumptions C117_no_race.

(** The parts of a grammar a call has returned are what the call owns. *)
Lemma returned_owned jobs m0 M ps Gs i j rules : rinv m0 (rwant jobs) ps M Gs ->
  nth_error jobs i = Some j -> nth_error ps i = Some (RRet (Ok rules)) ->
  exists Gs' G, rinv m0 (rwant jobs) ps M Gs' /\ nth_error Gs' i = Some G /\
    (forall k, k <> i -> nth_error Gs' k = nth_error Gs k) /\
    ghost_slices RKRules G = [rules] /\ ghost_slices RKSeqs G = map snd (rules_of M rules) /\
    ghost_slices RKSyms G = alternatives_of M rules.
Proof.
  intros R Ej Er. destruct (rinv_ghost _ _ _ _ _ _ _ R Er) as (G & EG & (G' & L & H)). pose proof (H j Ej) as C.
  assert (W' : wp (RRet (Ok rules)) G' (rwant jobs i)) by (apply wp_ret, H).
  pose proof (rinv_weaken _ _ _ _ _ _ _ _ _ R Er EG L W') as R'.
  exists (list_set Gs i G'), G'. split; [exact R'|]. split; [eapply list_set_at, EG|].
  split; [intros k N; apply list_set_else; auto|].
  unfold call_ends in C. destruct (ToAST (r_bindings j) (r_root j) (r_str j)) as [g|e'|p'|]; try contradiction.
  destruct C as (K & -> & _). cbn [ghost_slices g_s g_q g_r map fst].
  assert (Fs : forall T (base : nat) (h : heap T) X l Y, area base h (X ++ l ++ Y) -> Forall (fun p => holds h (fst p) (snd p)) l).
  { intros T base h X l Y [F _]. rewrite !Forall_app in F. apply F. }
  destruct (concat_at g_q Gs i G EG) as (A1 & B1 & C1). pose proof (ri_q _ _ _ _ _ R') as Aq. rewrite C1 in Aq. cbn [g_q] in Aq.
  destruct (concat_at g_r Gs i G EG) as (A2 & B2 & C2). pose proof (ri_r _ _ _ _ _ R') as Ar. rewrite C2 in Ar. cbn [g_r] in Ar.
  apply Fs in Aq. apply Fs in Ar. inversion Ar as [|? ? Hr _]; subst. cbn in Hr.
  assert (Er' : rules_of M rules = map fst K) by exact (holds_elems _ _ _ Hr).
  split; [reflexivity|]. split.
  - rewrite Er', !map_map. reflexivity.
  - unfold alternatives_of. rewrite Er'. clear -Aq. induction K as [|[[hd sq] X] K IH]; [reflexivity|].
    cbn [map] in Aq. inversion Aq as [|? ? Hq F2]; subst. cbn in Hq. cbn [map flat_map concat snd fst].
    rewrite (holds_elems _ _ _ Hq), map_app, IH by exact F2. reflexivity.
Qed.

(** The grammars two calls have returned have no array in common: not that of the
    rules, not that of the alternatives of a rule, not that of the symbols of an
    alternative. (A slice without capacity has no array.) *)
Theorem C117_grammars_apart :
  forall jobs m0 sched i k rules rules',
    i <> k ->
    nth_error (rc_calls (rafter jobs m0 sched)) i = Some (RRet (Ok rules)) ->
    nth_error (rc_calls (rafter jobs m0 sched)) k = Some (RRet (Ok rules')) ->
    let m := rc_mem (rafter jobs m0 sched) in
    let apart l l' := forall s s', In s l -> In s' l' -> sl_cap s <> 0 -> sl_cap s' <> 0 -> sl_arr s <> sl_arr s' in
    apart [rules] [rules'] /\
    apart (map snd (rules_of m rules)) (map snd (rules_of m rules')) /\
    apart (alternatives_of m rules) (alternatives_of m rules').
Proof.
  intros jobs m0 sched i k rules rules' N Ei Ek m apart. destruct (rinv_after jobs m0 sched) as (Gs & R). fold m in R.
  assert (Job : forall x y, nth_error (rc_calls (rafter jobs m0 sched)) x = Some y -> exists j, nth_error jobs x = Some j).
  { intros x y E. destruct (nth_error jobs x) as [j|] eqn:Ej; [eauto|]. exfalso. apply nth_error_None in Ej.
    assert (Len : length (rc_calls (rafter jobs m0 sched)) = length jobs).
    { unfold rafter. rewrite <- (map_length rstart jobs). change (map rstart jobs) with (rc_calls (rall_start jobs m0)).
      generalize (rall_start jobs m0) as c. clear. induction sched as [|z sched IH]; intros c; [reflexivity|]. cbn [fold_left].
      rewrite IH. unfold rturn. destruct (nth_error (rc_calls c) z); [|reflexivity]. destruct (rstep r (rc_mem c)). cbn.
      apply list_set_length. }
    rewrite <- Len in Ej. apply nth_error_None in Ej. congruence. }
  destruct (Job _ _ Ei) as (j & Ej). destruct (Job _ _ Ek) as (j' & Ej').
  destruct (returned_owned _ _ _ _ _ _ _ _ R Ej Ei) as (G1 & G & R1 & EG & _ & P1 & P2 & P3).
  destruct (returned_owned _ _ _ _ _ _ _ _ R1 Ej' Ek) as (G2 & G' & R2 & EG' & Fr & P1' & P2' & P3').
  rewrite <- Fr in EG by exact N.
  assert (X : forall kd, apart (ghost_slices kd G) (ghost_slices kd G')).
  { intros kd s s' I I' C C'. pose proof (rinv_own _ _ _ _ _ kd R2) as O.
    exact (own_lists _ _ i k _ _ s s' O N (map_nth_error (ghost_slices kd) _ _ EG) (map_nth_error (ghost_slices kd) _ _ EG') I I' C C'). }
  split; [|split].
  - rewrite <- P1, <- P1'. apply X.
  - rewrite <- P2, <- P2'. apply X.
  - rewrite <- P3, <- P3'. apply X.
Qed.
Print Assumptions C117_grammars_apart.

(** ** One call by itself is the one of FromCstMem.v (property C72) *)
Fixpoint rrun {A} (p : rprog A) (m : gmem) : A * gmem :=
  match p with
  | RRet a => (a, m)
  | RSym grow s x k =>
      let (h, t) := slice_append zero_symbol grow (gm_syms m) s [x] in rrun (k t) (set_gsyms m h)
  | RSeq grow s x k =>
      let (h, t) := slice_append nil_slice grow (gm_seqs m) s [x] in rrun (k t) (set_gseqs m h)
  | RRule grow s x k =>
      let (h, t) := slice_append zero_rule grow (gm_rules m) s [x] in rrun (k t) (set_grules m h)
  end.
Lemma rrun_bind {A B} (p : rprog A) (f : A -> rprog B) : forall m,
  rrun (rbind p f) m = rrun (f (fst (rrun p m))) (snd (rrun p m)).
Proof.
  induction p as [a|g s x k IH|g s x k IH|g s x k IH]; intros m; cbn; [reflexivity| | |];
    destruct (slice_append _ g _ s [x]) as [h t]; apply IH.
Qed.

Section Run.
  Variable grow : nat -> nat.
  Variable b : bindings.
  Variable str : bytes.
  (** The state of a traversal with its memory, as FromCstMem.v has it. *)
  Definition turned {S} (x : (S * stop) * gmem) : (gmem * S) * stop := ((snd x, fst (fst x)), snd (fst x)).

  Lemma run_stopped {S} ign srch (f : rcallback S) l : forall st m, snd st <> Ok tt ->
    rrun (rwalk_list ign srch f st l) m = (st, m).
  Proof.
    induction l as [|n l IH]; intros st m N; [reflexivity|]. cbn [rwalk_list]. rewrite rrun_bind, rwalk_eq.
    unfold rflexVisit. destruct st as [s [[]|e|p|]]; cbn [snd] in *; [contradiction N; reflexivity| | |]; cbn [rbind rrun fst snd]; apply IH; discriminate.
  Qed.
  Lemma run_walk {S} ign srch (f : rcallback S) (mf : mcallback (gmem * S)) :
    (forall s n m, turned (rrun (f s n) m) = mf (m, s) n) ->
    forall n s m, turned (rrun (rwalk ign srch f (s, Ok tt) n) m) = meach mf (m, s) (outermost ign srch n).
  Proof.
    intros Hf n. induction n as [ty p q childs IH] using node_ind'. intros s m. rewrite rwalk_eq. unfold rflexVisit.
    cbn [snd fst n_type n_childs outermost]. destruct (ign ty); [reflexivity|]. destruct (srch ty).
    - rewrite !rrun_bind. cbn [rrun fst snd meach]. rewrite <- Hf. unfold turned.
      destruct (rrun (f s (Node ty p q childs)) m) as [[s' [[]|e|p1|]] m']; reflexivity.
    - cbn [rbind]. revert s m. induction childs as [|c l IHl]; intros s m; [reflexivity|].
      inversion IH as [|? ? Hc Hl]; subst. cbn [rwalk_list flat_map]. rewrite meach_app, rrun_bind, <- Hc. unfold turned at 2.
      destruct (rrun (rwalk ign srch f (s, Ok tt) c) m) as [[s' e] m']. cbn [fst snd]. destruct e as [[]|e|p1|].
      + apply IHl, Hl.
      + rewrite run_stopped by discriminate. reflexivity.
      + rewrite run_stopped by discriminate. reflexivity.
      + rewrite run_stopped by discriminate. reflexivity.
  Qed.
  Lemma run_traverse {S} (f : rcallback S) (mf : mcallback (gmem * S)) root t :
    (forall s n m, turned (rrun (f s n) m) = mf (m, s) n) ->
    forall s m, turned (rrun (rb_lrTraverse b root t f s) m) = mb_lrTraverse b root t mf (m, s).
  Proof. intros Hf s m. unfold mb_lrTraverse. rewrite mlrTraverse_each. apply run_walk, Hf. Qed.

  Lemma run_symbol s n m : turned (rrun (rdoOnSymbol grow b str s n) m) = mdoOnSymbol grow b str (m, s) n.
  Proof.
    unfold rdoOnSymbol, mdoOnSymbol. destruct (parseSymbol b str n) as [x|e|p|]; try reflexivity. cbn.
    destruct (slice_append zero_symbol grow (gm_syms m) s [x]). reflexivity.
  Qed.
  Lemma run_alternative s n m : turned (rrun (rdoOnSequence grow b str s n) m) = mdoOnSequence grow b str (m, s) n.
  Proof.
    unfold rdoOnSequence, mdoOnSequence, mparseSequence. rewrite rrun_bind.
    rewrite <- (run_traverse (rdoOnSymbol grow b str) _ n (SequencesSymbolType b) run_symbol nil_slice m).
    unfold rparseSequence, turned. destruct (rrun (rb_lrTraverse b n (SequencesSymbolType b) (rdoOnSymbol grow b str) nil_slice) m) as [[s' e] m'].
    cbn [fst snd]. destruct e as [[]|e|p|]; try reflexivity. cbn.
    destruct (slice_append nil_slice grow (gm_seqs m') s [s']). reflexivity.
  Qed.
  Lemma run_tail s n m : turned (rrun (rdoOnSubstitution grow b str s n) m) = mdoOnSubstitution grow b str (m, s) n.
  Proof.
    unfold rdoOnSubstitution, mdoOnSubstitution, mparseSubstitution. rewrite rrun_bind.
    rewrite <- (run_traverse (rdoOnSequence grow b str) _ n (ExpressionSequencesType b) run_alternative nil_slice m).
    unfold rparseSubstitution, turned. destruct (rrun (rb_lrTraverse b n (ExpressionSequencesType b) (rdoOnSequence grow b str) nil_slice) m) as [[s' e] m'].
    cbn [fst snd]. destruct e as [[]|e|p|]; reflexivity.
  Qed.
  Lemma run_rule s n m : turned (rrun (rdoOnRule grow b str s n) m) = mdoOnRule grow b str (m, s) n.
  Proof.
    unfold rdoOnRule, mdoOnRule. rewrite rrun_bind.
    assert (E : mparseRule grow b str m n = (snd (rrun (rparseRule grow b str n) m), fst (rrun (rparseRule grow b str n) m))).
    { unfold rparseRule, mparseRule.
      destruct (b_lrTraverse b n (RuleHeadType b) (doOnHead str) []) as [[hd err]|[]|p|]; try reflexivity.
      destruct err as [[[]|s1| |s3|s4|s5]|]; try reflexivity. rewrite rrun_bind.
      rewrite <- (run_traverse (rdoOnSubstitution grow b str) _ n (RuleTailType b) run_tail nil_slice m).
      unfold turned. destruct (rrun (rb_lrTraverse b n (RuleTailType b) (rdoOnSubstitution grow b str) nil_slice) m) as [[s' e] m'].
      cbn [fst snd]. destruct e as [[]|e|p|]; try reflexivity. destruct e as [[]|s1| |s3|s4|s5]; reflexivity. }
    rewrite E. destruct (rrun (rparseRule grow b str n) m) as [res m']. cbn [fst snd]. destruct res as [r|e|p|]; try reflexivity.
    cbn. destruct (slice_append zero_rule grow (gm_rules m') s [r]). reflexivity.
  Qed.
  Lemma run_ToAST_sorted root m : rrun (rToAST_sorted grow b str root) m =
    let '((m', rules), err) := mToAST_sorted grow b str m root in
    (match err with Ok tt => Ok rules | Err e => Err e | Panic p => Panic p | NoFuel => NoFuel end, m').
  Proof.
    unfold rToAST_sorted, mToAST_sorted. rewrite rrun_bind.
    rewrite <- (run_traverse (rdoOnRule grow b str) _ root (RuleType b) run_rule nil_slice m). unfold turned.
    destruct (rrun (rb_lrTraverse b root (RuleType b) (rdoOnRule grow b str) nil_slice) m) as [[s' e] m']. cbn [fst snd rrun].
    destruct e as [[]|e|p|]; reflexivity.
  Qed.
End Run.

Lemma alone_run n : forall p m, within p n -> fold_left rturn (repeat 0 n) (mkRConfig [p] m) =
  mkRConfig [RRet (fst (rrun p m))] (snd (rrun p m)).
Proof.
  assert (Ret : forall n a m, fold_left rturn (repeat 0 n) (mkRConfig [RRet a] m) = mkRConfig [RRet a] m).
  { induction n0 as [|n0 IH]; intros a m; [reflexivity|]. cbn. apply IH. }
  induction n as [|n IH]; intros p m W.
  - destruct p; cbn in W; [reflexivity| | |]; destruct W as (n' & X & _); discriminate.
  - destruct p as [a|g s x k|g s x k|g s x k]; [apply Ret| | |]; destruct W as (n' & [= <-] & W);
      cbn [repeat fold_left]; unfold rturn at 2; cbn [rc_calls rc_mem nth_error rstep rrun];
      destruct (slice_append _ g _ s [x]) as [h t]; cbn [list_set]; apply IH, W.
Qed.

(** A call that has the memory to itself is the call of property C72: the same
    result at the same addresses, and the same memory afterwards. (C72's
    IgnoreNodeTypes is a slice of ints, here it is a value.) *)
Theorem C117_alone :
  forall j m ignore ints, holds ints ignore (IgnoreNodeTypes (r_bindings j)) ->
    let (r, m') := mToAST (r_grow j) ignore (r_bindings j) (mkCM m ints) (r_root j) (r_str j) in
    rafter [j] m (repeat 0 (3 * nodes_of (r_root j))) = mkRConfig [RRet r] (cm_gm m').
Proof.
  intros [grow b root str] m ignore ints H. cbn [r_grow r_bindings r_root r_str] in *. unfold mToAST. cbn [cm_ints cm_gm].
  rewrite (bindings_at_sorted _ _ _ b H). replace (with_ignored (IgnoreNodeTypes b) b) with b by (destruct b; reflexivity).
  unfold rafter, rall_start. cbn [map]. unfold rstart. cbn [r_grow r_bindings r_root r_str].
  rewrite alone_run by apply within_ToAST_sorted. unfold rToAST. rewrite run_ToAST_sorted.
  destruct (mToAST_sorted grow (sort_bindings b) str m root) as [[m' rules] e]. destruct e as [[]|e|p|]; reflexivity.
Qed.
Print Assumptions C117_alone.

(** ** Examples *)
(** Two calls for the same tree, and one whose text is too short, taking turns. *)
Definition rc_jobs : list rjob :=
  [mkRJob (fun n => n) SelfCSTtoASTBindings ccase_tree (s2b "ab\n");
   mkRJob (fun n => 2 * n) SelfCSTtoASTBindings ccase_tree (s2b "ab\n");
   mkRJob (fun n => n) SelfCSTtoASTBindings ccase_tree (s2b "a")].
Definition rc_sched : list nat := concat (repeat [0; 1; 2; 1; 0] 12).
Definition rc_end (p : rcall) : nat := match p with RRet (Ok _) => 1 | RRet (Panic _) => 2 | _ => 0 end.

(** Both grammars, at different places, and a panic; the memory has what all of
    them allocated. *)
Example C117_case :
  exists rules rules',
    let c := rafter rc_jobs (cm_gm ccase_m) rc_sched in
    map rc_end (rc_calls c) = [1; 1; 2] /\
    nth_error (rc_calls c) 0 = Some (RRet (Ok rules)) /\ nth_error (rc_calls c) 1 = Some (RRet (Ok rules')) /\
    map (slice_elems (gm_syms (rc_mem c))) (alternatives_of (rc_mem c) rules) =
      [[SNothing]; [STerminal [LF]]; [SNonTerminal (s2b "a"); SNonTerminal (s2b "b")]] /\
    map sl_arr (alternatives_of (rc_mem c) rules) = [1; 5; 8] /\
    map sl_arr (alternatives_of (rc_mem c) rules') = [2; 4; 6].
Proof. vm_compute. eexists _, _. repeat split. Qed.

(** The configuration a race would be: two appends with room to one array. *)
Example C117_would_race : forall (k k' : slice -> rcall) m,
  rrace (mkRConfig [RSym (fun n => n) (mkSlice 3 0 1 4) SNothing k; RSym (fun n => n) (mkSlice 3 0 2 4) SNothing k'] m).
Proof. intros k k' m. exists 0, 1. do 5 eexists. repeat split. discriminate. Qed.

(** Calls do write to arrays that have room. *)
Example C117_writes : exists sched i p kd a,
  nth_error (rc_calls (rafter rc_jobs (cm_gm ccase_m) sched)) i = Some p /\ raccess p = Some (kd, a, true).
Proof. exists (repeat 1 6), 1. vm_compute. do 3 eexists. split; reflexivity. Qed.
