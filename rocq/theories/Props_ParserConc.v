(** * Props_ParserConc: C115, calls of Parse running at the same time, access by access. *)
From Verif Require Import Base Cst Parser SliceMem ParserMem ParserConc
  Spec_Mem Spec_ParserConc ParserMemProofs ParserConcProofs ParserConcRel ParserConcInv Props_Mem.

(** ** From one place to the other *)
Lemma elems_holds {T} (h : heap T) s : valid_slice h s -> holds h s (slice_elems h s).
Proof.
  intros V. split; [exact V|]. destruct V as (L & [Z|(arr & E & B)]); unfold slice_elems.
  - assert (Z' : sl_len s = 0) by lia. rewrite Z'. split; [destruct (nth_error h (sl_arr s)); reflexivity|].
    intros i x Ei. destruct (nth_error h (sl_arr s)); destruct i; discriminate.
  - rewrite E. assert (Len : length (firstn (sl_len s) (skipn (sl_off s) arr)) = sl_len s) by (rewrite firstn_length, skipn_length; lia).
    split; [symmetry; exact Len|]. intros i x Ei. assert (Li : i < sl_len s) by (rewrite <- Len; apply nth_error_Some; congruence).
    unfold slice_get. apply Nat.ltb_lt in Li as Li'. rewrite Li', E. rewrite <- Ei. symmetry. apply nth_slice, Li.
Qed.

Lemma valid_moved {T} base (P : T -> T -> Prop) r (h H : heap T) s s' :
  hrel base P r h H -> srel r s s' -> valid_slice h s -> valid_slice H s'.
Proof.
  intros (_ & _ & C) (E1 & E2 & E3 & E4) (L & V). split; [lia|].
  destruct (Nat.eq_dec (sl_cap s') 0) as [Z|Z]; [left; exact Z|right].
  destruct E4 as [[E4 _]|J]; [lia|]. destruct (C _ _ J) as (_ & _ & arr & arr' & A & B & F).
  exists arr'. split; [exact B|]. destruct V as [W|(arr1 & W1 & W2)]; [lia|].
  rewrite A in W1. injection W1 as <-. rewrite <- (Forall2_len _ _ _ F). lia.
Qed.

Lemma onrel_left w ms xs : Forall2 (onrel w) (map Some ms) xs -> exists ms', xs = map Some ms' /\ Forall2 (nrel w) ms ms'.
Proof.
  revert xs. induction ms as [|m ms IH]; intros xs F; inversion F as [|? y ? ys Hy F' ]; subst; [exists []; split; [reflexivity|constructor]|].
  destruct y as [y|]; [|contradiction]. destruct (IH _ F') as (ms' & -> & G). exists (y :: ms'). split; [reflexivity|constructor; assumption].
Qed.
Lemma onrel_right w xs ms : Forall2 (onrel w) xs (map Some ms) -> exists ms0, xs = map Some ms0 /\ Forall2 (nrel w) ms0 ms.
Proof.
  revert xs. induction ms as [|m ms IH]; intros xs F; inversion F as [|y ? ys ? Hy F' ]; subst; [exists []; split; [reflexivity|constructor]|].
  destruct y as [y|]; [|contradiction]. destruct (IH _ F') as (ms' & -> & G). exists (y :: ms'). split; [reflexivity|constructor; assumption].
Qed.

(** The tree of a call alone, among others. *)
Lemma tree_moved base w h H : hrel base (onrel w) (w_n w) h H ->
  forall mn n A, tree_in h mn n A -> forall mn', nrel w mn mn' ->
  exists A', tree_in H mn' n A' /\ Forall2 (fun a b => In (a, b) (w_n w)) A A'.
Proof.
  intros R. apply (tree_in_mut h
    (fun mn n A _ => forall mn', nrel w mn mn' ->
       exists A', tree_in H mn' n A' /\ Forall2 (fun a b => In (a, b) (w_n w)) A A')
    (fun ms ns A _ => forall ms', Forall2 (nrel w) ms ms' ->
       exists A', forest_in H ms' ns A' /\ Forall2 (fun a b => In (a, b) (w_n w)) A A')).
  - intros t p q s L [t' p' q' s'] (-> & -> & -> & S). exists []. split; [|constructor].
    constructor. rewrite <- (srel_len _ _ _ S). exact L.
  - intros t p q s ms ns A Ne Hh Hf IH [t' p' q' s'] (-> & -> & -> & S).
    pose proof (hrel_elems _ _ _ _ _ _ _ R S) as F. rewrite (holds_elems _ _ _ Hh) in F.
    destruct (onrel_left _ _ _ F) as (ms' & E & G). destruct (IH ms' G) as (A' & Hf' & FA).
    exists (sl_arr s' :: A'). split.
    + apply ti_node with (ms := ms'); [|rewrite <- E; apply elems_holds; eapply valid_moved; [exact R|exact S|apply Hh]|exact Hf'].
      intros ->. inversion G; subst. apply Ne. reflexivity.
    + constructor; [|exact FA]. destruct S as (_ & _ & _ & [[_ Z]|J]); [|exact J]. destruct Hh as (_ & L & _).
      rewrite map_length in L. destruct ms; [congruence|cbn in L; lia].
  - intros ms' F. inversion F; subst. exists []. split; constructor.
  - intros m n A ms ns B Ht IH1 Hf IH2 ms' F. inversion F as [|? m' ? ms1 Hm F']; subst.
    destruct (IH1 _ Hm) as (A1 & T1 & F1). destruct (IH2 _ F') as (A2 & T2 & F2).
    exists (A1 ++ A2). split; [constructor; assumption|]. apply Forall2_app; assumption.
Qed.

(** The arrays of a tree of a call are among those it made. *)
Lemma tree_ran base w h H : hrel base (onrel w) (w_n w) h H ->
  forall mn n A, tree_in H mn n A -> forall mn0, nrel w mn0 mn -> forall a, In a A -> In a (ran (w_n w)).
Proof.
  intros R. apply (tree_in_mut H
    (fun mn n A _ => forall mn0, nrel w mn0 mn -> forall a, In a A -> In a (ran (w_n w)))
    (fun ms ns A _ => forall ms0, Forall2 (nrel w) ms0 ms -> forall a, In a A -> In a (ran (w_n w)))).
  - intros t p q s L mn0 _ a [].
  - intros t p q s ms ns A Ne Hh Hf IH [t0 p0 q0 s0] (-> & -> & -> & S) a J.
    pose proof (hrel_elems _ _ _ _ _ _ _ R S) as F. rewrite (holds_elems _ _ _ Hh) in F.
    destruct (onrel_right _ _ _ F) as (ms0 & _ & G). destruct J as [<-|J]; [|exact (IH ms0 G a J)].
    destruct S as (_ & El & _ & [[_ Z]|J]); [|change (sl_arr s) with (snd (sl_arr s0, sl_arr s)); apply in_map, J].
    destruct Hh as (_ & L & _). rewrite map_length in L. destruct ms; [congruence|cbn in L; lia].
  - intros ms0 _ a [].
  - intros m n A ms ns B Ht IH1 Hf IH2 ms0 F a J. inversion F as [|m0' ? ms1 ? Hm F']; subst.
    apply in_app_or in J. destruct J as [J|J]; [exact (IH1 _ Hm a J)|exact (IH2 _ F' a J)].
Qed.

Lemma moved_nodup (r : adr) A A' : NoDup (ran r) -> NoDup A ->
  Forall2 (fun a b => In (a, b) r) A A' -> NoDup A'.
Proof.
  intros N NA F. induction F as [|a b A A' J F IH]; [constructor|]. inversion NA as [|? ? X Y]; subst.
  constructor; [|apply IH, Y]. intros K. apply X. clear IH NA X Y. induction F as [|c d A A' Jc F IH]; [contradiction|].
  destruct K as [->|K]; [left; exact (NoDup_snd_inj r _ _ _ N Jc J)|right; apply IH, K].
Qed.

Lemma result_moved base w h H r0 r p : hrel base (onrel w) (w_n w) h H ->
  gorel (retrel w) r0 r -> same_result base h r0 p -> same_result base H r p.
Proof.
  intros R G S. destruct r0 as [x|x|x|], r as [y|y|y|], p as [z|z|z|]; try contradiction; cbn in *; try congruence; auto.
  destruct G as (G1 & G2 & G3). destruct S as (S1 & S2 & S3). split; [congruence|]. split; [congruence|].
  destruct (mr_tree x) as [mn|], (mr_tree y) as [mn'|], (r_tree z) as [n|]; try contradiction; auto.
  destruct S3 as (A & Ht & N & B). destruct (tree_moved base w h H R mn n A Ht mn' G1) as (A' & Ht' & F).
  exists A'. split; [exact Ht'|]. split; [exact (moved_nodup (w_n w) A A' (proj1 (proj2 R)) N F)|].
  apply Forall_forall. intros b J. apply (hrel_lt _ _ _ _ _ R). clear -F J.
  induction F as [|a c A A' Jc F IH]; [contradiction|]. destruct J as [->|J]; [|apply IH, J].
  change b with (snd (a, b)). apply in_map, Jc.
Qed.

(** The source a call leaves behind is the one it was given, or a reader. *)
Lemma source_after grow fuel mt t names m ms s M :
  source_in m ms s -> table_in m mt t -> source_in M ms s ->
  source_in M (mo_source (mParse grow fuel mt names m ms)) (po_source (Parse fuel (NewLL1Parser t names) s)).
Proof.
  intros Hs Ht Hs'. destruct (mParse_sim grow fuel mt t names m ms s Ht Hs) as (_ & _ & H & _).
  assert (X : mo_source (mParse grow fuel mt names m ms) = ms \/ exists r, mo_source (mParse grow fuel mt names m ms) = MSrcReader r).
  { unfold mParse. destruct mt; [left; reflexivity|]. destruct (mtable_get 0 _); [|left; reflexivity].
    destruct ms as [| |x|[x|]|rd|]; cbn; try (destruct (mrun _ _ _ _ _ _) as [[? ?] ?]); try (left; reflexivity).
    right. destruct (rd_end rd); cbn; try (destruct (mrun _ _ _ _ _ _) as [[? ?] ?]); eexists; reflexivity. }
  assert (Y : po_source (Parse fuel (NewLL1Parser t names) s) = s \/ exists r, po_source (Parse fuel (NewLL1Parser t names) s) = SrcReader r).
  { unfold Parse. change (p_table (NewLL1Parser t names)) with t. destruct t as [|r1 t]; [left; reflexivity|]. destruct (table_get 0 (r1 :: t)); [|left; reflexivity].
    destruct s as [| |x|[x|]|rd|]; cbn; try (destruct (run _ _ _ _ _) as [? ?]); try (left; reflexivity).
    right. destruct (rd_end rd); cbn; try (destruct (run _ _ _ _ _) as [? ?]); eexists; reflexivity. }
  destruct X as [X|(r & X)]; rewrite X in *.
  - destruct Y as [Y|(r & Y)]; rewrite Y in *; [exact Hs'|]. destruct ms as [| | |[|]| |]; try contradiction. exact H.
  - destruct (po_source (Parse fuel (NewLL1Parser t names) s)); try contradiction. exact H.
Qed.

(** Call [i] after any schedule. *)
Lemma among jobs m0 sched i j : jobs_in m0 jobs -> nth_error jobs i = Some j ->
  exists w p, nth_error (qc_calls (qafter jobs m0 sched)) i = Some p /\
    qrel (length (m_ops m0)) (length (m_bytes m0)) outrel w (fst (qsolo (qturns i sched) (qstart j, m0))) p /\
    msim m0 w (snd (qsolo (qturns i sched) (qstart j, m0))) (qc_mem (qafter jobs m0 sched)).
Proof.
  intros Jo E. destruct (qinv_all m0 jobs Jo sched) as (ws & I). destruct (qi_calls _ _ _ _ _ I i j E) as (w & p & _ & H).
  exists w, p. exact H.
Qed.

Lemma some_job jobs m0 sched i p : jobs_in m0 jobs ->
  nth_error (qc_calls (qafter jobs m0 sched)) i = Some p -> exists j, nth_error jobs i = Some j.
Proof.
  intros Jo Ep. destruct (qinv_all m0 jobs Jo sched) as (ws & I).
  destruct (nth_error jobs i) as [j|] eqn:Ej; [eauto|]. apply nth_error_None in Ej.
  rewrite <- (qi_len _ _ _ _ _ I) in Ej. apply nth_error_None in Ej. congruence.
Qed.

(** ** C115 *)

(** Any number of calls, on parsers whose tables and sources stand in memory and
    may share arrays in any way, even the same parser and the same source, under
    any schedule of single accesses: a call that has returned has returned what
    the model with values says, whatever the others did, do and will do. Its
    tree stands in the memory all of them work in, made of arrays that are new,
    no two nodes sharing one. *)
Theorem C115_results :
  forall jobs m0 sched i j t s o,
    jobs_in m0 jobs -> nth_error jobs i = Some j ->
    table_in m0 (q_table j) t -> source_in m0 (q_source j) s ->
    nth_error (qc_calls (qafter jobs m0 sched)) i = Some (QRet o) ->
    let m := qc_mem (qafter jobs m0 sched) in
    let p := Parse (q_fuel j) (NewLL1Parser t (q_names j)) s in
    same_result (length (m_nodes m0)) (m_nodes m) (qo_result o) (po_result p) /\
    qo_names o = po_names p /\ source_in m (qo_source o) (po_source p).
Proof.
  intros jobs m0 sched i j t s o Jo Ej Ht Hs Eo m p. destruct (among jobs m0 sched i j Jo Ej) as (w & c & Ec & R & S).
  rewrite Eo in Ec. injection Ec as <-. destruct (qsolo (qturns i sched) (qstart j, m0)) as [q m1] eqn:Eq. cbn [fst snd] in R, S.
  inversion R as [? o0 ? Hr| | | | | | | |]; subst. apply (solo_outcome m0) in Eq.
  unfold qstart in Eq. pose proof (run_Parse (q_grow j) (q_fuel j) (q_table j) (q_names j) (q_source j) m0) as [E1 E2].
  rewrite <- Eq in E1, E2. cbn [fst snd] in E1, E2. subst o0. destruct Hr as (H1 & H2 & H3). cbn in H1, H2, H3.
  destruct (C63_result (q_grow j) (q_fuel j) (q_table j) t (q_names j) m0 (q_source j) s Ht Hs) as (C1 & C2 & C3). fold p in C1, C2, C3.
  destruct (qinv_all m0 jobs Jo sched) as (ws & I). pose proof (qi_kept _ _ _ _ _ I) as K. fold m in K, S.
  split; [|split].
  - destruct (mo_result (mParse (q_grow j) (q_fuel j) (q_table j) (q_names j) m0 (q_source j))) as [x|x|x|] eqn:Ex.
    + rewrite <- E2 in C1 by congruence. eapply result_moved; [exact (si_nodes _ _ _ _ S)|exact H1|exact C1].
    + destruct x.
    + destruct (qo_result o), (po_result p); try contradiction; cbn in *; congruence.
    + destruct (qo_result o), (po_result p); try contradiction; exact Logic.I.
  - congruence.
  - rewrite <- H3. unfold p. apply source_after; [exact Hs|exact Ht|]. eapply source_in_untouched; eassumption.
Qed.
Print Assumptions C115_results.

(** Nobody waits for anybody: every call has a number of turns after which it
    has returned, whatever the others are and do (unless it does not return
    alone either). *)
Theorem C115_progress :
  forall m0 j, exists n, forall jobs i sched,
    jobs_in m0 jobs -> nth_error jobs i = Some j -> n <= qturns i sched ->
    exists o, nth_error (qc_calls (qafter jobs m0 sched)) i = Some (QRet o) /\
      (forall t s, table_in m0 (q_table j) t -> source_in m0 (q_source j) s ->
         po_result (Parse (q_fuel j) (NewLL1Parser t (q_names j)) s) <> NoFuel -> qo_result o <> NoFuel).
Proof.
  intros m0 j. destruct (solo_end (qstart j) m0) as (n & E). exists n. intros jobs i sched Jo Ej L.
  destruct (among jobs m0 sched i j Jo Ej) as (w & p & Ep & R & S).
  replace (qturns i sched) with ((qturns i sched - n) + n) in R, S by lia. rewrite solo_add, E, solo_ret in R, S. cbn [fst snd] in R, S.
  inversion R as [? a o Hr| | | | | | | |]; subst. exists o. split; [exact Ep|]. intros t s Ht Hs N Z.
  destruct (C115_results _ _ _ _ _ _ _ _ Jo Ej Ht Hs Ep) as (C & _). rewrite Z in C.
  destruct (po_result (Parse (q_fuel j) (NewLL1Parser t (q_names j)) s)); try contradiction.
Qed.
Print Assumptions C115_progress.

(** What a call has returned stays returned, whatever the others do then. *)
Theorem C115_final :
  forall jobs m0 sched more i o,
    nth_error (qc_calls (qafter jobs m0 sched)) i = Some (QRet o) ->
    nth_error (qc_calls (qafter jobs m0 (sched ++ more))) i = Some (QRet o).
Proof.
  intros jobs m0 sched more i o H. unfold qafter in *. rewrite fold_left_app. revert H.
  generalize (fold_left qturn sched (qall_start jobs m0)) as c. induction more as [|k more IH]; intros c H; [exact H|].
  cbn [fold_left]. apply IH. unfold qturn. destruct (nth_error (qc_calls c) k) as [p|] eqn:Ep; [|exact H].
  destruct (qstep p (qc_mem c)) as [p' m'] eqn:Es. cbn. rewrite list_set_nth. destruct (Nat.eqb_spec k i) as [->|_]; [|exact H].
  rewrite H in Ep. injection Ep as <-. cbn in Es. injection Es as <- <-.
  destruct (Nat.ltb_spec i (length (qc_calls c))) as [_|L]; [reflexivity|]. apply nth_error_None in L. congruence.
Qed.
Print Assumptions C115_final.

(** At no time has any call changed an array that existed before the calls:
    tables still denote the same tables, sources are the same, and trees of
    earlier calls the same trees. *)
Theorem C115_nothing_overwritten :
  forall jobs m0 sched, jobs_in m0 jobs ->
    let m := qc_mem (qafter jobs m0 sched) in
    untouched m0 m /\
    (forall mt t, table_in m0 mt t -> table_in m mt t) /\
    (forall ms s, source_in m0 ms s -> source_in m ms s) /\
    (forall mn n A, tree_in (m_nodes m0) mn n A -> tree_in (m_nodes m) mn n A).
Proof.
  intros jobs m0 sched Jo m. destruct (qinv_all m0 jobs Jo sched) as (ws & I). pose proof (qi_kept _ _ _ _ _ I) as K. fold m in K.
  split; [exact K|]. split; [|split].
  - intros mt t. apply table_in_untouched, K.
  - intros ms s. apply source_in_untouched, K.
  - intros mn n A. apply tree_in_untouched, K.
Qed.
Print Assumptions C115_nothing_overwritten.

Lemma srel_in r s s' : srel r s s' -> sl_len s' <> 0 \/ sl_cap s' <> 0 -> In (sl_arr s') (ran r).
Proof.
  intros (_ & E2 & E3 & [[Z1 Z2]|I]) N; [destruct N; congruence|].
  change (sl_arr s') with (snd (sl_arr s, sl_arr s')). apply in_map, I.
Qed.
Definition acc_ran (w : world) (bo bb : nat) (x : option (qkind * nat * bool)) : Prop :=
  match x with
  | None => True
  | Some (QKOps, a, wr) => In a (ran (w_o w)) \/ (a < bo /\ wr = false)
  | Some (QKNodes, a, _) => In a (ran (w_n w))
  | Some (QKBytes, a, wr) => wr = false
  end.
Lemma access_ran {A} bo bb (R : world -> A -> A -> Prop) w q p : qrel bo bb R w q p -> acc_ran w bo bb (qaccess p).
Proof.
  intros H. destruct H as [w a b Hr|w s s' i k k' Hs K|w s s' i k k' Hs K|w s s' i k k' Hs K
      |w g s s' o k k' Hs K|w g s s' n n' k k' Hs N K|w s s' i n n' k k' Hs N K|w arr arr' k k' F K|w arr k k' K];
    cbn [qaccess]; unfold qread_access, qappend_access; try exact I.
  - destruct (Nat.ltb_spec i (sl_len s')) as [L|L]; [|exact I]. cbn. destruct Hs as [Hs|[<- B]].
    + left. eapply srel_in; [exact Hs|lia].
    + right. destruct B as [B|B]; [lia|auto].
  - destruct (Nat.ltb i (sl_len s')); [reflexivity|exact I].
  - destruct (Nat.ltb_spec i (sl_len s')) as [L|L]; [|exact I]. cbn. eapply srel_in; [exact Hs|lia].
  - destruct (Nat.ltb_spec (sl_len s') (sl_cap s')); [left; eapply srel_in; [exact Hs|lia]|].
    destruct (Nat.ltb_spec 0 (sl_len s')); [left; eapply srel_in; [exact Hs|lia]|exact I].
  - destruct (Nat.ltb_spec (sl_len s') (sl_cap s')); [eapply srel_in; [exact Hs|lia]|].
    destruct (Nat.ltb_spec 0 (sl_len s')); [eapply srel_in; [exact Hs|lia]|exact I].
  - destruct (Nat.ltb_spec i (sl_len s')) as [L|L]; [|exact I]. cbn. eapply srel_in; [exact Hs|lia].
Qed.

(** ... and none is ever about to: what a call writes, it has made, and no call
    writes bytes at all. *)
Theorem C115_writes_own :
  forall jobs m0 sched i p kd a, jobs_in m0 jobs ->
    nth_error (qc_calls (qafter jobs m0 sched)) i = Some p -> qaccess p = Some (kd, a, true) ->
    (kd = QKOps /\ length (m_ops m0) <= a) \/ (kd = QKNodes /\ length (m_nodes m0) <= a).
Proof.
  intros jobs m0 sched i p kd a Jo Ep Ea. destruct (some_job _ _ _ _ _ Jo Ep) as (j & Ej).
  destruct (among jobs m0 sched i j Jo Ej) as (w & p' & Ep' & R & S). rewrite Ep in Ep'. injection Ep' as <-.
  pose proof (access_ran _ _ _ _ _ _ R) as X. rewrite Ea in X. destruct kd; cbn in X.
  - left. split; [reflexivity|]. destruct X as [X|[_ X]]; [|discriminate]. apply (hrel_lt _ _ _ _ _ (si_ops _ _ _ _ S) a X).
  - right. split; [reflexivity|]. apply (hrel_lt _ _ _ _ _ (si_nodes _ _ _ _ S) a X).
  - discriminate.
Qed.
Print Assumptions C115_writes_own.

(** No schedule leads to a data race. *)
Theorem C115_no_race : forall jobs m0 sched, jobs_in m0 jobs -> ~ qrace (qafter jobs m0 sched).
Proof.
  intros jobs m0 sched Jo (i & k & p & q & kd & a & b & N & Ep & Eq & Ap & Aq). destruct (qinv_all m0 jobs Jo sched) as (ws & I).
  destruct (some_job _ _ _ _ _ Jo Ep) as (ji & Ei). destruct (some_job _ _ _ _ _ Jo Eq) as (jk & Ek).
  destruct (qi_calls _ _ _ _ _ I i ji Ei) as (w & p' & Ew & Ep' & R & S). rewrite Ep in Ep'. injection Ep' as <-.
  destruct (qi_calls _ _ _ _ _ I k jk Ek) as (v & q' & Ev & Eq' & R' & _). rewrite Eq in Eq'. injection Eq' as <-.
  destruct (qi_apart _ _ _ _ _ I i k w v N Ew Ev) as (A1 & A2 & _).
  pose proof (access_ran _ _ _ _ _ _ R) as X. pose proof (access_ran _ _ _ _ _ _ R') as Y. rewrite Ap in X. rewrite Aq in Y.
  destruct kd; cbn in X, Y.
  - destruct X as [X|[_ X]]; [|discriminate]. destruct Y as [Y|[Y _]]; [exact (A1 a X Y)|].
    pose proof (hrel_lt _ _ _ _ _ (si_ops _ _ _ _ S) a X). lia.
  - exact (A2 a X Y).
  - discriminate.
Qed.
Print Assumptions C115_no_race.

(** The trees of two calls have no array in common. *)
Theorem C115_trees_apart :
  forall jobs m0 sched i k o o' r r' mn mn' n n' A A',
    jobs_in m0 jobs -> i <> k ->
    nth_error (qc_calls (qafter jobs m0 sched)) i = Some (QRet o) ->
    nth_error (qc_calls (qafter jobs m0 sched)) k = Some (QRet o') ->
    qo_result o = Ok r -> mr_tree r = Some mn -> qo_result o' = Ok r' -> mr_tree r' = Some mn' ->
    let h := m_nodes (qc_mem (qafter jobs m0 sched)) in
    tree_in h mn n A -> tree_in h mn' n' A' ->
    forall a, In a A -> ~ In a A'.
Proof.
  intros jobs m0 sched i k o o' r r' mn mn' n n' A A' Jo N Ep Eq Er Et Er' Et' h Ht Ht' a Ia Ia'.
  destruct (qinv_all m0 jobs Jo sched) as (ws & I).
  destruct (some_job _ _ _ _ _ Jo Ep) as (ji & Ei). destruct (some_job _ _ _ _ _ Jo Eq) as (jk & Ek).
  destruct (qi_calls _ _ _ _ _ I i ji Ei) as (w & p' & Ew & Ep' & R & S). rewrite Ep in Ep'. injection Ep' as <-.
  destruct (qi_calls _ _ _ _ _ I k jk Ek) as (v & q' & Ev & Eq' & R' & S'). rewrite Eq in Eq'. injection Eq' as <-.
  destruct (qi_apart _ _ _ _ _ I i k w v N Ew Ev) as (_ & A2 & _). apply (A2 a).
  - inversion R as [? o0 ? (Hr & _)| | | | | | | |]; subst. rewrite Er in Hr. destruct (qo_result o0) as [x|x|x|]; try contradiction.
    destruct Hr as (Hr & _). rewrite Et in Hr. destruct (mr_tree x) as [mn0|]; [|contradiction].
    exact (tree_ran _ _ _ _ (si_nodes _ _ _ _ S) _ _ _ Ht mn0 Hr a Ia).
  - inversion R' as [? o0 ? (Hr & _)| | | | | | | |]; subst. rewrite Er' in Hr. destruct (qo_result o0) as [x|x|x|]; try contradiction.
    destruct Hr as (Hr & _). rewrite Et' in Hr. destruct (mr_tree x) as [mn0|]; [|contradiction].
    exact (tree_ran _ _ _ _ (si_nodes _ _ _ _ S') _ _ _ Ht' mn0 Hr a Ia').
Qed.
Print Assumptions C115_trees_apart.

(** A call that runs alone is the function of ParserMem.v (C63); what it leaves
    in memory is only said when it does not panic. *)
Theorem C115_alone :
  forall j m0, exists n m,
    let o := mParse (q_grow j) (q_fuel j) (q_table j) (q_names j) m0 (q_source j) in
    qafter [j] m0 (repeat 0 n) = mkQConfig [QRet (mkQOut (mo_result o) (mo_names o) (mo_source o))] m /\
    ((forall p, mo_result o <> Panic p) -> m = mo_mem o).
Proof.
  intros j m0. destruct (solo_end (qstart j) m0) as (n & E). exists n, (snd (qrun (qstart j) m0)). cbv zeta.
  assert (X : forall k, qafter [j] m0 (repeat 0 k) = mkQConfig [fst (qsolo k (qstart j, m0))] (snd (qsolo k (qstart j, m0)))).
  { induction k as [|k IH]; [reflexivity|]. replace (S k) with (k + 1) by lia. rewrite repeat_app. unfold qafter in *.
    rewrite fold_left_app, IH. cbn [repeat fold_left]. unfold qturn. cbn [qc_calls nth_error qc_mem].
    rewrite Nat.add_1_r. cbn [qsolo]. unfold qsolo1. destruct (qsolo k (qstart j, m0)) as [q m]. cbn [fst snd].
    destruct (qstep q m). reflexivity. }
  rewrite X, E. cbn [fst snd]. pose proof (run_Parse (q_grow j) (q_fuel j) (q_table j) (q_names j) (q_source j) m0) as [E1 E2].
  unfold qstart. rewrite E1. split; [reflexivity|exact E2].
Qed.
Print Assumptions C115_alone.

(** ** A concrete case: three calls on the table and the source of Props_Mem.v,
    one of them with an empty source, taking turns. *)
Definition pconc_jobs : list qjob :=
  [mkQJob (fun n => 2 * n) 40 case_mt (Some []) case_ms;
   mkQJob (fun n => n) 40 case_mt (Some []) case_ms;
   mkQJob (fun n => n) 40 case_mt (Some []) (MSrcString [])].
Definition pconc_sched : list nat := flat_map (fun _ => [0; 1; 2]) (seq 0 60).
Definition pconc_end (p : qcall) : nat :=
  match p with
  | QRet o => match qo_result o with
              | Ok r => match mr_tree r with Some _ => 1 | None => 2 end
              | _ => 3
              end
  | _ => 0
  end.

Lemma pconc_in : jobs_in case_m pconc_jobs.
Proof.
  repeat constructor.
  - exists case_t, (SrcBytes (s2b "ab")). split; [exact case_table_ok|exact case_source_ok].
  - exists case_t, (SrcBytes (s2b "ab")). split; [exact case_table_ok|exact case_source_ok].
  - exists case_t, (SrcString []). split; [exact case_table_ok|reflexivity].
Qed.

Lemma roots_apart h mn mn' t p q A A' : forall n ns,
  tree_in h mn (Node t p q (n :: ns)) A -> tree_in h mn' (Node t p q (n :: ns)) A' ->
  (forall a, In a A -> ~ In a A') -> sl_arr (mn_childs mn) <> sl_arr (mn_childs mn').
Proof.
  intros n ns H H' D. inversion H; subst; inversion H'; subst. cbn. intros Z.
  eapply D; [left; reflexivity|left; symmetry; exact Z].
Qed.

Lemma pconc_0 : exists o, nth_error (qc_calls (qafter pconc_jobs case_m pconc_sched)) 0 = Some (QRet o).
Proof.
  destruct (nth_error (qc_calls (qafter pconc_jobs case_m pconc_sched)) 0) as [[o| | | | | | | |]|] eqn:E0;
    [eexists; reflexivity|exfalso; revert E0; vm_compute; discriminate..].
Qed.
Lemma pconc_1 : exists o, nth_error (qc_calls (qafter pconc_jobs case_m pconc_sched)) 1 = Some (QRet o).
Proof.
  destruct (nth_error (qc_calls (qafter pconc_jobs case_m pconc_sched)) 1) as [[o| | | | | | | |]|] eqn:E0;
    [eexists; reflexivity|exfalso; revert E0; vm_compute; discriminate..].
Qed.

(** Two trees and an error; the two trees of the same source stand at different
    places. *)
Example C115_case :
  map pconc_end (qc_calls (qafter pconc_jobs case_m pconc_sched)) = [1; 1; 2] /\
  exists o o' r r' mn mn',
    nth_error (qc_calls (qafter pconc_jobs case_m pconc_sched)) 0 = Some (QRet o) /\
    nth_error (qc_calls (qafter pconc_jobs case_m pconc_sched)) 1 = Some (QRet o') /\
    qo_result o = Ok r /\ qo_result o' = Ok r' /\ mr_tree r = Some mn /\ mr_tree r' = Some mn' /\
    sl_arr (mn_childs mn) <> sl_arr (mn_childs mn') /\
    fresh_tree 0 (m_nodes (qc_mem (qafter pconc_jobs case_m pconc_sched))) mn
      (Node 0 0 2 [Node (-1) 0 1 []; Node 1 1 2 [Node (-1) 1 2 []]]).
Proof.
  split; [vm_compute; reflexivity|].
  destruct pconc_0 as (o & E0). destruct pconc_1 as (o' & E1).
  pose proof (C115_results pconc_jobs case_m pconc_sched 0 _ case_t (SrcBytes (s2b "ab")) o pconc_in eq_refl case_table_ok case_source_ok E0) as (C & _).
  cbn [q_fuel q_names] in C. rewrite case_parsed in C. destruct (qo_result o) as [r|x|x|] eqn:Er; try contradiction.
  destruct C as (_ & _ & C). cbn [r_tree] in C. destruct (mr_tree r) as [mn|] eqn:Et; [|contradiction].
  pose proof (C115_results pconc_jobs case_m pconc_sched 1 _ case_t (SrcBytes (s2b "ab")) o' pconc_in eq_refl case_table_ok case_source_ok E1) as (C' & _).
  cbn [q_fuel q_names] in C'. rewrite case_parsed in C'. destruct (qo_result o') as [r'|x|x|] eqn:Er'; try contradiction.
  destruct C' as (_ & _ & C'). cbn [r_tree] in C'. destruct (mr_tree r') as [mn'|] eqn:Et'; [|contradiction].
  exists o, o', r, r', mn, mn'. do 6 (split; [assumption|]). split; [|exact C].
  destruct C as (A & Ht & _). destruct C' as (A' & Ht' & _).
  pose proof (C115_trees_apart pconc_jobs case_m pconc_sched 0 1 o o' r r' mn mn' _ _ A A' pconc_in ltac:(discriminate)
    E0 E1 Er Et Er' Et' Ht Ht') as D.
  exact (roots_apart _ _ _ _ _ _ _ _ _ _ Ht Ht' D).
Qed.

(** Calls read the same arrays at the same time; if they appended to the same
    stack with room it would be a race. *)
Example C115_reads :
  map qaccess (qc_calls (qafter pconc_jobs case_m [0; 1; 0; 1; 0; 1])) =
    [Some (QKBytes, 0, false); Some (QKBytes, 0, false); None].
Proof. vm_compute. reflexivity. Qed.
Example C115_would_race : forall (k : slice -> qcall) m,
  qrace (mkQConfig [QAppOp (fun n => n) (mkSlice 3 0 1 4) OpNil k; QAppOp (fun n => n) (mkSlice 3 0 2 4) OpNil k] m).
Proof. intros k m. exists 0, 1. do 5 eexists. repeat split. discriminate. Qed.
