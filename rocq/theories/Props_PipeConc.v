(** * Props_PipeConc: C116, building parsers and parsing at the same time. *)
From Verif Require Import Base ByteSet Ast Cst Parser SliceMem ParserMem TableGen TableGenMem TableGenConc ParserConc
  PipeConc Spec_Mem Spec_GenMem Spec_GenConc Spec_ParserConc Spec_PipeConc ParserMemProofs TGMem.
From Verif Require GenConcProofs GenConcRel GenConcInv Props_GenConc.
From Verif Require Import ParserConcProofs ParserConcRel ParserConcInv PipeConcInv
  Props_TableGen Props_GenMem Props_Mem Props_ParserConc.

(** ** From one place to the other *)
Lemma rel_done m0 w c c' : xrel m0 w c c' -> xdone c' <> None -> xdone c <> None.
Proof.
  intros H D. destruct H as [w p p' nx N H|w p p' H]; cbn [xdone] in *.
  - inversion H; subst; try congruence; destruct nx; congruence.
  - inversion H; subst; congruence.
Qed.

Lemma same_result_mono base base' h r p : base' <= base -> same_result base h r p -> same_result base' h r p.
Proof.
  intros L. destruct r as [x|x|x|], p as [y|y|y|]; cbn; auto. intros (A & B & C). split; [exact A|]. split; [exact B|].
  destruct (mr_tree x), (r_tree y); auto. destruct C as (l & T & N & F). exists l. split; [exact T|]. split; [exact N|].
  eapply Forall_impl; [|exact F]. cbn. intros a [X Y]. lia.
Qed.

(** A call of Parse that started in [m1] and is to be seen in [M]. *)
Lemma tree_moved_like m0 m1 M w x grow fuel mt t names ms s o0 o :
  all_kept m0 M -> length (m_nodes (gm_mem m0)) <= length (m_nodes (gm_mem m1)) ->
  table_in (gm_mem m1) mt t -> source_in (gm_mem m1) ms s -> source_in (gm_mem m0) ms s ->
  qrun (qParse grow fuel mt names ms) (gm_mem m1) = (o0, x) ->
  outrel w o0 o -> msim (gm_mem m0) w x (gm_mem M) ->
  tree_like m0 M o (Parse fuel (NewLL1Parser t names) s).
Proof.
  intros K L Ht Hs Hs0 E (H1 & H2 & H3) S. unfold tree_like. set (p := Parse fuel (NewLL1Parser t names) s).
  pose proof (run_Parse grow fuel mt names ms (gm_mem m1)) as [E1 E2]. rewrite E in E1, E2. cbn [fst snd] in E1, E2. subst o0.
  cbn in H1, H2, H3.
  destruct (C63_result grow fuel mt t names (gm_mem m1) ms s Ht Hs) as (C1 & C2 & C3). fold p in C1, C2, C3.
  split; [|split].
  - destruct (mo_result (mParse grow fuel mt names (gm_mem m1) ms)) as [y|y|y|] eqn:Ex.
    + rewrite <- E2 in C1 by congruence. eapply result_moved; [exact (si_nodes _ _ _ _ S)|exact H1|].
      eapply same_result_mono; [exact L|exact C1].
    + destruct y.
    + destruct (qo_result o), (po_result p); try contradiction; cbn in *; congruence.
    + destruct (qo_result o), (po_result p); try contradiction; exact Logic.I.
  - congruence.
  - rewrite <- H3. unfold p. apply source_after; [exact Hs|exact Ht|]. eapply source_in_untouched; [apply K|exact Hs0].
Qed.

(** Goroutine [i] after any schedule. *)
Lemma xamong jobs m0 sched i j : xjobs_in m0 jobs -> nth_error jobs i = Some j ->
  exists w p, nth_error (xc_calls (xafter jobs m0 sched)) i = Some p /\
    xrel m0 w (fst (xsolo (xturns i sched) (xstart j, m0))) p /\
    xsim m0 w (snd (xsolo (xturns i sched) (xstart j, m0))) (xc_mem (xafter jobs m0 sched)).
Proof.
  intros Jo E. destruct (xinv_all m0 jobs Jo sched) as (ws & I). destruct (xi_calls _ _ _ _ _ I i j E) as (w & p & _ & H).
  exists w, p. exact H.
Qed.
Lemma xsome_job jobs m0 sched i p : xjobs_in m0 jobs ->
  nth_error (xc_calls (xafter jobs m0 sched)) i = Some p -> exists j, nth_error jobs i = Some j.
Proof.
  intros Jo Ep. destruct (xinv_all m0 jobs Jo sched) as (ws & I).
  destruct (nth_error jobs i) as [j|] eqn:Ej; [eauto|]. apply nth_error_None in Ej.
  rewrite <- (xi_len _ _ _ _ _ I) in Ej. apply nth_error_None in Ej. congruence.
Qed.
Lemma xkept jobs m0 sched : xjobs_in m0 jobs -> all_kept m0 (xc_mem (xafter jobs m0 sched)).
Proof. intros Jo. destruct (xinv_all m0 jobs Jo sched) as (ws & I). exact (xi_kept _ _ _ _ _ I). Qed.

(** ** C116 *)

(** Any number of goroutines that build parsers, parse with parsers they have,
    or build one and parse with it, on grammars, tables and sources in one memory
    that may share arrays in any way, under any schedule of single accesses: what
    a goroutine ends with is what it would have got with plain values and all by
    itself. *)
Theorem C116_results :
  forall jobs m0 sched i j c out,
    xjobs_in m0 jobs -> nth_error jobs i = Some j ->
    nth_error (xc_calls (xafter jobs m0 sched)) i = Some c -> xdone c = Some out ->
    as_alone m0 (xc_mem (xafter jobs m0 sched)) j out.
Proof.
  intros jobs m0 sched i j c out Jo Ej Ec Ed. destruct (xamong jobs m0 sched i j Jo Ej) as (w & c' & Ec' & R & [G Q]).
  rewrite Ec in Ec'. injection Ec' as <-. pose proof (xkept jobs m0 sched Jo) as K.
  set (M := xc_mem (xafter jobs m0 sched)) in *.
  destruct (xsolo (xturns i sched) (xstart j, m0)) as [c0 m1] eqn:E0. cbn [fst snd] in R, G, Q.
  assert (D : xdone c0 <> None) by (eapply rel_done; [exact R|congruence]).
  pose proof (xsolo_outcome m0 _ _ _ _ _ E0 D) as E. clear E0 D.
  destruct j as [j|j|j nx]; cbn [xstart xrun] in E; cbn [as_alone].
  - (* building *)
    unfold gstart in E. rewrite GenConcProofs.run_FromGrammar in E.
    destruct (mFromGrammar (g_grow j) (g_order j) (g_fuel j) (g_rules j) m0) as [r0 m] eqn:Em.
    assert (E' : c0 = XG (PRet r0) None /\ m1 = m) by (destruct r0 as [[mt nm]|e|p|]; injection E as -> ->; auto).
    destruct E' as [-> ->]. inversion R as [? ? p' ? _ H|]; subst.
    assert (exists r, p' = PRet r) as (r & ->) by (inversion H; subst; eexists; reflexivity).
    assert (out = XTable r) as -> by (cbn in Ed; destruct r; injection Ed as <-; reflexivity).
    exists r. split; [reflexivity|]. intros g Hg.
    pose proof (C71_result (g_grow j) (g_order j) (g_fuel j) m0 (g_rules j) g Hg) as C. rewrite Em in C.
    inversion H as [? a b Hr| | | | | | | | | |]; subst; destruct (FromGrammar_order (g_order j) (g_fuel j) g) as [[t nm']|e'|p''|];
      try (destruct a as [mt0 nm0]); try contradiction; auto.
    destruct b as [mt nm]. destruct Hr as [H1 H2]. cbn in H1, H2. destruct C as [C1 C2].
    split; [|congruence]. eapply Props_GenConc.table_moved; [exact (GenConcInv.si_ops _ _ _ _ G)|exact H1|exact C1].
  - (* parsing *)
    unfold xrunq in E. injection E as -> ->. inversion R as [|? ? p' H]; subst. inversion H as [? a o Hr| | | | | | | |]; subst.
    cbn in Ed. injection Ed as <-. exists o. split; [reflexivity|]. intros t s Ht Hs.
    eapply tree_moved_like; [exact K|apply le_n|exact Ht|exact Hs|exact Hs| |exact Hr|exact Q].
    exact (surjective_pairing (qrun (qstart j) (gm_mem m0))).
  - (* both *)
    intros g s Hg Hs. unfold gstart in E. rewrite GenConcProofs.run_FromGrammar in E.
    pose proof (C71_result (g_grow j) (g_order j) (g_fuel j) m0 (g_rules j) g Hg) as C.
    pose proof (C71_nothing_overwritten (g_grow j) (g_order j) (g_fuel j) m0 (g_rules j) g Hg) as N.
    destruct (mFromGrammar (g_grow j) (g_order j) (g_fuel j) (g_rules j) m0) as [r0 m] eqn:Em.
    destruct N as (N & _ & _).
    destruct r0 as [[mt nm]|e|p|], (FromGrammar_order (g_order j) (g_fuel j) g) as [[t nm']|e'|p'|]; try contradiction.
    + destruct C as [C <-]. unfold xrunq in E. injection E as -> ->. inversion R as [|? ? p' H]; subst.
      inversion H as [? a o Hr| | | | | | | |]; subst. cbn in Ed. injection Ed as <-. exists o. split; [reflexivity|].
      eapply tree_moved_like; [exact K|exact (nth_incl_len _ _ (proj1 (proj2 (proj1 N))))|exact C| |exact Hs| |exact Hr|exact Q].
      * eapply source_in_untouched; [apply N|exact Hs].
      * exact (surjective_pairing (qrun (qParse (xn_grow nx) (xn_fuel nx) mt (Some nm) (xn_source nx)) (gm_mem m))).
    + injection E as -> ->. subst e'. inversion R as [? ? q ? _ H|]; subst. inversion H; subst. cbn in Ed. congruence.
    + injection E as -> ->. subst p'. inversion R as [? ? q ? _ H|]; subst. inversion H; subst. cbn in Ed. congruence.
    + injection E as -> ->. inversion R as [? ? q ? _ H|]; subst. inversion H; subst. cbn in Ed. congruence.
Qed.
Print Assumptions C116_results.

(** Nobody waits for anybody: every goroutine has a number of turns after which
    it has ended, whatever the others are and do. *)
Theorem C116_progress :
  forall m0 j, exists n, forall jobs i sched,
    xjobs_in m0 jobs -> nth_error jobs i = Some j -> n <= xturns i sched ->
    exists c out, nth_error (xc_calls (xafter jobs m0 sched)) i = Some c /\ xdone c = Some out.
Proof.
  intros m0 j. destruct (xsolo_end (xstart j) m0) as (n & E & D). exists n. intros jobs i sched Jo Ej L.
  destruct (xamong jobs m0 sched i j Jo Ej) as (w & c & Ec & R & S).
  replace (xturns i sched) with ((xturns i sched - n) + n) in R by lia. rewrite xsolo_add, E in R.
  destruct (xrun (xstart j) m0) as [c0 m1]. cbn [fst] in D. rewrite xsolo_done in R by exact D. cbn [fst] in R.
  assert (X : xdone c <> None).
  { destruct R as [w p p' nx N H|w p p' H]; cbn [xdone] in *.
    - inversion H; subst; try congruence; destruct nx; congruence.
    - inversion H; subst; congruence. }
  destruct (xdone c) as [out|] eqn:Ed; [|congruence]. eauto.
Qed.
Print Assumptions C116_progress.

(** What a goroutine has ended with stays, whatever the others do then. *)
Theorem C116_final :
  forall jobs m0 sched more i c, xdone c <> None ->
    nth_error (xc_calls (xafter jobs m0 sched)) i = Some c ->
    nth_error (xc_calls (xafter jobs m0 (sched ++ more))) i = Some c.
Proof.
  intros jobs m0 sched more i c D H. unfold xafter in *. rewrite fold_left_app. revert H.
  generalize (fold_left xturn sched (xall_start jobs m0)) as cf. induction more as [|k more IH]; intros cf H; [exact H|].
  cbn [fold_left]. apply IH. unfold xturn. destruct (nth_error (xc_calls cf) k) as [p|] eqn:Ep; [|exact H].
  destruct (xstep p (xc_mem cf)) as [p' m'] eqn:Es. cbn. rewrite list_set_nth. destruct (Nat.eqb_spec k i) as [->|_]; [|exact H].
  rewrite H in Ep. injection Ep as <-. pose proof (xsolo_done c (xc_mem cf) 1 D) as X. cbn in X. unfold xsolo1 in X. cbn [fst snd] in X.
  rewrite Es in X. injection X as -> ->.
  destruct (Nat.ltb_spec i (length (xc_calls cf))) as [_|L]; [reflexivity|]. apply nth_error_None in L. congruence.
Qed.
Print Assumptions C116_final.

(** At no time has any of them changed an array that existed before: grammars,
    tables, sources and trees of earlier calls still denote the same. *)
Theorem C116_nothing_overwritten :
  forall jobs m0 sched, xjobs_in m0 jobs ->
    let m := xc_mem (xafter jobs m0 sched) in
    all_kept m0 m /\
    (forall mg g, grammar_in m0 mg g -> grammar_in m mg g) /\
    (forall mt t, table_in (gm_mem m0) mt t -> table_in (gm_mem m) mt t) /\
    (forall ms s, source_in (gm_mem m0) ms s -> source_in (gm_mem m) ms s) /\
    (forall mn n A, tree_in (m_nodes (gm_mem m0)) mn n A -> tree_in (m_nodes (gm_mem m)) mn n A).
Proof.
  intros jobs m0 sched Jo m. pose proof (xkept jobs m0 sched Jo) as K. fold m in K.
  split; [exact K|]. split; [|split; [|split]].
  - intros mg g. apply grammar_in_kept, K.
  - intros mt t. apply table_in_untouched, K.
  - intros ms s. apply source_in_untouched, K.
  - intros mn n A. apply tree_in_untouched, K.
Qed.
Print Assumptions C116_nothing_overwritten.

Definition xacc_ran (w : xworld) (bo : nat) (x : option (xkind * nat * bool)) : Prop :=
  match x with
  | None => True
  | Some (XK KSets, a, _) => In a (ran (x_s w))
  | Some (XK KOps, a, wr) => In a (ran (w_o (x_w w))) \/ (a < bo /\ wr = false)
  | Some (XNodes, a, _) => In a (ran (w_n (x_w w)))
  | Some (_, _, wr) => wr = false
  end.
Lemma xaccess_ran m0 w c c' : xrel m0 w c c' -> xacc_ran w (length (m_ops (gm_mem m0))) (xaccess c').
Proof.
  intros H. destruct H as [w p p' nx N H|w p p' H]; cbn [xaccess].
  - pose proof (Props_GenConc.access_ran _ _ _ _ H) as X. destruct (gaccess p') as [[[k a] b]|]; [|exact I].
    destruct k; cbn; auto.
  - pose proof (access_ran _ _ _ _ _ _ H) as X. destruct (qaccess p') as [[[k a] b]|]; [|exact I].
    destruct k; cbn in *; auto.
Qed.

(** ... and none is ever about to: what a goroutine writes, it has made. *)
Theorem C116_writes_own :
  forall jobs m0 sched i p kd a, xjobs_in m0 jobs ->
    nth_error (xc_calls (xafter jobs m0 sched)) i = Some p -> xaccess p = Some (kd, a, true) ->
    (kd = XK KSets /\ length (gm_sets m0) <= a) \/
    (kd = XK KOps /\ length (m_ops (gm_mem m0)) <= a) \/
    (kd = XNodes /\ length (m_nodes (gm_mem m0)) <= a).
Proof.
  intros jobs m0 sched i p kd a Jo Ep Ea. destruct (xsome_job _ _ _ _ _ Jo Ep) as (j & Ej).
  destruct (xamong jobs m0 sched i j Jo Ej) as (w & p' & Ep' & R & [G Q]). rewrite Ep in Ep'. injection Ep' as <-.
  pose proof (xaccess_ran _ _ _ _ R) as X. rewrite Ea in X. destruct kd as [k| |]; [destruct k|..]; cbn in X; try discriminate.
  - left. split; [reflexivity|]. apply (GenConcInv.hrel_lt _ _ _ _ (GenConcInv.si_sets _ _ _ _ G) a X).
  - right. left. split; [reflexivity|]. destruct X as [X|[_ X]]; [|discriminate]. apply (hrel_lt _ _ _ _ _ (si_ops _ _ _ _ Q) a X).
  - right. right. split; [reflexivity|]. apply (hrel_lt _ _ _ _ _ (si_nodes _ _ _ _ Q) a X).
Qed.
Print Assumptions C116_writes_own.

(** No schedule leads to a data race. *)
Theorem C116_no_race : forall jobs m0 sched, xjobs_in m0 jobs -> ~ xrace (xafter jobs m0 sched).
Proof.
  intros jobs m0 sched Jo (i & k & p & q & kd & a & b & N & Ep & Eq & Ap & Aq). destruct (xinv_all m0 jobs Jo sched) as (ws & I).
  destruct (xsome_job _ _ _ _ _ Jo Ep) as (ji & Ei). destruct (xsome_job _ _ _ _ _ Jo Eq) as (jk & Ek).
  destruct (xi_calls _ _ _ _ _ I i ji Ei) as (w & p' & Ew & Ep' & R & [G Q]). rewrite Ep in Ep'. injection Ep' as <-.
  destruct (xi_calls _ _ _ _ _ I k jk Ek) as (v & q' & Ev & Eq' & R' & _). rewrite Eq in Eq'. injection Eq' as <-.
  destruct (xi_apart _ _ _ _ _ I i k w v N Ew Ev) as (A0 & A1 & A2 & _).
  pose proof (xaccess_ran _ _ _ _ R) as X. pose proof (xaccess_ran _ _ _ _ R') as Y. rewrite Ap in X. rewrite Aq in Y.
  destruct kd as [kd| |]; [destruct kd|..]; cbn in X, Y; try discriminate.
  - exact (A0 a X Y).
  - destruct X as [X|[_ X]]; [|discriminate]. destruct Y as [Y|[Y _]]; [exact (A1 a X Y)|].
    pose proof (hrel_lt _ _ _ _ _ (si_ops _ _ _ _ Q) a X). lia.
  - exact (A2 a X Y).
Qed.
Print Assumptions C116_no_race.

(** A goroutine that builds a parser and parses with it, alone: FromGrammar as in
    TableGenMem.v (C71), then Parse as in ParserMem.v (C63). *)
Theorem C116_alone :
  forall j nx m0 mt names m1,
    mFromGrammar (g_grow j) (g_order j) (g_fuel j) (g_rules j) m0 = (Ok (mt, names), m1) ->
    exists n m,
      let o := mParse (xn_grow nx) (xn_fuel nx) mt (Some names) (gm_mem m1) (xn_source nx) in
      xafter [XBoth j nx] m0 (repeat 0 n) = mkXConfig [XQ (QRet (mkQOut (mo_result o) (mo_names o) (mo_source o)))] m /\
      ((forall p, mo_result o <> Panic p) -> m = set_gmem m1 (mo_mem o)).
Proof.
  intros j nx m0 mt names m1 Em. destruct (xsolo_end (xstart (XBoth j nx)) m0) as (n & E & _).
  exists n, (snd (xrun (xstart (XBoth j nx)) m0)). cbv zeta.
  assert (X : forall k, xafter [XBoth j nx] m0 (repeat 0 k) = mkXConfig [fst (xsolo k (xstart (XBoth j nx), m0))] (snd (xsolo k (xstart (XBoth j nx), m0)))).
  { induction k as [|k IH]; [reflexivity|]. replace (S k) with (k + 1) by lia. rewrite repeat_app. unfold xafter in *.
    rewrite fold_left_app, IH. cbn [repeat fold_left]. unfold xturn. cbn [xc_calls nth_error xc_mem].
    rewrite Nat.add_1_r. cbn [xsolo]. unfold xsolo1. destruct (xsolo k (xstart (XBoth j nx), m0)) as [q m]. cbn [fst snd].
    destruct (xstep q m). reflexivity. }
  rewrite X, E. cbn [xstart xrun]. unfold gstart. rewrite GenConcProofs.run_FromGrammar, Em. unfold xrunq. cbn [fst snd].
  pose proof (run_Parse (xn_grow nx) (xn_fuel nx) mt (Some names) (xn_source nx) (gm_mem m1)) as [E1 E2].
  rewrite E1. split; [reflexivity|]. intros N. rewrite (E2 N). reflexivity.
Qed.
Print Assumptions C116_alone.

(** The trees of two goroutines have no array in common, ... *)
Theorem C116_trees_apart :
  forall jobs m0 sched i k o o' r r' mn mn' n n' A A',
    xjobs_in m0 jobs -> i <> k ->
    nth_error (xc_calls (xafter jobs m0 sched)) i = Some (XQ (QRet o)) ->
    nth_error (xc_calls (xafter jobs m0 sched)) k = Some (XQ (QRet o')) ->
    qo_result o = Ok r -> mr_tree r = Some mn -> qo_result o' = Ok r' -> mr_tree r' = Some mn' ->
    let h := m_nodes (gm_mem (xc_mem (xafter jobs m0 sched))) in
    tree_in h mn n A -> tree_in h mn' n' A' ->
    forall a, In a A -> ~ In a A'.
Proof.
  intros jobs m0 sched i k o o' r r' mn mn' n n' A A' Jo N Ep Eq Er Et Er' Et' h Ht Ht' a Ia Ia'.
  destruct (xinv_all m0 jobs Jo sched) as (ws & I).
  destruct (xsome_job _ _ _ _ _ Jo Ep) as (ji & Ei). destruct (xsome_job _ _ _ _ _ Jo Eq) as (jk & Ek).
  destruct (xi_calls _ _ _ _ _ I i ji Ei) as (w & p' & Ew & Ep' & R & [_ S]). rewrite Ep in Ep'. injection Ep' as <-.
  destruct (xi_calls _ _ _ _ _ I k jk Ek) as (v & q' & Ev & Eq' & R' & [_ S']). rewrite Eq in Eq'. injection Eq' as <-.
  destruct (xi_apart _ _ _ _ _ I i k w v N Ew Ev) as (_ & _ & A2 & _).
  assert (X : forall w c o r mn, xrel m0 w c (XQ (QRet o)) -> qo_result o = Ok r -> mr_tree r = Some mn ->
    exists mn0, nrel (x_w w) mn0 mn).
  { intros w0 c o1 r1 mn1 H E1 E2. inversion H as [|? p0 ? H']; subst. inversion H' as [? o0 ? (Hr & _)| | | | | | | |]; subst.
    rewrite E1 in Hr. destruct (qo_result o0) as [x|x|x|]; try contradiction. destruct Hr as (Hr & _). rewrite E2 in Hr.
    destruct (mr_tree x) as [mn0|]; [|contradiction]. exists mn0. exact Hr. }
  apply (A2 a).
  - destruct (X _ _ _ _ _ R Er Et) as (mn0 & Hn). exact (tree_ran _ _ _ _ (si_nodes _ _ _ _ S) _ _ _ Ht mn0 Hn a Ia).
  - destruct (X _ _ _ _ _ R' Er' Et') as (mn0 & Hn). exact (tree_ran _ _ _ _ (si_nodes _ _ _ _ S') _ _ _ Ht' mn0 Hn a Ia').
Qed.
Print Assumptions C116_trees_apart.

(** ... nor have their tables, and no table owns a cell that others may write:
    it is an array no goroutine is about to write. *)
Theorem C116_tables_apart :
  forall jobs m0 sched i k mt names c s,
    xjobs_in m0 jobs -> i <> k ->
    nth_error (xc_calls (xafter jobs m0 sched)) i = Some (XG (PRet (Ok (mt, names))) None) ->
    nth_error (xc_calls (xafter jobs m0 sched)) k = Some c ->
    In s (cells mt) -> sl_cap s <> 0 ->
    (forall mt' names' s', c = XG (PRet (Ok (mt', names'))) None -> In s' (cells mt') -> sl_cap s' <> 0 ->
       sl_arr s <> sl_arr s') /\
    xaccess c <> Some (XK KOps, sl_arr s, true).
Proof.
  intros jobs m0 sched i k mt names c s Jo N Ep Eq Is Cs. destruct (xinv_all m0 jobs Jo sched) as (ws & I).
  destruct (xsome_job _ _ _ _ _ Jo Ep) as (ji & Ei). destruct (xsome_job _ _ _ _ _ Jo Eq) as (jk & Ek).
  destruct (xi_calls _ _ _ _ _ I i ji Ei) as (w & p' & Ew & Ep' & R & _). rewrite Ep in Ep'. injection Ep' as <-.
  destruct (xi_calls _ _ _ _ _ I k jk Ek) as (v & q' & Ev & Eq' & R' & _). rewrite Eq in Eq'. injection Eq' as <-.
  destruct (xi_apart _ _ _ _ _ I i k w v N Ew Ev) as (_ & A1 & _).
  assert (X : forall w q mt names s, xrel m0 w q (XG (PRet (Ok (mt, names))) None) -> In s (cells mt) -> sl_cap s <> 0 ->
    In (sl_arr s) (ran (w_o (x_w w)))).
  { intros w0 q0 mt0 nm s0 H H1 H2. inversion H as [? p0 ? ? _ H'|]; subst.
    inversion H' as [? a b [H3 _]| | | | | | | | | |]; subst. apply Props_GenConc.cells_moved in H3.
    destruct (Props_GenConc.cell_ran _ _ _ _ H3 H1 H2) as (s1 & _ & _ & K). change (sl_arr s0) with (snd (sl_arr s1, sl_arr s0)). apply in_map, K. }
  pose proof (X _ _ _ _ _ R Is Cs) as Y. split.
  - intros mt' names' s' -> Is' Cs' E. apply (A1 (sl_arr s) Y). rewrite E. eapply X; eassumption.
  - intros E. pose proof (xaccess_ran _ _ _ _ R') as Z. rewrite E in Z. cbn in Z. destruct Z as [Z|[_ Z]]; [|discriminate].
    exact (A1 _ Y Z).
Qed.
Print Assumptions C116_tables_apart.

(** ** A concrete case: one goroutine builds a parser, two build one of the same
    grammar and parse with it, one text is in the language and one is not, and
    one parses with the table of Props_Mem.v; they take turns. *)
Definition xcase_m : gmem := set_gmem gcase_m case_m.
Definition xcase_jobs : list xjob :=
  [XBuild (mkGJob (fun n => 4 * n) (fun l => l) 600 gcase_mg);
   XBoth (mkGJob (fun n => n) (@rev _) 600 gcase_mg) (mkXNext (fun n => 2 * n) 60 (MSrcString (s2b "abb")));
   XBoth (mkGJob (fun n => n) (fun l => l) 600 gcase_mg) (mkXNext (fun n => n) 60 (MSrcString (s2b "b")));
   XParse (mkQJob (fun n => n) 40 case_mt (Some []) case_ms)].
Definition xcase_sched : list nat := flat_map (fun _ => [0; 1; 2; 3]) (seq 0 300).
Definition xcase_end (c : xcall) : nat :=
  match xdone c with
  | Some (XTable (Ok _)) => 1
  | Some (XTree o) => match qo_result o with Ok r => match mr_tree r with Some _ => 2 | None => 3 end | _ => 4 end
  | _ => 0
  end.
Definition xcase_tree : option node :=
  match FromGrammar_order (@rev _) 600 gcase_g with
  | Ok (t, names) =>
      match po_result (Parse 60 (NewLL1Parser t (Some names)) (SrcString (s2b "abb"))) with
      | Ok r => r_tree r | _ => None end
  | _ => None end.
Definition xcase_node : node :=
  Node 0 0 3 [Node (-1) 0 1 [];
    Node 1 1 3 [Node (-1) 1 2 []; Node 1 2 3 [Node (-1) 2 3 []; Node 1 3 3 [Node (-2) 3 3 []]]]].

Lemma xcase_in : xjobs_in xcase_m xcase_jobs /\ grammar_in xcase_m gcase_mg gcase_g.
Proof.
  split; [|exact gcase_in]. repeat constructor.
  - exists (SrcString (s2b "abb")). reflexivity.
  - exists (SrcString (s2b "b")). reflexivity.
  - exists case_t, (SrcBytes (s2b "ab")). split; [exact case_table_ok|exact case_source_ok].
Qed.
Lemma xcase_tree_is : xcase_tree = Some xcase_node.
Proof. vm_compute. reflexivity. Qed.
Lemma xcase_ends : map xcase_end (xc_calls (xafter xcase_jobs xcase_m xcase_sched)) = [1; 2; 3; 2].
Proof. vm_compute. reflexivity. Qed.
Lemma xcase_1 : exists c, nth_error (xc_calls (xafter xcase_jobs xcase_m xcase_sched)) 1 = Some c /\ xcase_end c = 2.
Proof.
  pose proof (f_equal (fun l => nth_error l 1) xcase_ends) as E. cbn beta in E. rewrite nth_error_map in E.
  destruct (nth_error (xc_calls (xafter xcase_jobs xcase_m xcase_sched)) 1) as [c|]; [|discriminate].
  exists c. split; [reflexivity|]. injection E as E. exact E.
Qed.

Lemma xcase_use m0 M out :
  as_alone m0 M (XBoth (mkGJob (fun n => n) (@rev _) 600 gcase_mg) (mkXNext (fun n => 2 * n) 60 (MSrcString (s2b "abb")))) out ->
  grammar_in m0 gcase_mg gcase_g ->
  exists o r mn, out = XTree o /\ qo_result o = Ok r /\ mr_tree r = Some mn /\
    fresh_tree (length (m_nodes (gm_mem m0))) (m_nodes (gm_mem M)) mn xcase_node.
Proof.
  intros A Hg. specialize (A gcase_g (SrcString (s2b "abb")) Hg eq_refl). cbn [g_order g_fuel xn_fuel] in A.
  pose proof xcase_tree_is as T. unfold xcase_tree in T. revert A T.
  generalize (FromGrammar_order (@rev _) 600 gcase_g). intros [[t names]|e|p|]; try discriminate.
  generalize xcase_node. intros nd (o & -> & C & _). revert C.
  generalize (po_result (Parse 60 (NewLL1Parser t (Some names)) (SrcString (s2b "abb")))). intros [pr|e|p|]; try discriminate.
  intros C T. destruct (qo_result o) as [r|x|x|] eqn:Er; try contradiction. destruct C as (_ & _ & C). rewrite T in C.
  destruct (mr_tree r) as [mn|] eqn:Et; [|contradiction]. exists o, r, mn. auto.
Qed.
Lemma xdone_tree c o : xdone c = Some (XTree o) -> c = XQ (QRet o).
Proof.
  intros Ed. destruct c as [p nx|p]; cbn in Ed.
  - destruct p as [[?|?|?|]| | | | | | |]; try discriminate; destruct nx; discriminate.
  - destruct p; try discriminate. congruence.
Qed.

Example C116_case :
  map xcase_end (xc_calls (xafter xcase_jobs xcase_m xcase_sched)) = [1; 2; 3; 2] /\
  exists o r mn,
    nth_error (xc_calls (xafter xcase_jobs xcase_m xcase_sched)) 1 = Some (XQ (QRet o)) /\
    qo_result o = Ok r /\ mr_tree r = Some mn /\
    fresh_tree 0 (m_nodes (gm_mem (xc_mem (xafter xcase_jobs xcase_m xcase_sched)))) mn xcase_node.
Proof.
  split; [exact xcase_ends|]. destruct xcase_1 as (c & Ec & Ee). unfold xcase_end in Ee.
  destruct (xdone c) as [out|] eqn:Ed; [|discriminate].
  destruct xcase_in as [Jo Hg].
  pose proof (C116_results xcase_jobs xcase_m xcase_sched 1 _ c out Jo eq_refl Ec Ed) as C.
  destruct (xcase_use _ _ _ C Hg) as (o & r & mn & -> & Er & Et & Ft). exists o, r, mn.
  apply xdone_tree in Ed. subst c. split; [exact Ec|]. split; [exact Er|]. split; [exact Et|exact Ft].
Qed.

(** They read the same arrays at the same time; a goroutine that appends to a
    cell of a table (one with room) while another parses with it would race. *)
Example C116_reads :
  map xaccess (xc_calls (xafter xcase_jobs xcase_m (firstn 40 xcase_sched))) =
    [Some (XK KSeqs, 0, false); Some (XK KSeqs, 0, false); Some (XK KSeqs, 0, false); Some (XK KOps, 4, true)].
Proof. vm_compute. reflexivity. Qed.
Example C116_would_race : forall (k : slice -> gcall) (k' : option ParserOp -> qcall) m,
  xrace (mkXConfig [XG (PAppend (fun n => n) (mkSlice 3 0 1 4) OpNil k) None; XQ (QOp (mkSlice 3 0 2 4) 0 k')] m).
Proof. intros k k' m. exists 0, 1. do 5 eexists. repeat split. discriminate. Qed.
