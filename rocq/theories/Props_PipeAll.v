(** * Props_PipeAll: property C119.

    Any number of goroutines, each of which converts a grammar, and when that goes
    well builds a parser of what it got, and parses with it; next to others that
    build and parse. All in the same memory, one append or access at a time, in
    any order: each ends with what the plain functions give one after the other,
    and no two of them ever race. *)
From Verif Require Import Base Cst Ast FromCst Parser SliceMem ParserMem TableGenMem FromCstMem
  TableGen TableGenConc ParserConc PipeConc ConvertConc PipeAll
  Spec_Mem Spec_GenMem Spec_GenConc Spec_ParserConc Spec_PipeConc Spec_ConvertConc Spec_MixConc Spec_PipeAll
  PipeAllProofs.
From Verif Require ConvertConcInv.
From Verif Require MixConcProofs Props_PipeConc Props_ConvertConc.

(** How things stand after a schedule, all converters' turns being known. *)
Lemma zreached jobs m0 sched : zjobs_in m0 jobs ->
  exists rf xp, zinv jobs m0 rf rf xp (zafter jobs m0 sched).
Proof.
  intros J. destruct (zinv_prefix jobs m0 J (conv_turns (zall_start jobs m0) sched) sched []) as (xp & H).
  - rewrite app_nil_r. reflexivity.
  - eauto.
Qed.

Lemma zcall_of jobs m0 rf xp c i d : zinv jobs m0 rf rf xp c -> nth_error (zc_calls c) i = Some d ->
  exists z, nth_error jobs i = Some z /\ zcall_ok jobs m0 rf rf xp i z d.
Proof.
  intros I E. destruct (nth_error jobs i) as [z|] eqn:Ez.
  - destruct (zi_calls _ _ _ _ _ _ I i z Ez) as (d' & E' & H). rewrite E in E'. injection E' as <-. eauto.
  - apply nth_error_None in Ez. rewrite <- (zi_len _ _ _ _ _ _ I) in Ez. apply nth_error_None in Ez. congruence.
Qed.

Lemma rjobs_nth jobs i j b : nth_error jobs i = Some (ZConvert j b) -> nth_error (map rjob_of jobs) i = Some j.
Proof. intros E. rewrite nth_error_map, E. reflexivity. Qed.

Lemma zdone_conv p b out : zdone (ZR p b) = Some out ->
  exists r, p = RRet r /\ out = ZGrammar r /\ forall rules, r = Ok rules -> b = None.
Proof.
  destruct p as [r|?|?|?]; [|discriminate..]. intros E. exists r. split; [reflexivity|].
  destruct r as [rules|e|q|]; destruct b; cbn in E; try discriminate; injection E as <-;
    (split; [reflexivity|]); intros; congruence.
Qed.

(** Each goroutine ends with what it would have got with plain values. *)
Theorem C119_results :
  forall jobs m0 sched i z c out,
    zjobs_in m0 jobs -> nth_error jobs i = Some z ->
    nth_error (zc_calls (zafter jobs m0 sched)) i = Some c -> zdone c = Some out ->
    z_as_alone m0 (zc_mem (zafter jobs m0 sched)) z out.
Proof.
  intros jobs m0 sched i z c out J Ez Ec D. destruct (zreached jobs m0 sched J) as (rf & xp & I).
  destruct (zcall_of _ _ _ _ _ _ _ I Ec) as (z' & Ez' & H). rewrite Ez in Ez'. injection Ez' as <-.
  rewrite (zi_mem _ _ _ _ _ _ I). destruct c as [p b|cx].
  - destruct H as ((j & ->) & Ep & _). destruct (zdone_conv _ _ _ D) as (r & -> & -> & Hb).
    pose proof (Props_ConvertConc.C117_results _ m0 rf i j r (rjobs_nth _ _ _ _ Ez) Ep) as X. cbv zeta in X.
    cbn [z_as_alone]. destruct r as [rules|e|q|], (ToAST (r_bindings j) (r_root j) (r_str j)) as [g|e'|q'|]; try contradiction; try congruence.
    rewrite (Hb rules eq_refl). exists rules. split; [reflexivity|exact X].
  - destruct H as (Ex & _ & C). cbn [zdone] in D. destruct (xdone cx) as [o|] eqn:Do; [|discriminate]. injection D as <-.
    pose proof (Props_PipeConc.C116_results _ _ xp i _ cx o (xjobs_ok jobs m0 J rf) (xjobs_nth jobs m0 rf i z Ez) Ex Do) as X.
    set (M := xc_mem (xafter (xjobs_of jobs m0 rf) (m1 jobs m0 rf) xp)) in *.
    destruct z as [j|j b].
    + exists o. split; [reflexivity|]. cbn [xjob_of] in X.
      pose proof (Props_ConvertConc.C117_nothing_overwritten (map rjob_of jobs) m0 rf) as (_ & G & _).
      destruct j as [j|j|j nx]; cbn [as_alone] in *.
      * destruct X as (r & -> & X). exists r. split; [reflexivity|]. intros g Hg. exact (X g (G _ _ Hg)).
      * exact X.
      * intros g s Hg. exact (X g s (G _ _ Hg)).
    + destruct C as (b' & rules & -> & Er). rewrite Er in X. cbn [xjob_of] in X.
      pose proof (Props_ConvertConc.C117_results _ m0 rf i j _ (rjobs_nth _ _ _ _ Ez) Er) as Y. cbv zeta iota in Y.
      cbn [z_as_alone]. destruct (ToAST (r_bindings j) (r_root j) (r_str j)) as [g|?|?|]; try contradiction.
      pose proof (jobs_in jobs m0 J i _ Ez) as Z. cbn in Z.
      destruct Y as [Y _]. destruct (b_next b') as [nx|].
      * cbn [as_alone bjob g_rules g_order g_fuel] in X. destruct Z as (s0 & Z). pose proof (X g s0 Y Z) as X0.
        destruct (FromGrammar_order (b_order b') (b_fuel b') g) as [[t names]|e|q|] eqn:Eg; [|subst o; reflexivity..].
        intros s Hs. specialize (X g s Y Hs). rewrite Eg in X. destruct X as (qo & -> & X). exists qo. split; [reflexivity|exact X].
      * cbn [as_alone bjob g_rules g_order g_fuel] in X. destruct X as (r & -> & X). specialize (X g Y).
        destruct r as [[mt names]|e|q|], (FromGrammar_order (b_order b') (b_fuel b') g) as [[t names']|e'|q'|]; try contradiction; try congruence.
        destruct X as [X <-]. exists mt. split; [reflexivity|exact X].
Qed.
Print Assumptions C119_results.

(** What a goroutine has ended with stays. *)
Theorem C119_final :
  forall jobs m0 sched more i c, zdone c <> None ->
    nth_error (zc_calls (zafter jobs m0 sched)) i = Some c ->
    nth_error (zc_calls (zafter jobs m0 (sched ++ more))) i = Some c.
Proof.
  intros jobs m0 sched more i c D H. unfold zafter in *. rewrite fold_left_app. revert H.
  generalize (fold_left zturn sched (zall_start jobs m0)) as cf. induction more as [|k more IH]; intros cf H; [exact H|].
  cbn [fold_left]. apply IH. unfold zturn. destruct (nth_error (zc_calls cf) k) as [p|] eqn:Ep; [|exact H].
  destruct (zstep p (zc_mem cf)) as [p' m'] eqn:Es. cbn. destruct (Nat.eq_dec k i) as [->|N].
  2: { rewrite ConvertConcInv.list_set_else by exact N. exact H. }
  rewrite H in Ep. injection Ep as <-. rewrite (ConvertConcInv.list_set_at _ _ _ p' H). f_equal.
  destruct c as [p b|cx].
  - destruct (zdone (ZR p b)) as [out|] eqn:E; [|congruence]. destruct (zdone_conv _ _ _ E) as (r & -> & _ & Hb).
    destruct r as [rules|e|q|], b as [b|]; cbn in Es; try (injection Es; congruence). discriminate (Hb rules eq_refl).
  - cbn [zdone] in D. destruct cx as [p nx|p].
    + destruct p; cbn in D; try congruence.
      destruct nx, r as [[mt names]|e|q|]; cbn in D, Es; try congruence; injection Es; congruence.
    + destruct p; cbn in D; try congruence. cbn in Es. injection Es; congruence.
Qed.
Print Assumptions C119_final.

(** A goroutine cannot take steps forever. *)
Inductive ends : zcall -> Prop :=
| ends_in c : (zdone c = None -> forall m, ends (fst (zstep c m))) -> ends c.
Lemma ends_now c out : zdone c = Some out -> ends c.
Proof. intros E. constructor. congruence. Qed.
Lemma ends_parse (p : qprog qout) : ends (ZX (XQ p)).
Proof.
  induction p as [a|s i k IH|s i k IH|s i k IH|g s o k IH|g s n k IH|s i n k IH|arr k IH|arr k IH].
  - eapply ends_now. reflexivity.
  - constructor; intros _ m; cbn. apply IH.
  - constructor; intros _ m; cbn. apply IH.
  - constructor; intros _ m; cbn. apply IH.
  - constructor; intros _ m; cbn. destruct (slice_append _ _ _ _ _); apply IH.
  - constructor; intros _ m; cbn. destruct (slice_append _ _ _ _ _); apply IH.
  - constructor; intros _ m; cbn. destruct (slice_set _ _ _ _); apply IH.
  - constructor; intros _ m; cbn. apply IH.
  - constructor; intros _ m; cbn. apply IH.
Qed.
Lemma ends_panic e nx : ends (ZX (XG (PRet (Panic e)) nx)).
Proof. destruct nx; eapply ends_now; reflexivity. Qed.
Lemma ends_build (p : gcall) nx : ends (ZX (XG p nx)).
Proof.
  induction p as [r|s i k IH|s i k IH|s i k IH|s i k IH|s i x k IH|n k IH|g s o k IH].
  - destruct r as [[mt names]|e|q|]; [|destruct nx; eapply ends_now; reflexivity..].
    destruct nx as [nx|]; [|eapply ends_now; reflexivity]. constructor. intros _ m. cbn. apply ends_parse.
  - constructor; intros _ m; cbn; unfold pread. destruct (slice_get _ _ _); [apply IH|apply ends_panic].
  - constructor; intros _ m; cbn; unfold pread. destruct (slice_get _ _ _); [apply IH|apply ends_panic].
  - constructor; intros _ m; cbn; unfold pread. destruct (slice_get _ _ _); [apply IH|apply ends_panic].
  - constructor; intros _ m; cbn; unfold pread. destruct (slice_get _ _ _); [apply IH|apply ends_panic].
  - constructor; intros _ m; cbn. destruct (slice_set _ _ _ _); [apply IH|apply ends_panic].
  - constructor; intros _ m; cbn. apply IH.
  - constructor; intros _ m; cbn. destruct (slice_append _ _ _ _ _). apply IH.
Qed.
Lemma ends_conv (p : rcall) b : ends (ZR p b).
Proof.
  induction p as [r|g s x k IH|g s x k IH|g s x k IH].
  - destruct r as [rules|e|q|], b as [b|]; try (eapply ends_now; reflexivity).
    constructor. intros _ m. cbn. apply ends_build.
  - constructor; intros _ m; cbn. destruct (slice_append _ _ _ _ _). apply IH.
  - constructor; intros _ m; cbn. destruct (slice_append _ _ _ _ _). apply IH.
  - constructor; intros _ m; cbn. destruct (slice_append _ _ _ _ _). apply IH.
Qed.

(** A goroutine that gets a turn again and again ends, whatever the others do,
    and whether they end or not. *)
Theorem C119_progress :
  forall jobs m0 (sched : nat -> nat) i,
    i < length jobs -> (forall t, exists t', t <= t' /\ sched t' = i) ->
    exists t c out, nth_error (zc_calls (zafter jobs m0 (map sched (seq 0 t)))) i = Some c /\ zdone c = Some out.
Proof.
  intros jobs m0 sched i L Fair. set (at_ t := zafter jobs m0 (map sched (seq 0 t))).
  assert (S_at : forall t, at_ (S t) = zturn (at_ t) (sched t)).
  { intros t. unfold at_, zafter. rewrite seq_S, map_app, fold_left_app. reflexivity. }
  assert (Turn : forall d t c, nth_error (zc_calls (at_ t)) i = Some c -> sched (d + t) = i ->
    exists t2, nth_error (zc_calls (at_ t2)) i = Some c /\ sched t2 = i).
  { induction d as [|d IH]; intros t c E Es; [eauto|]. destruct (Nat.eq_dec (sched t) i) as [Y|N]; [eauto|].
    apply (IH (S t) c); [|rewrite Nat.add_succ_r; exact Es]. rewrite S_at. unfold zturn.
    destruct (nth_error (zc_calls (at_ t)) (sched t)) as [p|]; [|exact E]. destruct (zstep p _) as [p' m']. cbn.
    rewrite ConvertConcInv.list_set_else by exact N. exact E. }
  assert (End : forall c, ends c -> forall t, nth_error (zc_calls (at_ t)) i = Some c ->
    exists t c out, nth_error (zc_calls (at_ t)) i = Some c /\ zdone c = Some out).
  { intros c H. induction H as [c H IH]. intros t E. destruct (zdone c) as [out|] eqn:D; [eauto|].
    destruct (Fair t) as (t' & Lt & Es). replace t' with ((t' - t) + t) in Es by lia.
    destruct (Turn _ _ _ E Es) as (t2 & E2 & Es2). apply (IH eq_refl (zc_mem (at_ t2)) (S t2)).
    rewrite S_at. unfold zturn. rewrite Es2, E2. destruct (zstep c (zc_mem (at_ t2))) as [p' m']. cbn.
    eapply ConvertConcInv.list_set_at, E2. }
  destruct (nth_error jobs i) as [z|] eqn:Ez; [|apply nth_error_None in Ez; lia].
  apply (End (zstart z)) with (t := 0).
  - destruct z as [j|j b]; [|apply ends_conv]. cbn. destruct (xstart j); [apply ends_build|apply ends_parse].
  - unfold at_. cbn. rewrite nth_error_map, Ez. reflexivity.
Qed.
Print Assumptions C119_progress.

(** At no time has any of them changed an array that existed before. *)
Theorem C119_nothing_overwritten :
  forall jobs m0 sched, zjobs_in m0 jobs ->
    let m := zc_mem (zafter jobs m0 sched) in
    all_kept m0 m /\
    (forall mg g, grammar_in m0 mg g -> grammar_in m mg g) /\
    (forall mt t, table_in (gm_mem m0) mt t -> table_in (gm_mem m) mt t) /\
    (forall ms s, source_in (gm_mem m0) ms s -> source_in (gm_mem m) ms s) /\
    (forall mn n A, tree_in (m_nodes (gm_mem m0)) mn n A -> tree_in (m_nodes (gm_mem m)) mn n A).
Proof.
  intros jobs m0 sched J. destruct (zreached jobs m0 sched J) as (rf & xp & I). rewrite (zi_mem _ _ _ _ _ _ I).
  pose proof (Props_PipeConc.C116_nothing_overwritten _ _ xp (xjobs_ok jobs m0 J rf)) as (K & _ & T & S & N).
  pose proof (Props_ConvertConc.C117_nothing_overwritten (map rjob_of jobs) m0 rf) as (K' & G & _).
  split; [|split; [exact G|split; [exact T|split; [exact S|exact N]]]].
  destruct K as (K1 & _ & _ & _ & K5), K' as (_ & K2 & K3 & K4 & _). exact (conj K1 (conj K2 (conj K3 (conj K4 K5)))).
Qed.
Print Assumptions C119_nothing_overwritten.

Lemma zconv_access p b k a w : zaccess (ZR p b) = Some (k, a, w) ->
  exists rk, raccess p = Some (rk, a, w) /\ k = rkind_of rk.
Proof. cbn. destruct (raccess p) as [[[rk c] v]|]; [|discriminate]. intros [= <- <- <-]. eauto. Qed.
Lemma zrkind_inj a b : rkind_of a = rkind_of b -> a = b.
Proof. destruct a, b; cbn; congruence. Qed.

(** What a goroutine writes, one of them has made. *)
Theorem C119_writes_own :
  forall jobs m0 sched i p kd a, zjobs_in m0 jobs ->
    nth_error (zc_calls (zafter jobs m0 sched)) i = Some p -> zaccess p = Some (kd, a, true) ->
    arrays kd m0 <= a.
Proof.
  intros jobs m0 sched i p kd a J Ep Ea. destruct (zreached jobs m0 sched J) as (rf & xp & I).
  destruct (zcall_of _ _ _ _ _ _ _ I Ep) as (z & Ez & H). destruct p as [p b|cx].
  - destruct H as (_ & Er & _). destruct (zconv_access _ _ _ _ _ Ea) as (rk & Ek & ->).
    pose proof (Props_ConvertConc.C117_writes_own _ _ _ _ _ _ _ Er Ek) as H. destruct rk; exact H.
  - destruct H as (Ex & _). pose proof (xjobs_ok jobs m0 J rf) as Jx.
    destruct (Props_PipeConc.C116_writes_own _ _ _ _ _ _ _ Jx Ex Ea) as [[-> H]|[[-> H]|[-> H]]]; exact H.
Qed.
Print Assumptions C119_writes_own.

(** A goroutine that converts and writes, and one that builds or parses. *)
Lemma zconv_build jobs m0 rf xp i k z z' p b cx kd a w :
  zcall_ok jobs m0 rf rf xp i z (ZR p b) -> zcall_ok jobs m0 rf rf xp k z' (ZX cx) ->
  zaccess (ZR p b) = Some (kd, a, true) -> xaccess cx = Some (kd, a, w) -> False.
Proof.
  intros (_ & Er & _) (_ & (r0 & q & E & S) & _) Ea Ec. destruct (zconv_access _ _ _ _ _ Ea) as (rk & Ek & ->).
  subst rf. destruct rk; cbn in Ec; destruct (xaccess_grammar _ _ _ _ _ _ _ S Ec) as (s & H & Es & L & _).
  - destruct H as [_ H]. exact (H q i p a Er Ek L Es).
  - destruct H as [[_ H] _]. exact (H q i p a Er Ek L Es).
  - destruct H as [[_ H] _]. exact (H q i p a Er Ek L Es).
Qed.
Lemma zbuild_conv jobs m0 rf xp k z p b cx kd a w :
  zcall_ok jobs m0 rf rf xp k z (ZX cx) -> xaccess cx = Some (kd, a, true) ->
  zaccess (ZR p b) = Some (kd, a, w) -> False.
Proof.
  intros (_ & (r0 & q & _ & S) & _) Ec Ea. destruct (zconv_access _ _ _ _ _ Ea) as (rk & _ & ->).
  destruct rk; cbn in Ec; destruct (xaccess_grammar _ _ _ _ _ _ _ S Ec) as (s & _ & _ & _ & X); discriminate.
Qed.

(** No schedule leads to a data race. *)
Theorem C119_no_race : forall jobs m0 sched, zjobs_in m0 jobs -> ~ zrace (zafter jobs m0 sched).
Proof.
  intros jobs m0 sched J (i & k & p & q & kd & a & w & N & Ep & Eq & Ap & Aq).
  destruct (zreached jobs m0 sched J) as (rf & xp & I).
  destruct (zcall_of _ _ _ _ _ _ _ I Ep) as (z & Ez & H). destruct (zcall_of _ _ _ _ _ _ _ I Eq) as (z' & Ez' & H').
  destruct p as [p b|cx], q as [q b'|cx'].
  - destruct H as (_ & E & _), H' as (_ & E' & _). apply (Props_ConvertConc.C117_no_race (map rjob_of jobs) m0 rf).
    destruct (zconv_access _ _ _ _ _ Ap) as (rk & Er & ->). destruct (zconv_access _ _ _ _ _ Aq) as (rk' & Er' & K).
    apply zrkind_inj in K. subst rk'. exists i, k, p, q, rk, a, w. repeat split; auto.
  - eapply zconv_build; eassumption.
  - eapply zbuild_conv; eassumption.
  - destruct H as (E & _), H' as (E' & _). apply (Props_PipeConc.C116_no_race _ _ xp (xjobs_ok jobs m0 J rf)).
    exists i, k, cx, cx', kd, a, w. repeat split; auto.
Qed.
Print Assumptions C119_no_race.

(** What two goroutines end with has no array in common: two trees, ... *)
Theorem C119_trees_apart :
  forall jobs m0 sched i k c c' o o' r r' mn mn' n n' A A',
    zjobs_in m0 jobs -> i <> k ->
    nth_error (zc_calls (zafter jobs m0 sched)) i = Some c -> zdone c = Some (ZBuilt (XTree o)) ->
    nth_error (zc_calls (zafter jobs m0 sched)) k = Some c' -> zdone c' = Some (ZBuilt (XTree o')) ->
    qo_result o = Ok r -> mr_tree r = Some mn -> qo_result o' = Ok r' -> mr_tree r' = Some mn' ->
    let h := m_nodes (gm_mem (zc_mem (zafter jobs m0 sched))) in
    tree_in h mn n A -> tree_in h mn' n' A' ->
    forall a, In a A -> ~ In a A'.
Proof.
  intros jobs m0 sched i k c c' o o' r r' mn mn' n n' A A' J N Ec Dc Ec' Dc' Er Et Er' Et'.
  destruct (zreached jobs m0 sched J) as (rf & xp & I). rewrite (zi_mem _ _ _ _ _ _ I).
  assert (X : forall x c o, nth_error (zc_calls (zafter jobs m0 sched)) x = Some c -> zdone c = Some (ZBuilt (XTree o)) ->
    nth_error (xc_calls (xafter (xjobs_of jobs m0 rf) (m1 jobs m0 rf) xp)) x = Some (XQ (QRet o))).
  { clear - I. intros x c o E D. destruct (zcall_of _ _ _ _ _ _ _ I E) as (z & Ez & H). destruct c as [p b|cx].
    - destruct (zdone_conv _ _ _ D) as (? & _ & ? & _). discriminate.
    - destruct H as [H _]. rewrite H. f_equal. cbn in D. destruct cx as [p nx|p].
      + destruct p as [r| | | | | | |]; cbn in D; try discriminate. destruct r as [[? ?]|?|?|], nx; cbn in D; discriminate.
      + destruct p; cbn in D; try discriminate. injection D as <-. reflexivity. }
  exact (Props_PipeConc.C116_trees_apart _ _ xp i k o o' r r' mn mn' n n' A A' (xjobs_ok jobs m0 J rf) N
    (X _ _ _ Ec Dc) (X _ _ _ Ec' Dc') Er Et Er' Et').
Qed.
Print Assumptions C119_trees_apart.

Lemma zdone_table c mt names : zdone c = Some (ZBuilt (XTable (Ok (mt, names)))) -> c = ZX (XG (PRet (Ok (mt, names))) None).
Proof.
  intros D. destruct c as [p b|cx].
  - destruct (zdone_conv _ _ _ D) as (? & _ & ? & _). discriminate.
  - cbn in D. destruct cx as [p nx|p].
    + destruct p as [r| | | | | | |]; cbn in D; try discriminate. destruct r as [[? ?]|?|?|], nx; cbn in D; try discriminate.
      injection D as <- <-. reflexivity.
    + destruct p; cbn in D; discriminate.
Qed.

(** ... two tables, and nobody else is about to write to a cell of a table, ... *)
Theorem C119_tables_apart :
  forall jobs m0 sched i k c mt names p s,
    zjobs_in m0 jobs -> i <> k ->
    nth_error (zc_calls (zafter jobs m0 sched)) i = Some c -> zdone c = Some (ZBuilt (XTable (Ok (mt, names)))) ->
    nth_error (zc_calls (zafter jobs m0 sched)) k = Some p ->
    In s (cells mt) -> sl_cap s <> 0 ->
    (forall mt' names' s', zdone p = Some (ZBuilt (XTable (Ok (mt', names')))) -> In s' (cells mt') -> sl_cap s' <> 0 ->
       sl_arr s <> sl_arr s') /\
    zaccess p <> Some (XK KOps, sl_arr s, true).
Proof.
  intros jobs m0 sched i k c mt names p s J N Ec Dc Ep Is Cs. destruct (zreached jobs m0 sched J) as (rf & xp & I).
  apply zdone_table in Dc. subst c. destruct (zcall_of _ _ _ _ _ _ _ I Ec) as (z & _ & Hz & _).
  destruct (zcall_of _ _ _ _ _ _ _ I Ep) as (z' & _ & H'). destruct p as [p b|cx].
  - split.
    + intros mt' names' s' D. apply zdone_table in D. discriminate.
    + intros E. destruct (zconv_access _ _ _ _ _ E) as (rk & _ & K). destruct rk; discriminate.
  - destruct H' as [H' _].
    destruct (Props_PipeConc.C116_tables_apart _ _ xp i k mt names cx s (xjobs_ok jobs m0 J rf) N Hz H' Is Cs) as [X Y].
    split; [|exact Y]. intros mt' names' s' D. apply zdone_table in D. injection D as ->. eapply X. reflexivity.
Qed.
Print Assumptions C119_tables_apart.

(** ... and two grammars. *)
Theorem C119_grammars_apart :
  forall jobs m0 sched i k c c' rules rules',
    zjobs_in m0 jobs -> i <> k ->
    nth_error (zc_calls (zafter jobs m0 sched)) i = Some c -> zdone c = Some (ZGrammar (Ok rules)) ->
    nth_error (zc_calls (zafter jobs m0 sched)) k = Some c' -> zdone c' = Some (ZGrammar (Ok rules')) ->
    let m := zc_mem (zafter jobs m0 sched) in
    let apart l l' := forall s s', In s l -> In s' l' -> sl_cap s <> 0 -> sl_cap s' <> 0 -> sl_arr s <> sl_arr s' in
    apart [rules] [rules'] /\
    apart (map snd (rules_of m rules)) (map snd (rules_of m rules')) /\
    apart (alternatives_of m rules) (alternatives_of m rules').
Proof.
  intros jobs m0 sched i k c c' rules rules' J N Ec Dc Ec' Dc'.
  destruct (zreached jobs m0 sched J) as (rf & xp & I). rewrite (zi_mem _ _ _ _ _ _ I).
  assert (X : forall x c rules, nth_error (zc_calls (zafter jobs m0 sched)) x = Some c -> zdone c = Some (ZGrammar (Ok rules)) ->
    nth_error (rc_calls (rafter (map rjob_of jobs) m0 rf)) x = Some (RRet (Ok rules))).
  { clear - I. intros x c rules E D. destruct (zcall_of _ _ _ _ _ _ _ I E) as (z & Ez & H). destruct c as [p b|cx].
    - destruct H as (_ & H & _). destruct (zdone_conv _ _ _ D) as (r & -> & K & _). injection K as <-. exact H.
    - cbn in D. destruct (xdone cx); discriminate. }
  exact (Props_ConvertConc.C117_grammars_apart _ m0 rf i k rules rules' N (X _ _ _ Ec Dc) (X _ _ _ Ec' Dc')).
Qed.
Print Assumptions C119_grammars_apart.

(** ** A concrete case: two goroutines convert the grammar of Props_ConvertMem.v,
    build a parser of it, and parse "" and "b" with it; one only converts it; one
    converts it and builds; one has a text that is too short; and the four
    goroutines of C116 run next to them. *)
Definition zcase_m : gmem := Props_PipeConc.xcase_m.
Definition zcase_conv (text : bytes) (b : option bnext) : zjob :=
  ZConvert (mkRJob (fun n => 2 * n) SelfCSTtoASTBindings Props_ConvertMem.ccase_tree text) b.
Definition zcase_next (text : bytes) : option xnext := Some (mkXNext (fun n => n) 60 (MSrcString text)).
Definition zcase_jobs : list zjob :=
  [zcase_conv (s2b "ab\n") (Some (mkBNext (fun n => n) (@rev _) 600 (zcase_next [])));
   zcase_conv (s2b "ab\n") (Some (mkBNext (fun n => 2 * n) (fun l => l) 600 (zcase_next (s2b "b"))));
   zcase_conv (s2b "ab\n") None;
   zcase_conv (s2b "ab\n") (Some (mkBNext (fun n => n) (fun l => l) 600 None));
   zcase_conv (s2b "a") (Some (mkBNext (fun n => n) (fun l => l) 600 None))]
  ++ map ZWork Props_PipeConc.xcase_jobs.
Definition zcase_sched : list nat := flat_map (fun _ => [0; 5; 1; 6; 2; 7; 3; 8; 4]) (seq 0 300).
Definition zcase_end (c : zcall) : nat :=
  match zdone c with
  | Some (ZGrammar (Ok _)) => 5
  | Some (ZGrammar (Panic _)) => 6
  | Some (ZBuilt (XTable (Ok _))) => 1
  | Some (ZBuilt (XTree o)) => match qo_result o with Ok r => match mr_tree r with Some _ => 2 | None => 3 end | _ => 4 end
  | _ => 0
  end.

Lemma zcase_in : zjobs_in zcase_m zcase_jobs.
Proof.
  destruct Props_PipeConc.xcase_in as [J G]. unfold zcase_jobs. apply Forall_app. split.
  - repeat constructor; cbn; [exists (SrcString []); reflexivity|exists (SrcString (s2b "b")); reflexivity].
  - apply Forall_forall. intros z I. apply in_map_iff in I. destruct I as (j & <- & I). split.
    + unfold xjobs_in in J. rewrite Forall_forall in J. exact (J j I).
    + repeat destruct I as [<-|I]; cbn; eauto. destruct I.
Qed.
Example C119_case :
  zjobs_in zcase_m zcase_jobs /\
  map zcase_end (zc_calls (zafter zcase_jobs zcase_m zcase_sched)) = [2; 3; 5; 1; 6; 1; 2; 3; 2].
Proof. split; [exact zcase_in|]. vm_compute. reflexivity. Qed.

(** One has begun to build of what it has converted, and reads an alternative of
    it, while another is still converting and writes, and the rest build of what
    was there. *)
Example C119_stages :
  map zaccess (zc_calls (zafter zcase_jobs zcase_m (repeat 0 30 ++ repeat 1 4 ++ repeat 2 2 ++ repeat 3 6))) =
    [Some (XK KSeqs, 1, false); None; None; Some (XK KSyms, 10, true); None;
     Some (XK KRules, 0, false); Some (XK KRules, 0, false); Some (XK KRules, 0, false); None].
Proof. vm_compute. reflexivity. Qed.

(** The configuration a race would be: a converter appends, with room, to an array
    of symbols that a builder reads. *)
Example C119_would_race : forall (k : slice -> rcall) (k' : symbol -> gcall) m,
  zrace (mkZConfig [ZX (XG (PSym (mkSlice 3 0 2 4) 0 k') None); ZR (RSym (fun n => n) (mkSlice 3 0 1 4) SNothing k) None] m).
Proof. intros k k' m. exists 1, 0. do 5 eexists. repeat split. discriminate. Qed.
