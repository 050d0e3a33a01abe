(** * Props_MixConc: C118, converting, building parsers and parsing at the same time. *)
From Verif Require Import Base Cst Ast FromCst SliceMem ParserMem TableGenMem FromCstMem
  TableGen TableGenConc ParserConc PipeConc ConvertConc MixConc
  Spec_Mem Spec_GenMem Spec_GenConc Spec_ParserConc Spec_PipeConc Spec_ConvertConc Spec_MixConc
  ParserMemProofs TGMem MixConcProofs.
From Verif Require Import ByteSet Parser.
From Verif Require PipeConcInv Props_PipeConc Props_ConvertConc Props_GenMem.

(** ** C118 *)

(** Under any schedule: the goroutines that build and parse are where they would
    be without those that convert, the goroutines that convert are where they
    would be without those that build and parse, and the memory is what the ones
    and what the others make of it, side by side. *)
Theorem C118_separate :
  forall xjobs rjobs m0 sched, yjobs_in m0 xjobs ->
    let cx := xafter xjobs m0 (builders_turns sched) in
    let cr := rafter rjobs m0 (converters_turns sched) in
    yafter xjobs rjobs m0 sched =
      mkYConfig (xc_calls cx) (rc_calls cr) (mix (xc_mem cx) (rc_mem cr)).
Proof. intros xjobs rjobs m0 sched [_ J]. apply (y_separate xjobs rjobs m0 sched J). Qed.
Print Assumptions C118_separate.

(** What a builder ends with is what it would have got with plain values and all
    by itself, ... *)
Theorem C118_builders :
  forall xjobs rjobs m0 sched i j c out,
    yjobs_in m0 xjobs -> nth_error xjobs i = Some j ->
    ycall_of (yafter xjobs rjobs m0 sched) (inl i) = Some (YBuild c) -> xdone c = Some out ->
    as_alone m0 (y_mem (yafter xjobs rjobs m0 sched)) j out.
Proof.
  intros xjobs rjobs m0 sched i j c out J Ej Ec D. rewrite (C118_separate xjobs rjobs m0 sched J) in *. cbn [y_mem].
  cbn in Ec. destruct (nth_error (xc_calls _) i) as [c'|] eqn:E; [|discriminate]. injection Ec as ->.
  pose proof (Props_PipeConc.C116_results xjobs m0 (builders_turns sched) i j c out (proj1 J) Ej E D) as H.
  destruct j; exact H.
Qed.
Print Assumptions C118_builders.

(** ... and what a converter returns is what ToAST does on plain values. *)
Theorem C118_converters :
  forall xjobs rjobs m0 sched i j r,
    yjobs_in m0 xjobs -> nth_error rjobs i = Some j ->
    ycall_of (yafter xjobs rjobs m0 sched) (inr i) = Some (YConv (RRet r)) ->
    let m := y_mem (yafter xjobs rjobs m0 sched) in
    match r, ToAST (r_bindings j) (r_root j) (r_str j) with
    | Ok rules, Ok g => grammar_in m rules g /\ own_grammar m0 m rules
    | Err e, Err e' => e = e'
    | Panic p, Panic p' => p = p'
    | NoFuel, NoFuel => True
    | _, _ => False
    end.
Proof.
  intros xjobs rjobs m0 sched i j r J Ej Er. rewrite (C118_separate xjobs rjobs m0 sched J) in *. cbn [y_mem].
  cbn in Er. destruct (nth_error (rc_calls _) i) as [p|] eqn:E; [|discriminate]. injection Er as ->.
  exact (Props_ConvertConc.C117_results rjobs m0 (converters_turns sched) i j r Ej E).
Qed.
Print Assumptions C118_converters.

(** All of them end, after a number of turns of their own that does not depend on
    the others. *)
Lemma turns_builders i sched : xturns i (builders_turns sched) = yturns (inl i) sched.
Proof.
  unfold xturns, yturns. induction sched as [|[k|k] sched IH]; [reflexivity| |exact IH].
  cbn. destruct (Nat.eq_dec k i) as [->|N]; [rewrite Nat.eqb_refl; cbn; rewrite <- IH; reflexivity|].
  destruct (Nat.eqb_spec i k); [congruence|]. exact IH.
Qed.
Lemma turns_converters i sched : rturns i (converters_turns sched) = yturns (inr i) sched.
Proof.
  unfold rturns, yturns. induction sched as [|[k|k] sched IH]; [reflexivity|exact IH|].
  cbn. destruct (Nat.eq_dec k i) as [->|N]; [rewrite Nat.eqb_refl; cbn; rewrite <- IH; reflexivity|].
  destruct (Nat.eqb_spec i k); [congruence|]. exact IH.
Qed.

Theorem C118_progress :
  forall m0,
    (forall j, exists n, forall xjobs rjobs i sched,
       yjobs_in m0 xjobs -> nth_error xjobs i = Some j -> n <= yturns (inl i) sched ->
       exists c out, ycall_of (yafter xjobs rjobs m0 sched) (inl i) = Some (YBuild c) /\ xdone c = Some out) /\
    (forall j xjobs rjobs i sched,
       yjobs_in m0 xjobs -> nth_error rjobs i = Some j -> 3 * nodes_of (r_root j) <= yturns (inr i) sched ->
       exists r, ycall_of (yafter xjobs rjobs m0 sched) (inr i) = Some (YConv (RRet r))).
Proof.
  intros m0. split.
  - intros j. destruct (Props_PipeConc.C116_progress m0 j) as (n & H). exists n. intros xjobs rjobs i sched J Ej L.
    rewrite <- turns_builders in L. destruct (H xjobs i _ (proj1 J) Ej L) as (c & out & E & D). exists c, out.
    rewrite (C118_separate xjobs rjobs m0 sched J). cbn. rewrite E. auto.
  - intros j xjobs rjobs i sched J Ej L. rewrite <- turns_converters in L.
    destruct (Props_ConvertConc.C117_progress rjobs m0 _ i j Ej L) as (r & E). exists r.
    rewrite (C118_separate xjobs rjobs m0 sched J). cbn. rewrite E. reflexivity.
Qed.
Print Assumptions C118_progress.

(** At no time has any of them changed an array that existed before. *)
Theorem C118_nothing_overwritten :
  forall xjobs rjobs m0 sched, yjobs_in m0 xjobs ->
    let m := y_mem (yafter xjobs rjobs m0 sched) in
    all_kept m0 m /\
    (forall mg g, grammar_in m0 mg g -> grammar_in m mg g) /\
    (forall mt t, table_in (gm_mem m0) mt t -> table_in (gm_mem m) mt t) /\
    (forall ms s, source_in (gm_mem m0) ms s -> source_in (gm_mem m) ms s) /\
    (forall mn n A, tree_in (m_nodes (gm_mem m0)) mn n A -> tree_in (m_nodes (gm_mem m)) mn n A).
Proof.
  intros xjobs rjobs m0 sched J. rewrite (C118_separate xjobs rjobs m0 sched J). cbn [y_mem].
  pose proof (Props_PipeConc.C116_nothing_overwritten xjobs m0 (builders_turns sched) (proj1 J)) as (K & _ & T & S & N).
  pose proof (Props_ConvertConc.C117_nothing_overwritten rjobs m0 (converters_turns sched)) as (K' & G & _).
  split; [|split; [exact G|split; [exact T|split; [exact S|exact N]]]].
  destruct K as (K1 & _ & _ & _ & K5), K' as (_ & K2 & K3 & K4 & _). exact (conj K1 (conj K2 (conj K3 (conj K4 K5)))).
Qed.
Print Assumptions C118_nothing_overwritten.

(** The goroutines by themselves. *)
Lemma ycall_cases xjobs rjobs m0 sched t p : yjobs_in m0 xjobs ->
  ycall_of (yafter xjobs rjobs m0 sched) t = Some p ->
  (exists i c, t = inl i /\ p = YBuild c /\ nth_error (xc_calls (xafter xjobs m0 (builders_turns sched))) i = Some c /\ xsafe m0 c) \/
  (exists i c, t = inr i /\ p = YConv c /\ nth_error (rc_calls (rafter rjobs m0 (converters_turns sched))) i = Some c).
Proof.
  intros [J1 J2] E. destruct (y_separate xjobs rjobs m0 sched J2) as (X & S & _). rewrite X in E.
  destruct t as [i|i]; cbn in E; destruct (nth_error _ i) as [c|] eqn:Ec; try discriminate; injection E as <-.
  - left. exists i, c. rewrite Forall_forall in S. repeat split; auto. apply S. eapply nth_error_In, Ec.
  - right. exists i, c. auto.
Qed.
Lemma conv_access p k a w : yaccess (YConv p) = Some (k, a, w) ->
  exists rk, raccess p = Some (rk, a, w) /\ k = rkind_of rk.
Proof.
  cbn. destruct (raccess p) as [[[rk b] v]|]; [|discriminate]. intros [= <- <- <-]. eauto.
Qed.
Lemma rkind_inj a b : rkind_of a = rkind_of b -> a = b.
Proof. destruct a, b; cbn; congruence. Qed.

(** What a goroutine writes, it has made. *)
Theorem C118_writes_own :
  forall xjobs rjobs m0 sched t p kd a, yjobs_in m0 xjobs ->
    ycall_of (yafter xjobs rjobs m0 sched) t = Some p -> yaccess p = Some (kd, a, true) ->
    arrays kd m0 <= a.
Proof.
  intros xjobs rjobs m0 sched t p kd a J E Ea.
  destruct (ycall_cases _ _ _ _ _ _ J E) as [(i & c & -> & -> & Ec & S)|(i & c & -> & -> & Ec)].
  - destruct (Props_PipeConc.C116_writes_own _ _ _ _ _ _ _ (proj1 J) Ec Ea) as [[-> H]|[[-> H]|[-> H]]]; exact H.
  - destruct (conv_access _ _ _ _ Ea) as (rk & Er & ->).
    pose proof (Props_ConvertConc.C117_writes_own _ _ _ _ _ _ _ Ec Er) as H. destruct rk; exact H.
Qed.
Print Assumptions C118_writes_own.

(** A converter that writes and a builder that accesses: different arrays. *)
Lemma conv_build m0 rjobs sched i p c kd a w : xsafe m0 c ->
  nth_error (rc_calls (rafter rjobs m0 sched)) i = Some p ->
  yaccess (YConv p) = Some (kd, a, true) -> xaccess c = Some (kd, a, w) -> False.
Proof.
  intros S Ep Ea Ec. destruct (conv_access _ _ _ _ Ea) as (rk & Er & ->).
  pose proof (Props_ConvertConc.C117_writes_own _ _ _ _ _ _ _ Ep Er) as H.
  destruct rk; cbn in Ec; pose proof (xaccess_grammar m0 _ _ _ _ S Ec) as [X _]; cbn in X; lia.
Qed.
Lemma build_conv m0 c p kd a w : xsafe m0 c -> xaccess c = Some (kd, a, true) ->
  yaccess (YConv p) = Some (kd, a, w) -> False.
Proof.
  intros S Ec Ea. destruct (conv_access _ _ _ _ Ea) as (rk & Er & ->).
  destruct rk; cbn in Ec; pose proof (xaccess_grammar m0 _ _ _ _ S Ec) as [_ X]; discriminate.
Qed.

(** No schedule leads to a data race. *)
Theorem C118_no_race :
  forall xjobs rjobs m0 sched, yjobs_in m0 xjobs -> ~ yrace (yafter xjobs rjobs m0 sched).
Proof.
  intros xjobs rjobs m0 sched J (t & u & p & q & kd & a & b & N & Ep & Eq & Ap & Aq).
  destruct (ycall_cases _ _ _ _ _ _ J Ep) as [(i & c & -> & -> & Ec & S)|(i & c & -> & -> & Ec)];
  destruct (ycall_cases _ _ _ _ _ _ J Eq) as [(k & d & -> & -> & Ed & S')|(k & d & -> & -> & Ed)].
  - apply (Props_PipeConc.C116_no_race xjobs m0 (builders_turns sched) (proj1 J)).
    exists i, k, c, d, kd, a, b. repeat split; auto; congruence.
  - eapply build_conv; eassumption.
  - eapply conv_build; eassumption.
  - apply (Props_ConvertConc.C117_no_race rjobs m0 (converters_turns sched)).
    destruct (conv_access _ _ _ _ Ap) as (rk & Er & ->). destruct (conv_access _ _ _ _ Aq) as (rk' & Er' & K).
    apply rkind_inj in K. subst rk'. exists i, k, c, d, rk, a, b. repeat split; auto; congruence.
Qed.
Print Assumptions C118_no_race.

(** A grammar that a goroutine has converted, and that then others build a parser
    of and parse with, next to any other builders and converters, gives what the
    plain functions give one after the other. *)
Theorem C118_then_build :
  forall xjobs rjobs m0 sched i j rules g,
    yjobs_in m0 xjobs -> nth_error rjobs i = Some j ->
    ToAST (r_bindings j) (r_root j) (r_str j) = Ok g ->
    ycall_of (yafter xjobs rjobs m0 sched) (inr i) = Some (YConv (RRet (Ok rules))) ->
    let m1 := y_mem (yafter xjobs rjobs m0 sched) in
    forall xjobs' rjobs' sched' k gj nx s c out,
      g_rules gj = rules -> source_in (gm_mem m1) (xn_source nx) s ->
      yjobs_in m1 xjobs' -> nth_error xjobs' k = Some (XBoth gj nx) ->
      ycall_of (yafter xjobs' rjobs' m1 sched') (inl k) = Some (YBuild c) -> xdone c = Some out ->
      match FromGrammar_order (g_order gj) (g_fuel gj) g with
      | Ok (t, names) => exists o, out = XTree o /\
          tree_like m1 (y_mem (yafter xjobs' rjobs' m1 sched')) o
            (Parse (xn_fuel nx) (NewLL1Parser t (Some names)) s)
      | Err e => out = XTable (Err e)
      | Panic p => out = XTable (Panic p)
      | NoFuel => out = XTable NoFuel
      end.
Proof.
  intros xjobs rjobs m0 sched i j rules g J Ej Et Er m1 xjobs' rjobs' sched' k gj nx s c out Eg Hs J' Ek Ec D.
  pose proof (C118_converters _ _ _ _ _ _ _ J Ej Er) as H. cbv zeta beta iota in H. rewrite Et in H. destruct H as [H _].
  pose proof (C118_builders _ _ _ _ _ _ _ _ J' Ek Ec D g s) as X. rewrite Eg in X. exact (X H Hs).
Qed.
Print Assumptions C118_then_build.

(** ** A concrete case: the four goroutines of C116 next to the three of C117. *)
Definition ycase_m : gmem := Props_PipeConc.xcase_m.
Definition ycase_sched : list (nat + nat) :=
  flat_map (fun _ => [inl 0; inr 0; inl 1; inr 1; inl 2; inr 2; inl 3]) (seq 0 300).
Definition yconv_end (p : rcall) : nat :=
  match p with RRet (Ok _) => 1 | RRet _ => 2 | _ => 0 end.

Lemma ycase_in : yjobs_in ycase_m Props_PipeConc.xcase_jobs.
Proof.
  destruct Props_PipeConc.xcase_in as [J G]. split; [exact J|]. repeat constructor; eexists; exact G.
Qed.
Example C118_case :
  yjobs_in ycase_m Props_PipeConc.xcase_jobs /\
  let c := yafter Props_PipeConc.xcase_jobs Props_ConvertConc.rc_jobs ycase_m ycase_sched in
  map Props_PipeConc.xcase_end (y_calls c) = [1; 2; 3; 2] /\ map yconv_end (y_convs c) = [1; 1; 2].
Proof. split; [exact ycase_in|]. vm_compute. split; reflexivity. Qed.

(** The configuration a race would be: a converter appends, with room, to an array
    of symbols that a builder reads. *)
Example C118_would_race : forall (k : slice -> rcall) (k' : symbol -> gcall) m,
  yrace (mkYConfig [XG (PSym (mkSlice 3 0 2 4) 0 k') None] [RSym (fun n => n) (mkSlice 3 0 1 4) SNothing k] m).
Proof. intros k k' m. exists (inr 0), (inl 0). do 5 eexists. repeat split. discriminate. Qed.
