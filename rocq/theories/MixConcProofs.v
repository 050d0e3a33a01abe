(** * MixConcProofs: builders and converters do not notice each other. *)
From Verif Require Import Base Cst Ast FromCst SliceMem ParserMem TableGenMem FromCstMem
  TableGen TableGenConc ParserConc PipeConc ConvertConc MixConc
  Spec_Mem Spec_GenMem Spec_GenConc Spec_ParserConc Spec_PipeConc Spec_ConvertConc Spec_MixConc.
From Verif Require Import ByteSet Parser.
From Verif Require ConvertConcInv.

(** ** Programs that read the grammars of [m0] only *)
Section Safe.
  Variable m0 : gmem.

  Definition at_heap {T} (h : heap T) (s : slice) : Prop := sl_len s = 0 \/ sl_arr s < length h.
  Definition sym_ok (s : slice) : Prop := at_heap (gm_syms m0) s.
  Definition seq_ok (s : slice) : Prop :=
    at_heap (gm_seqs m0) s /\ forall i x, slice_get (gm_seqs m0) s i = Some x -> sym_ok x.
  Definition rule_ok (s : slice) : Prop :=
    at_heap (gm_rules m0) s /\ forall i x, slice_get (gm_rules m0) s i = Some x -> seq_ok (snd x).

  Lemma holds_at {T} (h : heap T) s xs : holds h s xs -> at_heap h s.
  Proof.
    intros (_ & L & H). destruct (sl_len s) as [|n] eqn:E; [left; exact E|]. right.
    destruct xs as [|x xs]; [cbn in L; lia|]. specialize (H 0 x eq_refl). unfold slice_get in H.
    destruct (Nat.ltb 0 (sl_len s)); [|discriminate]. destruct (nth_error h (sl_arr s)) eqn:En; [|discriminate].
    apply nth_error_Some. congruence.
  Qed.
  Lemma holds_in {T} (h : heap T) s xs i x : holds h s xs -> slice_get h s i = Some x -> In x xs.
  Proof.
    intros (_ & L & H) E. assert (Li : i < length xs).
    { unfold slice_get in E. destruct (Nat.ltb_spec i (sl_len s)); [lia|discriminate]. }
    destruct (nth_error xs i) as [y|] eqn:En; [|apply nth_error_None in En; lia].
    rewrite (H i y En) in E. injection E as <-. eapply nth_error_In, En.
  Qed.
  Lemma Forall2_left {X Y} (P : X -> Y -> Prop) l l' x : Forall2 P l l' -> In x l -> exists y, P x y.
  Proof. induction 1 as [|a b l l' H F IH]; intros []; [subst; eauto|auto]. Qed.
  Lemma grammar_ok mg g : grammar_in m0 mg g -> rule_ok mg.
  Proof.
    intros (mrs & H & F). split; [eapply holds_at, H|]. intros i x E.
    destruct (Forall2_left _ _ _ _ F (holds_in _ _ _ _ _ H E)) as (r & _ & seqs & Hs & Fs).
    split; [eapply holds_at, Hs|]. intros k y E'.
    destruct (Forall2_left _ _ _ _ Fs (holds_in _ _ _ _ _ Hs E')) as (z & Hz). eapply holds_at, Hz.
  Qed.

  Inductive safe {A} (P : A -> Prop) : prog A -> Prop :=
  | safe_ok a : P a -> safe P (PRet (Ok a))
  | safe_err e : safe P (PRet (Err e))
  | safe_panic p : safe P (PRet (Panic p))
  | safe_nofuel : safe P (PRet NoFuel)
  | safe_rule s i k : rule_ok s -> (forall x, seq_ok (snd x) -> safe P (k x)) -> safe P (PRule s i k)
  | safe_seq s i k : seq_ok s -> (forall x, sym_ok x -> safe P (k x)) -> safe P (PSeq s i k)
  | safe_sym s i k : sym_ok s -> (forall x, safe P (k x)) -> safe P (PSym s i k)
  | safe_set s i k : (forall x, safe P (k x)) -> safe P (PSet s i k)
  | safe_write s i x k : safe P k -> safe P (PWrite s i x k)
  | safe_make n k : (forall s, safe P (k s)) -> safe P (PMake n k)
  | safe_append grow s o k : (forall t, safe P (k t)) -> safe P (PAppend grow s o k).

  Definition any {A} : A -> Prop := fun _ => True.
  Lemma safe_bind {A B} (P : A -> Prop) (Q : B -> Prop) p f :
    safe P p -> (forall a, P a -> safe Q (f a)) -> safe Q (pbind p f).
  Proof. intros H. induction H; intros F; cbn [pbind]; try (constructor; auto; fail). apply F. assumption. Qed.
  Lemma safe_ret {A} (r : tgres A) : safe any (PRet r).
  Proof. destruct r; constructor. exact I. Qed.
  Lemma safe_p_rule s i : rule_ok s -> safe (fun x => seq_ok (snd x)) (p_rule s i).
  Proof. intros H. constructor; [exact H|]. intros x Hx. constructor. exact Hx. Qed.
  Lemma safe_p_seq s i : seq_ok s -> safe sym_ok (p_seq s i).
  Proof. intros H. constructor; [exact H|]. intros x Hx. constructor. exact Hx. Qed.
  Lemma safe_p_sym s i : sym_ok s -> safe any (p_sym s i).
  Proof. intros H. constructor; [exact H|]. intros x. apply safe_ret. Qed.
  Lemma safe_p_set s i : safe any (p_set s i).
  Proof. constructor. intros x. apply safe_ret. Qed.
  Lemma safe_p_write s i x : safe any (p_write s i x).
  Proof. constructor. apply safe_ret. Qed.
  Lemma safe_make_sets n : safe any (pmake_sets n).
  Proof. constructor. intros s. apply safe_ret. Qed.
  Lemma safe_p_append grow s o : safe any (p_append grow s o).
  Proof. constructor. intros s'. apply safe_ret. Qed.

  Section Code.
    Variable grow : nat -> nat.
    Variable g : slice.
    Hypothesis g_ok : rule_ok g.
    Variable rc : nat.
    Variable rm : list (bytes * nat).
    Variable fi fo : slice.

    Ltac sf := repeat first
      [ apply safe_ret
      | (apply safe_p_sym; assumption) | apply safe_p_set | apply safe_p_write | apply safe_p_append
      | match goal with IH : context [safe] |- _ => apply IH; assumption end
      | solve [auto with safe]
      | match goal with
        | |- safe _ (pbind (p_rule _ _) _) =>
            eapply (safe_bind (fun x => seq_ok (snd x))); [apply safe_p_rule; assumption|intros ? ?]
        | |- safe _ (pbind (p_seq _ _) _) =>
            eapply (safe_bind sym_ok); [apply safe_p_seq; assumption|intros ? ?]
        | |- safe _ (pbind _ _) => eapply (safe_bind any); [|intros ? _]
        | |- safe _ (match ?x with _ => _ end) => destruct x
        end ].

    Lemma s_sequenceFirsts_loop seq : sym_ok seq -> forall n res found, safe any (psequenceFirsts_loop rm fi seq n res found).
    Proof. intros H. induction n as [|n IH]; intros res found; cbn [psequenceFirsts_loop]; sf. Qed.
    Lemma s_sequenceFirsts seq : sym_ok seq -> safe any (psequenceFirsts rm fi seq).
    Proof. intros H. apply s_sequenceFirsts_loop, H. Qed.
    Hint Resolve s_sequenceFirsts : safe.
    Lemma s_substitutionFirsts_loop seqs : seq_ok seqs -> forall n res, safe any (psubstitutionFirsts_loop rm fi seqs n res).
    Proof. intros H. induction n as [|n IH]; intros res; cbn [psubstitutionFirsts_loop]; sf. Qed.
    Hint Resolve s_substitutionFirsts_loop : safe.
    Lemma s_ruleFirsts i ch : safe any (pruleFirsts g rc rm fi i ch).
    Proof. unfold pruleFirsts. sf. Qed.
    Hint Resolve s_ruleFirsts : safe.
    Lemma s_firsts_round : forall idxs ch, safe any (pfirsts_round g rc rm fi idxs ch).
    Proof. induction idxs as [|i idxs IH]; intros ch; cbn [pfirsts_round]; sf. Qed.
    Hint Resolve s_firsts_round : safe.
    Lemma s_findFirsts : forall fuel, safe any (pfindFirsts g rc rm fi fuel).
    Proof. induction fuel as [|fuel IH]; cbn [pfindFirsts]; sf. Qed.
    Hint Resolve s_findFirsts : safe.
    Lemma s_symbolFirsts s : safe any (psymbolFirsts rm fi s).
    Proof. unfold psymbolFirsts. sf. Qed.
    Hint Resolve s_symbolFirsts : safe.
    Lemma s_add_follows i x : safe any (padd_follows fo i x).
    Proof. unfold padd_follows. sf. Qed.
    Hint Resolve s_add_follows : safe.
    Lemma s_follows_inner ri seq si : sym_ok seq -> forall i ch, safe any (pfollows_inner g rm fi fo ri seq si i ch).
    Proof. intros H. induction i as [|i IH]; intros ch; cbn [pfollows_inner]; cbv zeta; sf. Qed.
    Hint Resolve s_follows_inner : safe.
    Lemma s_ruleFollowsInSequence ri seq si ch : sym_ok seq -> safe any (pruleFollowsInSequence g rm fi fo ri seq si ch).
    Proof. intros H. unfold pruleFollowsInSequence. cbv zeta. sf. Qed.
    Hint Resolve s_ruleFollowsInSequence : safe.
    Lemma s_follows_sequences ri seqs ai : seq_ok seqs -> forall n ch, safe any (pfollows_sequences g rm fi fo ri seqs n ai ch).
    Proof. intros H. induction n as [|n IH]; intros ch; cbn [pfollows_sequences]; sf. Qed.
    Hint Resolve s_follows_sequences : safe.
    Lemma s_ruleFollowsInRule i j ch : safe any (pruleFollowsInRule g rc rm fi fo i j ch).
    Proof. unfold pruleFollowsInRule. sf. Qed.
    Hint Resolve s_ruleFollowsInRule : safe.
    Lemma s_follows_round : forall pairs ch, safe any (pfollows_round g rc rm fi fo pairs ch).
    Proof. induction pairs as [|[i j] pairs IH]; intros ch; cbn [pfollows_round]; sf. Qed.
    Hint Resolve s_follows_round : safe.
    Lemma s_follows_loop : forall fuel, safe any (pfollows_loop g rc rm fi fo fuel).
    Proof. induction fuel as [|fuel IH]; cbn [pfollows_loop]; sf. Qed.
    Hint Resolve s_follows_loop : safe.
    Lemma s_findFollows fuel : safe any (pfindFollows g rc rm fi fo fuel).
    Proof. unfold pfindFollows. sf. Qed.
    Hint Resolve s_findFollows : safe.
    Lemma s_fill_follows : forall terms res, safe any (pfill_follows terms res).
    Proof. induction terms as [|t terms IH]; intros res; cbn [pfill_follows]; sf. Qed.
    Hint Resolve s_fill_follows : safe.
    Lemma s_row_append b op res : safe any (prow_append grow b op res).
    Proof. unfold prow_append. cbv zeta. sf. Qed.
    Hint Resolve s_row_append : safe.
    Lemma s_fill_symbols t seq : sym_ok seq -> forall n res, safe any (pfill_symbols grow rm t seq n res).
    Proof. intros H. induction n as [|n IH]; intros res; cbn [pfill_symbols]; sf. Qed.
    Hint Resolve s_fill_symbols : safe.
    Lemma s_fill_firsts seq : sym_ok seq -> forall terms res, safe any (pfill_firsts grow rm terms seq res).
    Proof. intros H. induction terms as [|t terms IH]; intros res; cbn [pfill_firsts]; sf. Qed.
    Hint Resolve s_fill_firsts : safe.
    Lemma s_row_loop ri seqs : seq_ok seqs -> forall n res, safe any (prow_loop grow rm fi fo ri seqs n res).
    Proof. intros H. induction n as [|n IH]; intros res; cbn [prow_loop]; sf. Qed.
    Hint Resolve s_row_loop : safe.
    Lemma s_makeTableRow i : safe any (pmakeTableRow grow g rm fi fo i).
    Proof. unfold pmakeTableRow. sf. Qed.
    Hint Resolve s_makeTableRow : safe.
    Lemma s_makeTable_loop : forall idxs tbl, safe any (pmakeTable_loop grow g rm fi fo idxs tbl).
    Proof. induction idxs as [|i idxs IH]; intros tbl; cbn [pmakeTable_loop]; sf. Qed.
    Hint Resolve s_makeTable_loop : safe.
    Lemma s_Run fuel : safe any (pRun grow g rc rm fi fo fuel).
    Proof. unfold pRun. sf. Qed.
    Lemma s_collect : forall n, safe any (pcollect g n).
    Proof. induction n as [|n IH]; cbn [pcollect]; sf. Qed.
  End Code.

  Lemma safe_FromGrammar grow order fuel g : rule_ok g -> safe any (pFromGrammar grow order fuel g).
  Proof.
    intros H. unfold pFromGrammar. eapply (safe_bind any); [apply s_collect, H|intros hs _]. cbv zeta.
    eapply (safe_bind any); [apply safe_make_sets|intros s _]. eapply (safe_bind any); [apply safe_make_sets|intros t _].
    eapply (safe_bind any); [apply s_Run, H|intros x _]. apply safe_ret.
  Qed.

  Definition xsafe (c : xcall) : Prop := match c with XG p _ => safe any p | XQ _ => True end.
  Lemma xsafe_start j : grammar_job m0 j -> xsafe (xstart j).
  Proof. destruct j as [j|j|j nx]; cbn; [intros (g & H)|auto|intros (g & H)]; eapply safe_FromGrammar, grammar_ok, H. Qed.

  (** The grammars of [m0] are there. *)
  Definition grammars_as (m : gmem) : Prop :=
    gm_rules m = gm_rules m0 /\ gm_seqs m = gm_seqs m0 /\ gm_syms m = gm_syms m0.

  Lemma pstep_grammars {A} (p : prog A) m : grammars_as m -> grammars_as (snd (pstep p m)).
  Proof.
    intros H. destruct p as [r|s i k|s i k|s i k|s i k|s i x k|n k|grow s o k]; cbn [pstep snd]; auto.
    - destruct (slice_set _ _ _ _); exact H.
    - destruct (slice_append _ _ _ _ _); exact H.
  Qed.
  Lemma pstep_safe {A} (P : A -> Prop) (p : prog A) m : grammars_as m -> safe P p -> safe P (fst (pstep p m)).
  Proof.
    intros (E1 & E2 & E3) H. destruct H as [a H|e|q| |s i k H F|s i k H F|s i k H F|s i k F|s i x k F|n k F|grow s o k F]; cbn [pstep fst]; try (constructor; auto; fail).
    - unfold pread. rewrite E1. destruct (slice_get (gm_rules m0) s i) eqn:E; [|constructor]. apply F. eapply H, E.
    - unfold pread. rewrite E2. destruct (slice_get (gm_seqs m0) s i) eqn:E; [|constructor]. apply F. eapply H, E.
    - unfold pread. destruct (slice_get (gm_syms m) s i); [apply F|constructor].
    - unfold pread. destruct (slice_get (gm_sets m) s i); [apply F|constructor].
    - destruct (slice_set _ _ _ _); [exact F|constructor].
    - apply F.
    - destruct (slice_append _ _ _ _ _). apply F.
  Qed.

  Lemma get_kept {T} (h h' : heap T) s i : kept h h' -> at_heap h s -> slice_get h' s i = slice_get h s i.
  Proof.
    intros K [H|H]; unfold slice_get.
    - rewrite H. reflexivity.
    - destruct (nth_error h (sl_arr s)) as [arr|] eqn:E; [rewrite (K _ _ E); reflexivity|]. apply nth_error_None in E. lia.
  Qed.

  Lemma pstep_mix {A} (P : A -> Prop) (p : prog A) mx mr : grammars_as mx -> all_kept m0 mr -> safe P p ->
    pstep p (mix mx mr) = (fst (pstep p mx), mix (snd (pstep p mx)) mr).
  Proof.
    intros (E1 & E2 & E3) (_ & K1 & K2 & K3 & _) H.
    destruct H as [a H|e|q| |s i k H F|s i k H F|s i k H F|s i k F|s i x k F|n k F|grow s o k F]; try reflexivity.
    - cbn. unfold pread. rewrite E1, (get_kept _ _ _ _ K3 (proj1 H)). reflexivity.
    - cbn. unfold pread. rewrite E2, (get_kept _ _ _ _ K2 (proj1 H)). reflexivity.
    - cbn. unfold pread. rewrite E3, (get_kept _ _ _ _ K1 H). reflexivity.
    - cbn [pstep mix gm_sets]. destruct (slice_set _ _ _ _); reflexivity.
    - cbn [pstep mix gm_mem]. destruct (slice_append _ _ _ _ _); reflexivity.
  Qed.

  Lemma xstep_cases (p : gcall) nx : (exists mt names nx', p = PRet (Ok (mt, names)) /\ nx = Some nx') \/
    (forall m, xstep (XG p nx) m = (XG (fst (pstep p m)) nx, snd (pstep p m))).
  Proof.
    destruct p as [[[mt names]|e|q|]|s i k|s i k|s i k|s i k|s i x k|n k|grow s o k];
      try (right; intros M; cbn [xstep]; destruct (pstep _ M); reflexivity).
    destruct nx as [nx|]; [left; eauto 6|right; reflexivity].
  Qed.
  Lemma xstep_mix c mx mr : grammars_as mx -> all_kept m0 mr -> xsafe c ->
    xstep c (mix mx mr) = (fst (xstep c mx), mix (snd (xstep c mx)) mr).
  Proof.
    intros G K S. destruct c as [p nx|p].
    - destruct (xstep_cases p nx) as [(mt & names & nx' & -> & ->)|E]; [reflexivity|].
      rewrite !E. rewrite (pstep_mix any p mx mr G K S). reflexivity.
    - cbn [xstep mix gm_mem]. destruct (qstep p (gm_mem mx)). reflexivity.
  Qed.
  Lemma xstep_safe c m : grammars_as m -> xsafe c -> xsafe (fst (xstep c m)) /\ grammars_as (snd (xstep c m)).
  Proof.
    intros G S. destruct c as [p nx|p].
    - destruct (xstep_cases p nx) as [(mt & names & nx' & -> & ->)|E]; [split; [exact I|exact G]|].
      rewrite E. split; [apply pstep_safe; assumption|apply pstep_grammars, G].
    - cbn [xstep]. destruct (qstep p (gm_mem m)). split; [exact I|exact G].
  Qed.
  Lemma rstep_mix {A} (p : rprog A) mx mr : rstep p (mix mx mr) = (fst (rstep p mr), mix mx (snd (rstep p mr))).
  Proof.
    destruct p as [a|g s x k|g s x k|g s x k]; [reflexivity|..]; cbn [rstep mix gm_syms gm_seqs gm_rules];
      destruct (slice_append _ _ _ _ _); reflexivity.
  Qed.

  (** What a builder is about to access. *)
  Lemma xaccess_grammar c k a w : xsafe c -> xaccess c = Some (XK k, a, w) ->
    match k with KRules | KSeqs | KSyms => a < arrays (XK k) m0 /\ w = false | _ => True end.
  Proof.
    intros S E. destruct c as [p nx|p]; cbn [xaccess] in E.
    - destruct S as [b H|e|q| |s i q H F|s i q H F|s i q H F|s i q F|s i x q F|n q F|grow s o q F]; cbn [gaccess] in E; try discriminate.
      + destruct (Nat.ltb_spec i (sl_len s)); [|discriminate E]. cbn in E; injection E as <- <- <-. cbn. destruct H as [[H|H] _]; [lia|auto].
      + destruct (Nat.ltb_spec i (sl_len s)); [|discriminate E]. cbn in E; injection E as <- <- <-. cbn. destruct H as [[H|H] _]; [lia|auto].
      + destruct (Nat.ltb_spec i (sl_len s)); [|discriminate E]. cbn in E; injection E as <- <- <-. cbn. destruct H as [H|H]; [lia|auto].
      + destruct (Nat.ltb i (sl_len s)); [|discriminate E]. cbn in E; injection E as <- <- <-. exact I.
      + destruct (Nat.ltb i (sl_len s)); [|discriminate E]. cbn in E; injection E as <- <- <-. exact I.
      + destruct (Nat.ltb (sl_len s) (sl_cap s)); [injection E as <- <- <-; exact I|].
        destruct (Nat.ltb 0 (sl_len s)); [injection E as <- <- <-; exact I|discriminate].
    - destruct (qaccess p) as [[[[| |] b] v]|]; cbn in E; try discriminate. injection E as <- <- <-. exact I.
  Qed.
End Safe.

(** ** Both sides *)
Lemma Forall_list_set {X} (P : X -> Prop) (l : list X) : forall i x, Forall P l -> P x -> Forall P (list_set l i x).
Proof. induction l as [|y l IH]; intros [|i] x F H; cbn; inversion F; subst; try constructor; auto. Qed.

(** The run with all of them is the run of the builders and that of the
    converters, side by side. *)
Lemma kept_convs rjobs m0 sched : all_kept m0 (rc_mem (rafter rjobs m0 sched)).
Proof.
  destruct (ConvertConcInv.rinv_after rjobs m0 sched) as (Gs & R). exact (ConvertConcInv.ri_kept _ _ _ _ _ R).
Qed.

Lemma xafter_snoc jobs m sched i : xafter jobs m (sched ++ [i]) = xturn (xafter jobs m sched) i.
Proof. unfold xafter. rewrite fold_left_app. reflexivity. Qed.
Lemma rafter_snoc jobs m sched i : rafter jobs m (sched ++ [i]) = rturn (rafter jobs m sched) i.
Proof. unfold rafter. rewrite fold_left_app. reflexivity. Qed.
Lemma yafter_snoc xjobs rjobs m sched t : yafter xjobs rjobs m (sched ++ [t]) = yturn (yafter xjobs rjobs m sched) t.
Proof. unfold yafter. rewrite fold_left_app. reflexivity. Qed.
Lemma turns_snoc sched t :
  builders_turns (sched ++ [t]) = builders_turns sched ++ match t with inl i => [i] | inr _ => [] end /\
  converters_turns (sched ++ [t]) = converters_turns sched ++ match t with inl _ => [] | inr i => [i] end.
Proof. unfold builders_turns, converters_turns. rewrite !flat_map_app. cbn. rewrite !app_nil_r. auto. Qed.

Lemma y_separate xjobs rjobs m0 sched : Forall (grammar_job m0) xjobs ->
  let cx := xafter xjobs m0 (builders_turns sched) in
  let cr := rafter rjobs m0 (converters_turns sched) in
  yafter xjobs rjobs m0 sched = mkYConfig (xc_calls cx) (rc_calls cr) (mix (xc_mem cx) (rc_mem cr)) /\
  Forall (xsafe m0) (xc_calls cx) /\ grammars_as m0 (xc_mem cx).
Proof.
  intros J. induction sched as [|t sched IH] using rev_ind.
  - cbn. split; [destruct m0; reflexivity|]. split; [|repeat split].
    apply Forall_map. eapply Forall_impl; [|exact J]. intros j. apply xsafe_start.
  - cbv zeta in *. destruct IH as (E & S & G). rewrite yafter_snoc, E.
    destruct (turns_snoc sched t) as [-> ->].
    pose proof (kept_convs rjobs m0 (converters_turns sched)) as K.
    destruct t as [i|i]; rewrite ?app_nil_r, ?xafter_snoc, ?rafter_snoc;
      set (cx := xafter xjobs m0 _) in *; set (cr := rafter rjobs m0 _) in *;
      cbn [yturn y_calls y_mem y_convs].
    + unfold xturn. destruct (nth_error (xc_calls cx) i) as [p|] eqn:Ep; [|auto].
      assert (Sp : xsafe m0 p) by (rewrite Forall_forall in S; apply S; eapply nth_error_In, Ep).
      rewrite (xstep_mix m0 p _ _ G K Sp). destruct (xstep_safe m0 p _ G Sp) as [S' G'].
      destruct (xstep p (xc_mem cx)) as [p' m']. cbn [fst snd xc_calls xc_mem] in *.
      split; [reflexivity|]. split; [|exact G']. apply Forall_list_set; assumption.
    + unfold rturn. destruct (nth_error (rc_calls cr) i) as [p|] eqn:Ep; [|auto].
      rewrite rstep_mix. destruct (rstep p (rc_mem cr)) as [p' m']. auto.
Qed.
