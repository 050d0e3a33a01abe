(** * PipeAllProofs: converting, building and parsing as one run of the builders in
    the memory that the converters will have made. *)
From Verif Require Import Base Cst Ast FromCst SliceMem ParserMem TableGenMem FromCstMem
  TableGen TableGenConc ParserConc PipeConc ConvertConc PipeAll
  Spec_Mem Spec_GenMem Spec_GenConc Spec_ParserConc Spec_PipeConc Spec_ConvertConc Spec_MixConc Spec_PipeAll
  ParserMemProofs TGMem ConvertConcProofs ConvertConcInv.
From Verif Require Import ByteSet Parser.
From Verif Require MixConcProofs Props_ConvertConc.

(** ** Programs that read slices of a kind only *)
Section Safe.
  Variable sym_ok seq_ok rule_ok : slice -> Prop.

  Inductive safe {A} (P : A -> Prop) : prog A -> Prop :=
  | safe_ok a : P a -> safe P (PRet (Ok a))
  | safe_err e : safe P (PRet (Err e))
  | safe_panic p : safe P (PRet (Panic p))
  | safe_nofuel : safe P (PRet NoFuel)
  | safe_rule s i k : rule_ok s -> (forall x, seq_ok (snd x) -> safe P (k x)) -> safe P (PRule s i k)
  | safe_seq s i k : seq_ok s -> (forall x, sym_ok x -> safe P (k x)) -> safe P (PSeq s i k)
  | safe_sym s i k : sym_ok s -> (forall x, safe P (k x)) -> safe P (PSym s i k)
  | safe_set s i k : (forall x, safe P (k x)) -> safe P (PSet s i k)
  | safe_write s i x k : safe P k -> safe P (PWrite s i x k)
  | safe_make n k : (forall s, safe P (k s)) -> safe P (PMake n k)
  | safe_append grow s o k : (forall t, safe P (k t)) -> safe P (PAppend grow s o k).

  Definition any {A} : A -> Prop := fun _ => True.
  Lemma safe_bind {A B} (P : A -> Prop) (Q : B -> Prop) p f :
    safe P p -> (forall a, P a -> safe Q (f a)) -> safe Q (pbind p f).
  Proof. intros H. induction H; intros F; cbn [pbind]; try (constructor; auto; fail). apply F. assumption. Qed.
  Lemma safe_ret {A} (r : tgres A) : safe any (PRet r).
  Proof. destruct r; constructor. exact I. Qed.
  Lemma safe_p_rule s i : rule_ok s -> safe (fun x => seq_ok (snd x)) (p_rule s i).
  Proof. intros H. constructor; [exact H|]. intros x Hx. constructor. exact Hx. Qed.
  Lemma safe_p_seq s i : seq_ok s -> safe sym_ok (p_seq s i).
  Proof. intros H. constructor; [exact H|]. intros x Hx. constructor. exact Hx. Qed.
  Lemma safe_p_sym s i : sym_ok s -> safe any (p_sym s i).
  Proof. intros H. constructor; [exact H|]. intros x. apply safe_ret. Qed.
  Lemma safe_p_set s i : safe any (p_set s i).
  Proof. constructor. intros x. apply safe_ret. Qed.
  Lemma safe_p_write s i x : safe any (p_write s i x).
  Proof. constructor. apply safe_ret. Qed.
  Lemma safe_make_sets n : safe any (pmake_sets n).
  Proof. constructor. intros s. apply safe_ret. Qed.
  Lemma safe_p_append grow s o : safe any (p_append grow s o).
  Proof. constructor. intros s'. apply safe_ret. Qed.

  Section Code.
    Variable grow : nat -> nat.
    Variable g : slice.
    Hypothesis g_ok : rule_ok g.
    Variable rc : nat.
    Variable rm : list (bytes * nat).
    Variable fi fo : slice.

    Ltac sf := repeat first
      [ apply safe_ret
      | (apply safe_p_sym; assumption) | apply safe_p_set | apply safe_p_write | apply safe_p_append
      | match goal with IH : context [safe] |- _ => apply IH; assumption end
      | solve [auto with safe]
      | match goal with
        | |- safe _ (pbind (p_rule _ _) _) =>
            eapply (safe_bind (fun x => seq_ok (snd x))); [apply safe_p_rule; assumption|intros ? ?]
        | |- safe _ (pbind (p_seq _ _) _) =>
            eapply (safe_bind sym_ok); [apply safe_p_seq; assumption|intros ? ?]
        | |- safe _ (pbind _ _) => eapply (safe_bind any); [|intros ? _]
        | |- safe _ (match ?x with _ => _ end) => destruct x
        end ].

    Lemma s_sequenceFirsts_loop seq : sym_ok seq -> forall n res found, safe any (psequenceFirsts_loop rm fi seq n res found).
    Proof. intros H. induction n as [|n IH]; intros res found; cbn [psequenceFirsts_loop]; sf. Qed.
    Lemma s_sequenceFirsts seq : sym_ok seq -> safe any (psequenceFirsts rm fi seq).
    Proof. intros H. apply s_sequenceFirsts_loop, H. Qed.
    Hint Resolve s_sequenceFirsts : safe.
    Lemma s_substitutionFirsts_loop seqs : seq_ok seqs -> forall n res, safe any (psubstitutionFirsts_loop rm fi seqs n res).
    Proof. intros H. induction n as [|n IH]; intros res; cbn [psubstitutionFirsts_loop]; sf. Qed.
    Hint Resolve s_substitutionFirsts_loop : safe.
    Lemma s_ruleFirsts i ch : safe any (pruleFirsts g rc rm fi i ch).
    Proof. unfold pruleFirsts. sf. Qed.
    Hint Resolve s_ruleFirsts : safe.
    Lemma s_firsts_round : forall idxs ch, safe any (pfirsts_round g rc rm fi idxs ch).
    Proof. induction idxs as [|i idxs IH]; intros ch; cbn [pfirsts_round]; sf. Qed.
    Hint Resolve s_firsts_round : safe.
    Lemma s_findFirsts : forall fuel, safe any (pfindFirsts g rc rm fi fuel).
    Proof. induction fuel as [|fuel IH]; cbn [pfindFirsts]; sf. Qed.
    Hint Resolve s_findFirsts : safe.
    Lemma s_symbolFirsts s : safe any (psymbolFirsts rm fi s).
    Proof. unfold psymbolFirsts. sf. Qed.
    Hint Resolve s_symbolFirsts : safe.
    Lemma s_add_follows i x : safe any (padd_follows fo i x).
    Proof. unfold padd_follows. sf. Qed.
    Hint Resolve s_add_follows : safe.
    Lemma s_follows_inner ri seq si : sym_ok seq -> forall i ch, safe any (pfollows_inner g rm fi fo ri seq si i ch).
    Proof. intros H. induction i as [|i IH]; intros ch; cbn [pfollows_inner]; cbv zeta; sf. Qed.
    Hint Resolve s_follows_inner : safe.
    Lemma s_ruleFollowsInSequence ri seq si ch : sym_ok seq -> safe any (pruleFollowsInSequence g rm fi fo ri seq si ch).
    Proof. intros H. unfold pruleFollowsInSequence. cbv zeta. sf. Qed.
    Hint Resolve s_ruleFollowsInSequence : safe.
    Lemma s_follows_sequences ri seqs ai : seq_ok seqs -> forall n ch, safe any (pfollows_sequences g rm fi fo ri seqs n ai ch).
    Proof. intros H. induction n as [|n IH]; intros ch; cbn [pfollows_sequences]; sf. Qed.
    Hint Resolve s_follows_sequences : safe.
    Lemma s_ruleFollowsInRule i j ch : safe any (pruleFollowsInRule g rc rm fi fo i j ch).
    Proof. unfold pruleFollowsInRule. sf. Qed.
    Hint Resolve s_ruleFollowsInRule : safe.
    Lemma s_follows_round : forall pairs ch, safe any (pfollows_round g rc rm fi fo pairs ch).
    Proof. induction pairs as [|[i j] pairs IH]; intros ch; cbn [pfollows_round]; sf. Qed.
    Hint Resolve s_follows_round : safe.
    Lemma s_follows_loop : forall fuel, safe any (pfollows_loop g rc rm fi fo fuel).
    Proof. induction fuel as [|fuel IH]; cbn [pfollows_loop]; sf. Qed.
    Hint Resolve s_follows_loop : safe.
    Lemma s_findFollows fuel : safe any (pfindFollows g rc rm fi fo fuel).
    Proof. unfold pfindFollows. sf. Qed.
    Hint Resolve s_findFollows : safe.
    Lemma s_fill_follows : forall terms res, safe any (pfill_follows terms res).
    Proof. induction terms as [|t terms IH]; intros res; cbn [pfill_follows]; sf. Qed.
    Hint Resolve s_fill_follows : safe.
    Lemma s_row_append b op res : safe any (prow_append grow b op res).
    Proof. unfold prow_append. cbv zeta. sf. Qed.
    Hint Resolve s_row_append : safe.
    Lemma s_fill_symbols t seq : sym_ok seq -> forall n res, safe any (pfill_symbols grow rm t seq n res).
    Proof. intros H. induction n as [|n IH]; intros res; cbn [pfill_symbols]; sf. Qed.
    Hint Resolve s_fill_symbols : safe.
    Lemma s_fill_firsts seq : sym_ok seq -> forall terms res, safe any (pfill_firsts grow rm terms seq res).
    Proof. intros H. induction terms as [|t terms IH]; intros res; cbn [pfill_firsts]; sf. Qed.
    Hint Resolve s_fill_firsts : safe.
    Lemma s_row_loop ri seqs : seq_ok seqs -> forall n res, safe any (prow_loop grow rm fi fo ri seqs n res).
    Proof. intros H. induction n as [|n IH]; intros res; cbn [prow_loop]; sf. Qed.
    Hint Resolve s_row_loop : safe.
    Lemma s_makeTableRow i : safe any (pmakeTableRow grow g rm fi fo i).
    Proof. unfold pmakeTableRow. sf. Qed.
    Hint Resolve s_makeTableRow : safe.
    Lemma s_makeTable_loop : forall idxs tbl, safe any (pmakeTable_loop grow g rm fi fo idxs tbl).
    Proof. induction idxs as [|i idxs IH]; intros tbl; cbn [pmakeTable_loop]; sf. Qed.
    Hint Resolve s_makeTable_loop : safe.
    Lemma s_Run fuel : safe any (pRun grow g rc rm fi fo fuel).
    Proof. unfold pRun. sf. Qed.
    Lemma s_collect : forall n, safe any (pcollect g n).
    Proof. induction n as [|n IH]; cbn [pcollect]; sf. Qed.
  End Code.

  Lemma safe_FromGrammar grow order fuel g : rule_ok g -> safe any (pFromGrammar grow order fuel g).
  Proof.
    intros H. unfold pFromGrammar. eapply (safe_bind any); [apply s_collect, H|intros hs _]. cbv zeta.
    eapply (safe_bind any); [apply safe_make_sets|intros s _]. eapply (safe_bind any); [apply safe_make_sets|intros t _].
    eapply (safe_bind any); [apply s_Run, H|intros x _]. apply safe_ret.
  Qed.

  Definition xsafe (c : xcall) : Prop := match c with XG p _ => safe any p | XQ _ => True end.

  (** The builders' memory [mx], and the converters' [mr]. *)
  Section Step.
    Variable mx mr : gmem.
    Hypothesis HR : forall s i, rule_ok s -> slice_get (gm_rules mr) s i = slice_get (gm_rules mx) s i.
    Hypothesis HQ : forall s i, seq_ok s -> slice_get (gm_seqs mr) s i = slice_get (gm_seqs mx) s i.
    Hypothesis HS : forall s i, sym_ok s -> slice_get (gm_syms mr) s i = slice_get (gm_syms mx) s i.
    Hypothesis HRx : forall s i x, rule_ok s -> slice_get (gm_rules mx) s i = Some x -> seq_ok (snd x).
    Hypothesis HQx : forall s i x, seq_ok s -> slice_get (gm_seqs mx) s i = Some x -> sym_ok x.

    Lemma pstep_mix {A} (P : A -> Prop) (p : prog A) : safe P p ->
      pstep p (mix mx mr) = (fst (pstep p mx), mix (snd (pstep p mx)) mr) /\ safe P (fst (pstep p mx)).
    Proof.
      intros H. destruct H as [a H|e|q| |s i k H F|s i k H F|s i k H F|s i k F|s i x k F|n k F|grow s o k F];
        try (split; [reflexivity|constructor; auto; fail]).
      - cbn. unfold pread. rewrite (HR s i H). split; [reflexivity|].
        destruct (slice_get (gm_rules mx) s i) eqn:E; [apply F; eapply HRx; eassumption|constructor].
      - cbn. unfold pread. rewrite (HQ s i H). split; [reflexivity|].
        destruct (slice_get (gm_seqs mx) s i) eqn:E; [apply F; eapply HQx; eassumption|constructor].
      - cbn. unfold pread. rewrite (HS s i H). split; [reflexivity|].
        destruct (slice_get (gm_syms mx) s i); [apply F|constructor].
      - cbn. unfold pread. split; [reflexivity|]. destruct (slice_get (gm_sets mx) s i); [apply F|constructor].
      - cbn [pstep mix gm_sets]. destruct (slice_set _ _ _ _); (split; [reflexivity|]); [exact F|constructor].
      - split; [reflexivity|]. apply F.
      - cbn [pstep mix gm_mem]. destruct (slice_append _ _ _ _ _). split; [reflexivity|]. apply F.
    Qed.
    Lemma xstep_mix c : xsafe c ->
      xstep c (mix mx mr) = (fst (xstep c mx), mix (snd (xstep c mx)) mr) /\ xsafe (fst (xstep c mx)).
    Proof.
      intros S. destruct c as [p nx|p].
      - destruct (MixConcProofs.xstep_cases p nx) as [(mt & names & nx' & -> & ->)|E]; [split; [reflexivity|exact I]|].
        rewrite !E. destruct (pstep_mix any p S) as [-> S']. split; [reflexivity|exact S'].
      - cbn [xstep mix gm_mem]. destruct (qstep p (gm_mem mx)). split; [reflexivity|exact I].
    Qed.
  End Step.

  Lemma xaccess_grammar c k a w : xsafe c -> xaccess c = Some (XK k, a, w) ->
    match k with
    | KRules => exists s, rule_ok s /\ sl_arr s = a /\ 0 < sl_len s /\ w = false
    | KSeqs => exists s, seq_ok s /\ sl_arr s = a /\ 0 < sl_len s /\ w = false
    | KSyms => exists s, sym_ok s /\ sl_arr s = a /\ 0 < sl_len s /\ w = false
    | _ => True
    end.
  Proof.
    intros S E. destruct c as [p nx|p]; cbn [xaccess] in E.
    - destruct S as [b H|e|q| |s i q H F|s i q H F|s i q H F|s i q F|s i x q F|n q F|grow s o q F]; cbn [gaccess] in E; try discriminate.
      + destruct (Nat.ltb_spec i (sl_len s)); [|discriminate E]. cbn in E; injection E as <- <- <-. cbn. exists s. repeat split; auto; lia.
      + destruct (Nat.ltb_spec i (sl_len s)); [|discriminate E]. cbn in E; injection E as <- <- <-. cbn. exists s. repeat split; auto; lia.
      + destruct (Nat.ltb_spec i (sl_len s)); [|discriminate E]. cbn in E; injection E as <- <- <-. cbn. exists s. repeat split; auto; lia.
      + destruct (Nat.ltb i (sl_len s)); [|discriminate E]. cbn in E; injection E as <- <- <-. exact I.
      + destruct (Nat.ltb i (sl_len s)); [|discriminate E]. cbn in E; injection E as <- <- <-. exact I.
      + destruct (Nat.ltb (sl_len s) (sl_cap s)); [injection E as <- <- <-; exact I|].
        destruct (Nat.ltb 0 (sl_len s)); [injection E as <- <- <-; exact I|discriminate].
    - destruct (qaccess p) as [[[[| |] b] v]|]; cbn in E; try discriminate. injection E as <- <- <-. exact I.
  Qed.
End Safe.

(** What a step of a builder leaves of the grammars. *)
Lemma xstep_grammars c m :
  gm_rules (snd (xstep c m)) = gm_rules m /\ gm_seqs (snd (xstep c m)) = gm_seqs m /\ gm_syms (snd (xstep c m)) = gm_syms m.
Proof.
  destruct c as [p nx|p].
  - destruct (MixConcProofs.xstep_cases p nx) as [(mt & names & nx' & -> & ->)|E]; [auto|]. rewrite E. cbn [snd].
    exact (MixConcProofs.pstep_grammars m p m (conj eq_refl (conj eq_refl eq_refl))).
  - cbn [xstep]. destruct (qstep p (gm_mem m)). auto.
Qed.

(** ** The converters by themselves: what stays as it is *)
Section Steady.
  Variable rjobs : list rjob.
  Variable m0 : gmem.
  Definition rmem (q : list nat) : gmem := rc_mem (rafter rjobs m0 q).
  Definition rcalls (q : list nat) : list rcall := rc_calls (rafter rjobs m0 q).

  (** From [pre] on nobody changes the slice, or is about to write to its array. *)
  Definition steady {T} (h : gmem -> heap T) (kd : rkind) (pre : list nat) (s : slice) : Prop :=
    (forall q i, slice_get (h (rmem (pre ++ q))) s i = slice_get (h (rmem pre)) s i) /\
    (forall q k p a, nth_error (rcalls (pre ++ q)) k = Some p -> raccess p = Some (kd, a, true) ->
       0 < sl_len s -> sl_arr s <> a).
  Definition sym_ok pre s := steady gm_syms RKSyms pre s.
  Definition seq_ok pre s := steady gm_seqs RKSeqs pre s /\
    forall i x, slice_get (gm_seqs (rmem pre)) s i = Some x -> sym_ok pre x.
  Definition rule_ok pre s := steady gm_rules RKRules pre s /\
    forall i x, slice_get (gm_rules (rmem pre)) s i = Some x -> seq_ok pre (snd x).

  Lemma all_kept_r q : all_kept m0 (rmem q).
  Proof. apply MixConcProofs.kept_convs. Qed.

  (** Grammars that were there at the start. *)
  Lemma steady_old {T} (h : gmem -> heap T) kd s xs :
    (forall q, kept (h m0) (h (rmem q))) ->
    (forall q k p a, nth_error (rcalls q) k = Some p -> raccess p = Some (kd, a, true) -> length (h m0) <= a) ->
    holds (h m0) s xs -> steady h kd [] s.
  Proof.
    intros K W H. split.
    - intros q i. cbn [app]. rewrite (holds_get _ _ _ i (holds_untouched _ _ _ _ (K q) H)).
      change (rmem []) with m0. rewrite (holds_get _ _ _ i H). reflexivity.
    - intros q k p a Ep Ea L E. cbn [app] in Ep. specialize (W q k p a Ep Ea).
      destruct (MixConcProofs.holds_at _ _ _ H) as [X|X]; lia.
  Qed.
  Lemma rule_ok_old mg g : grammar_in m0 mg g -> rule_ok [] mg.
  Proof.
    intros (mrs & H & F). split.
    - eapply (steady_old gm_rules); [intros q; apply all_kept_r| |exact H].
      intros q k p a Ep Ea. exact (Props_ConvertConc.C117_writes_own _ _ _ _ _ _ _ Ep Ea).
    - intros i x E. destruct (MixConcProofs.Forall2_left _ _ _ _ F (MixConcProofs.holds_in _ _ _ _ _ H E)) as (r & _ & seqs & Hs & Fs).
      split.
      + eapply (steady_old gm_seqs); [intros q; apply all_kept_r| |exact Hs].
        intros q k p a Ep Ea. exact (Props_ConvertConc.C117_writes_own _ _ _ _ _ _ _ Ep Ea).
      + intros k y E'. destruct (MixConcProofs.Forall2_left _ _ _ _ Fs (MixConcProofs.holds_in _ _ _ _ _ Hs E')) as (z & Hz).
        eapply (steady_old gm_syms); [intros q; apply all_kept_r| |exact Hz].
        intros q l p a Ep Ea. exact (Props_ConvertConc.C117_writes_own _ _ _ _ _ _ _ Ep Ea).
  Qed.

  (** Grammars that a converter has returned. *)
  Lemma rinv_fold Qs more : forall c Gs, rinv m0 Qs (rc_calls c) (rc_mem c) Gs ->
    exists Gs', rinv m0 Qs (rc_calls (fold_left rturn more c)) (rc_mem (fold_left rturn more c)) Gs'.
  Proof.
    induction more as [|i more IH]; intros c Gs R; [exists Gs; exact R|]. cbn [fold_left].
    destruct c as [ps M]. destruct (rinv_turn m0 Qs ps M Gs i R) as (Gs' & R'). exact (IH _ Gs' R').
  Qed.

  Lemma returned_steady pre i j rules g : nth_error rjobs i = Some j ->
    ToAST (r_bindings j) (r_root j) (r_str j) = Ok g ->
    nth_error (rcalls pre) i = Some (RRet (Ok rules)) ->
    exists (L : list (mrule * list (slice * list symbol))) Qs, forall q, exists Gs,
      rinv m0 Qs (rcalls (pre ++ q)) (rmem (pre ++ q)) Gs /\
      nth_error Gs i = Some (mkGhost (concat (map snd L)) (map (fun l => (snd (fst l), map fst (snd l))) L) [(rules, map fst L)]).
  Proof.
    intros Ej Et Er. destruct (rinv_after rjobs m0 pre) as (Gs & R).
    destruct (rinv_ghost _ _ _ _ _ _ _ R Er) as (G & EG & (G0 & Lg & H)). pose proof (H j Ej) as C. rewrite Et in C. cbn in C.
    destruct C as (L & EL & _).
    assert (W0 : wp (RRet (Ok rules)) G0 (rwant rjobs i)) by (apply wp_ret, H).
    pose proof (rinv_weaken _ _ _ _ _ _ _ _ _ R Er EG Lg W0) as R0.
    set (Qs := fun k (_ : gores fcerror slice) (G : ghost) => k = i -> G = G0).
    assert (E0 : nth_error (list_set Gs i G0) i = Some G0) by (eapply list_set_at, EG).
    exists L, Qs. intros q.
    assert (R1 : rinv m0 Qs (rc_calls (rafter rjobs m0 pre)) (rc_mem (rafter rjobs m0 pre)) (list_set Gs i G0)).
    { destruct R0 as [A1 A2 A3 A4 A5 A6]. split; auto. intros k p G1 Ep E1. destruct (Nat.eq_dec k i) as [->|N].
      - rewrite E0 in E1. injection E1 as <-. unfold rcalls in Er. rewrite Er in Ep. injection Ep as <-. apply wp_ret. intros _. reflexivity.
      - eapply wp_conseq; [|eapply A2; eassumption]. intros x G' _ X. contradiction. }
    destruct (rinv_fold Qs q _ _ R1) as (Gs2 & R2).
    pose proof (Props_ConvertConc.C117_final rjobs m0 pre q i (Ok rules) Er) as Er2.
    assert (X : fold_left rturn q (rafter rjobs m0 pre) = rafter rjobs m0 (pre ++ q)) by (unfold rafter; rewrite fold_left_app; reflexivity).
    rewrite X in R2. destruct (rinv_ghost _ _ _ _ _ _ _ R2 Er2) as (G2 & EG2 & (G3 & L3 & H3)).
    specialize (H3 eq_refl). subst G3.
    assert (W3 : wp (RRet (Ok rules)) G0 (Qs i)) by (apply wp_ret; intros _; reflexivity).
    exists (list_set Gs2 i G0). split; [eapply rinv_weaken; eassumption|].
    rewrite (list_set_at _ _ _ G0 EG2), EL. reflexivity.
  Qed.

  Lemma area_in {T} base (h : heap T) (f : ghost -> owned T) Gs i G s xs :
    area base h (concat (map f Gs)) -> nth_error Gs i = Some G -> In (s, xs) (f G) -> holds h s xs.
  Proof.
    intros [F _] E I. rewrite Forall_forall in F. apply (F (s, xs)). apply in_concat. exists (f G).
    split; [apply in_map; eapply nth_error_In, E|exact I].
  Qed.

  Section Returned.
    Variable pre : list nat.
    Variable i : nat.
    Variable r : gores fcerror slice.
    Hypothesis Er : nth_error (rcalls pre) i = Some (RRet r).
    Variable G0 : ghost.
    Variable Qs : nat -> gores fcerror slice -> ghost -> Prop.
    Hypothesis F : forall q, exists Gs, rinv m0 Qs (rcalls (pre ++ q)) (rmem (pre ++ q)) Gs /\ nth_error Gs i = Some G0.

    Lemma steady_new {T} (h : gmem -> heap T) kd s xs :
      (forall q, holds (h (rmem (pre ++ q))) s xs) -> In s (Props_ConvertConc.ghost_slices kd G0) -> steady h kd pre s.
    Proof.
      intros H I. split.
      - intros q k. rewrite (holds_get _ _ _ k (H q)). pose proof (H []) as H0. rewrite app_nil_r in H0.
        rewrite (holds_get _ _ _ k H0). reflexivity.
      - intros q k p a Ep Ea L. destruct (F q) as (Gs & R & EG).
        pose proof (Props_ConvertConc.C117_final rjobs m0 pre q i r Er) as Er2.
        assert (N : i <> k).
        { intros <-. unfold rcalls in Ep. rewrite Er2 in Ep. injection Ep as <-. discriminate. }
        destruct (Props_ConvertConc.access_owned _ _ _ _ _ _ _ _ _ _ R Ep Ea) as (Gs' & G & s' & R' & EG' & Is' & Cs' & Es' & Fr).
        rewrite <- Fr in EG by exact N. pose proof (Props_ConvertConc.rinv_own _ _ _ _ _ kd R') as O.
        rewrite <- Es'. eapply (Props_ConvertConc.own_lists _ _ i k _ _ s s' O N
          (map_nth_error (Props_ConvertConc.ghost_slices kd) _ _ EG) (map_nth_error (Props_ConvertConc.ghost_slices kd) _ _ EG') I Is'); [|exact Cs'].
        destruct (H []) as ((Lc & _) & _). lia.
    Qed.
    Lemma steady_s s xs : In (s, xs) (g_s G0) -> sym_ok pre s.
    Proof.
      intros I. eapply (steady_new gm_syms); [|cbn; change s with (fst (s, xs)); apply in_map, I].
      intros q. destruct (F q) as (Gs & R & E). eapply (area_in _ _ g_s); [apply (ri_s _ _ _ _ _ R)|exact E|exact I].
    Qed.
    Lemma steady_q s xs : In (s, xs) (g_q G0) -> steady gm_seqs RKSeqs pre s /\ holds (gm_seqs (rmem pre)) s xs.
    Proof.
      intros I. assert (H : forall q, holds (gm_seqs (rmem (pre ++ q))) s xs).
      { intros q. destruct (F q) as (Gs & R & E). eapply (area_in _ _ g_q); [apply (ri_q _ _ _ _ _ R)|exact E|exact I]. }
      split; [|specialize (H []); rewrite app_nil_r in H; exact H].
      eapply (steady_new gm_seqs); [exact H|]. cbn. change s with (fst (s, xs)). apply in_map, I.
    Qed.
    Lemma steady_r s xs : In (s, xs) (g_r G0) -> steady gm_rules RKRules pre s /\ holds (gm_rules (rmem pre)) s xs.
    Proof.
      intros I. assert (H : forall q, holds (gm_rules (rmem (pre ++ q))) s xs).
      { intros q. destruct (F q) as (Gs & R & E). eapply (area_in _ _ g_r); [apply (ri_r _ _ _ _ _ R)|exact E|exact I]. }
      split; [|specialize (H []); rewrite app_nil_r in H; exact H].
      eapply (steady_new gm_rules); [exact H|]. cbn. change s with (fst (s, xs)). apply in_map, I.
    Qed.
  End Returned.

  Lemma rule_ok_new pre i j rules g : nth_error rjobs i = Some j ->
    ToAST (r_bindings j) (r_root j) (r_str j) = Ok g ->
    nth_error (rcalls pre) i = Some (RRet (Ok rules)) -> rule_ok pre rules.
  Proof.
    intros Ej Et Er. destruct (returned_steady pre i j rules g Ej Et Er) as (L & Qs & F).
    destruct (steady_r _ _ _ Er _ _ F rules (map fst L) (or_introl eq_refl)) as [S H]. split; [exact S|].
    intros k x E. apply (MixConcProofs.holds_in _ _ _ _ _ H) in E. apply in_map_iff in E. destruct E as (l & <- & Il).
    destruct (steady_q _ _ _ Er _ _ F (snd (fst l)) (map fst (snd l))) as [S' H'].
    { cbn. apply in_map_iff. exists l. auto. }
    split; [exact S'|]. intros n y E. apply (MixConcProofs.holds_in _ _ _ _ _ H') in E. apply in_map_iff in E.
    destruct E as ([s xs] & <- & Ip). apply (steady_s _ _ _ Er _ _ F s xs). cbn. apply in_concat. exists (snd l).
    split; [apply in_map, Il|exact Ip].
  Qed.

  (** What a builder that began at [r0] reads later, and in the end. *)
  Lemma get_later {T} (h : gmem -> heap T) kd r0 q w s i : steady h kd r0 s ->
    slice_get (h (rmem (r0 ++ q))) s i = slice_get (h (rmem ((r0 ++ q) ++ w))) s i.
  Proof. intros [H _]. rewrite <- app_assoc, !H. reflexivity. Qed.
  Lemma get_first {T} (h : gmem -> heap T) kd r0 q w s i : steady h kd r0 s ->
    slice_get (h (rmem ((r0 ++ q) ++ w))) s i = slice_get (h (rmem r0)) s i.
  Proof. intros [H _]. rewrite <- app_assoc. apply H. Qed.

  Definition zsafe (r0 : list nat) (c : xcall) : Prop := xsafe (sym_ok r0) (seq_ok r0) (rule_ok r0) c.

  Lemma zsafe_step r0 q w mx c :
    gm_rules mx = gm_rules (rmem ((r0 ++ q) ++ w)) -> gm_seqs mx = gm_seqs (rmem ((r0 ++ q) ++ w)) ->
    gm_syms mx = gm_syms (rmem ((r0 ++ q) ++ w)) -> zsafe r0 c ->
    xstep c (mix mx (rmem (r0 ++ q))) = (fst (xstep c mx), mix (snd (xstep c mx)) (rmem (r0 ++ q))) /\ zsafe r0 (fst (xstep c mx)).
  Proof.
    intros E1 E2 E3 S. unfold zsafe in *. eapply xstep_mix; [..|exact S].
    - intros s i [H _]. rewrite E1. eapply get_later, H.
    - intros s i [H _]. rewrite E2. eapply get_later, H.
    - intros s i H. rewrite E3. eapply get_later, H.
    - intros s i x [H H'] E. rewrite E1, (get_first _ _ _ _ _ _ _ H) in E. eapply H', E.
    - intros s i x [H H'] E. rewrite E2, (get_first _ _ _ _ _ _ _ H) in E. eapply H', E.
  Qed.
End Steady.

(** ** All goroutines *)
Fixpoint imap {X Y} (f : nat -> X -> Y) (n : nat) (l : list X) : list Y :=
  match l with [] => [] | x :: l => f n x :: imap f (S n) l end.
Lemma imap_nth {X Y} (f : nat -> X -> Y) l : forall n i, nth_error (imap f n l) i = option_map (f (n + i)) (nth_error l i).
Proof.
  induction l as [|x l IH]; intros n [|i]; cbn; try reflexivity; [rewrite Nat.add_0_r; reflexivity|].
  rewrite IH, Nat.add_succ_r. reflexivity.
Qed.

Definition no_job : rjob := mkRJob (fun n => n) SelfCSTtoASTBindings (Node 0 0 0 []) [].
Definition rjob_of (z : zjob) : rjob := match z with ZWork _ => no_job | ZConvert j _ => j end.
Definition no_xjob : xjob := XBuild (mkGJob (fun n => n) (fun l => l) 0 nil_slice).
(** What a goroutine does once the converter has returned this. *)
Definition xjob_of (res : option rcall) (z : zjob) : xjob :=
  match z with
  | ZWork j => j
  | ZConvert _ None => no_xjob
  | ZConvert _ (Some b) =>
      match res with
      | Some (RRet (Ok rules)) =>
          match b_next b with
          | Some nx => XBoth (bjob b rules) nx
          | None => XBuild (bjob b rules)
          end
      | _ => no_xjob
      end
  end.
(** Whether the next step of a goroutine is one of ToAST. *)
Definition conv_turn (c : zconfig) (i : nat) : list nat :=
  match nth_error (zc_calls c) i with
  | Some (ZR (RRet (Ok _)) (Some _)) => []
  | Some (ZR _ _) => [i]
  | _ => []
  end.
Fixpoint conv_turns (c : zconfig) (sched : list nat) : list nat :=
  match sched with
  | [] => []
  | i :: s => conv_turn c i ++ conv_turns (zturn c i) s
  end.
Lemma conv_turns_app s1 : forall c s2, conv_turns c (s1 ++ s2) = conv_turns c s1 ++ conv_turns (fold_left zturn s1 c) s2.
Proof. induction s1 as [|i s1 IH]; intros c s2; [reflexivity|]. cbn. rewrite IH, app_assoc. reflexivity. Qed.

Section All.
  Variable jobs : list zjob.
  Variable m0 : gmem.
  Hypothesis jobs_ok : zjobs_in m0 jobs.
  (** What the converters will have done in the end. *)
  Variable rf : list nat.
  Let rjobs := map rjob_of jobs.
  Let rm := rmem rjobs m0.
  Let rc := rcalls rjobs m0.
  Definition xjobs_of : list xjob := imap (fun i z => xjob_of (nth_error (rc rf) i) z) 0 jobs.
  Definition m1 : gmem := mix m0 (rm rf).

  Lemma xjobs_nth i z : nth_error jobs i = Some z ->
    nth_error xjobs_of i = Some (xjob_of (nth_error (rc rf) i) z).
  Proof. intros E. unfold xjobs_of. rewrite imap_nth, E. reflexivity. Qed.
  Lemma jobs_in i z : nth_error jobs i = Some z -> zjob_in m0 z.
  Proof. intros E. unfold zjobs_in in jobs_ok. rewrite Forall_forall in jobs_ok. eapply jobs_ok, nth_error_In, E. Qed.
  Lemma xjobs_ok : xjobs_in m1 xjobs_of.
  Proof.
    apply Forall_forall. intros x I. apply In_nth_error in I. destruct I as [i E]. unfold xjobs_of in E. rewrite imap_nth in E.
    destruct (nth_error jobs i) as [z|] eqn:Ez; [|discriminate]. injection E as <-. pose proof (jobs_in i z Ez) as J.
    destruct z as [j|j [b|]]; cbn in *.
    - destruct j; apply J.
    - destruct (nth_error (rc rf) i) as [[[rules|e|p|]| | |]|]; try exact I.
      destruct (b_next b); [exact J|exact I].
    - exact I.
  Qed.

  Definition zcall_ok (rp xp : list nat) (i : nat) (z : zjob) (d : zcall) : Prop :=
    let xs := xc_calls (xafter xjobs_of m1 xp) in
    match d with
    | ZR p b => (exists j, z = ZConvert j b) /\ nth_error (rc rp) i = Some p /\
        nth_error xs i = Some (xstart (xjob_of (nth_error (rc rf) i) z))
    | ZX cx => nth_error xs i = Some cx /\
        (exists r0 q, rp = r0 ++ q /\ zsafe rjobs m0 r0 cx) /\
        match z with
        | ZWork _ => True
        | ZConvert j b => exists b' rules, b = Some b' /\ nth_error (rc rp) i = Some (RRet (Ok rules))
        end
    end.

  Record zinv (rp xp : list nat) (c : zconfig) : Prop := mkZInv {
    zi_len : length (zc_calls c) = length jobs;
    zi_mem : zc_mem c = mix (xc_mem (xafter xjobs_of m1 xp)) (rm rp);
    zi_g : gm_rules (xc_mem (xafter xjobs_of m1 xp)) = gm_rules (rm rf) /\
           gm_seqs (xc_mem (xafter xjobs_of m1 xp)) = gm_seqs (rm rf) /\
           gm_syms (xc_mem (xafter xjobs_of m1 xp)) = gm_syms (rm rf);
    zi_calls : forall i z, nth_error jobs i = Some z ->
      exists d, nth_error (zc_calls c) i = Some d /\ zcall_ok rp xp i z d }.

  Lemma zinv_init : zinv [] [] (zall_start jobs m0).
  Proof.
    split.
    - cbn. apply map_length.
    - assert (X : forall m, m = mix m m) by (intros []; reflexivity). change (m0 = mix m0 m0). apply X.
    - cbn. auto.
    - intros i z E. exists (zstart z). split; [cbn; rewrite nth_error_map, E; reflexivity|].
      assert (X : nth_error (xc_calls (xafter xjobs_of m1 [])) i = Some (xstart (xjob_of (nth_error (rc rf) i) z))).
      { cbn. rewrite nth_error_map, (xjobs_nth i z E). reflexivity. }
      destruct z as [j|j b]; cbn [zstart zcall_ok].
      + split; [exact X|]. split; [|exact I]. exists [], []. split; [reflexivity|].
        pose proof (jobs_in i _ E) as [_ J]. destruct j as [j|j|j nx]; cbn in J |- *; [|exact I|]; destruct J as (g & J);
          apply safe_FromGrammar, (rule_ok_old _ _ _ g J).
      + split; [exists j; reflexivity|]. split; [|exact X]. cbn. unfold rjobs. rewrite nth_error_map, nth_error_map, E. reflexivity.
  Qed.

  Lemma calls_snoc_other rp xp k i z d : i <> k -> zcall_ok rp xp i z d -> zcall_ok (rp ++ [k]) xp i z d.
  Proof.
    intros N H.
    assert (X : forall y, nth_error (rc rp) i = Some y -> nth_error (rc (rp ++ [k])) i = Some y).
    { intros y. unfold rc, rcalls. rewrite MixConcProofs.rafter_snoc. unfold rturn.
      destruct (nth_error (rc_calls (rafter rjobs m0 rp)) k) as [p|]; [|auto]. destruct (rstep p _). cbn.
      rewrite list_set_else by congruence. auto. }
    destruct d as [p b|cx]; cbn [zcall_ok] in *.
    - destruct H as (A & B & C). auto.
    - destruct H as (A & (r0 & q & -> & S) & C). split; [exact A|]. split.
      + exists r0, (q ++ [k]). rewrite app_assoc. auto.
      + destruct z; [exact I|]. destruct C as (b' & rules & -> & C). exists b', rules. auto.
  Qed.
  Lemma calls_xsnoc_other rp xp k i z d : i <> k -> zcall_ok rp xp i z d -> zcall_ok rp (xp ++ [k]) i z d.
  Proof.
    intros N H.
    assert (X : forall y, nth_error (xc_calls (xafter xjobs_of m1 xp)) i = Some y ->
      nth_error (xc_calls (xafter xjobs_of m1 (xp ++ [k]))) i = Some y).
    { intros y. rewrite MixConcProofs.xafter_snoc. unfold xturn.
      destruct (nth_error (xc_calls (xafter xjobs_of m1 xp)) k) as [p|]; [|auto]. destruct (xstep p _). cbn.
      rewrite list_set_else by congruence. auto. }
    destruct d as [p b|cx]; cbn [zcall_ok] in *; intuition.
  Qed.

  Lemma zstep_cases p b : (exists rules b', p = RRet (Ok rules) /\ b = Some b') \/
    ((forall m, zstep (ZR p b) m = (ZR (fst (rstep p m)) b, snd (rstep p m))) /\
     (forall c i, nth_error (zc_calls c) i = Some (ZR p b) -> conv_turn c i = [i])).
  Proof.
    destruct p as [[rules|e|q|]|g s x k|g s x k|g s x k];
      try (right; split; [intros m; cbn [zstep]; destruct (rstep _ m); reflexivity|intros c i E; unfold conv_turn; rewrite E; reflexivity]).
    destruct b as [b|]; [left; eauto|right]. split; [reflexivity|]. intros c i E. unfold conv_turn. rewrite E. reflexivity.
  Qed.

  Lemma rule_later rp i w rules : nth_error (rc rp) i = Some (RRet (Ok rules)) -> rf = rp ++ w ->
    nth_error (rc rf) i = Some (RRet (Ok rules)).
  Proof. intros E ->. apply Props_ConvertConc.C117_final, E. Qed.

  Lemma zinv_step rp xp c k w : zinv rp xp c -> rf = (rp ++ conv_turn c k) ++ w ->
    exists xp', zinv (rp ++ conv_turn c k) xp' (zturn c k).
  Proof.
    intros [I1 I2 I3 I4] Ef. unfold zturn. destruct (nth_error (zc_calls c) k) as [d|] eqn:Ed.
    2: { assert (conv_turn c k = []) as -> by (unfold conv_turn; rewrite Ed; reflexivity). rewrite app_nil_r. exists xp. split; auto. }
    assert (Lk : k < length jobs) by (rewrite <- I1; apply nth_error_Some; congruence).
    destruct (nth_error jobs k) as [z|] eqn:Ez; [|apply nth_error_None in Ez; lia].
    destruct (I4 k z Ez) as (d' & Ed' & D). rewrite Ed in Ed'. injection Ed' as <-.
    destruct d as [p b|cx].
    - destruct D as ((j & ->) & Ep & Ex). destruct (zstep_cases p b) as [(rules & b' & -> & ->)|[Es Et]].
      + (* from the grammar to the table *)
        assert (conv_turn c k = []) as Ct by (unfold conv_turn; rewrite Ed; reflexivity). rewrite Ct, app_nil_r in *.
        exists xp. cbn [zstep]. split; [cbn; rewrite list_set_length; exact I1|exact I2|exact I3|].
        intros i z Ei. cbn [zc_calls]. destruct (Nat.eq_dec k i) as [<-|N].
        * rewrite Ez in Ei. injection Ei as <-. eexists. split; [eapply list_set_at, Ed|].
          pose proof (rule_later rp k w rules Ep Ef) as El. cbn [zcall_ok]. rewrite Ex. rewrite El. cbn [xjob_of].
          split; [destruct (b_next b'); reflexivity|]. split; [|eauto].
          exists rp, []. split; [symmetry; apply app_nil_r|]. cbn [xsafe zsafe].
          unfold zsafe, xsafe, gstart. apply safe_FromGrammar. cbn [bjob g_rules].
          pose proof (Props_ConvertConc.C117_results rjobs m0 rp k j (Ok rules)) as X. cbv zeta in X.
          assert (Ej : nth_error rjobs k = Some j) by (unfold rjobs; rewrite nth_error_map, Ez; reflexivity).
          specialize (X Ej Ep). destruct (ToAST (r_bindings j) (r_root j) (r_str j)) as [g|?|?|] eqn:Eg; try contradiction.
          eapply rule_ok_new; eassumption.
        * destruct (I4 i z Ei) as (d & E' & D'). exists d. split; [rewrite list_set_else by exact N; exact E'|exact D'].
      + (* a step of ToAST *)
        rewrite (Et c k Ed) in *. exists xp. rewrite Es.
        assert (R : rafter rjobs m0 (rp ++ [k]) = mkRConfig (list_set (rc rp) k (fst (rstep p (rm rp)))) (snd (rstep p (rm rp)))).
        { rewrite MixConcProofs.rafter_snoc. unfold rturn. unfold rc, rcalls in Ep. rewrite Ep. unfold rc, rm, rcalls, rmem.
          destruct (rstep p _). reflexivity. }
        rewrite I2, MixConcProofs.rstep_mix. cbn [fst snd].
        split; [cbn; rewrite list_set_length; exact I1| |exact I3|].
        * cbn [zc_mem]. unfold rm at 2, rmem. rewrite R. reflexivity.
        * intros i z Ei. cbn [zc_calls]. destruct (Nat.eq_dec k i) as [<-|N].
          -- rewrite Ez in Ei. injection Ei as <-. eexists. split; [eapply list_set_at, Ed|]. cbn [zcall_ok].
             split; [eauto|]. split; [|exact Ex]. unfold rc at 1, rcalls. rewrite R. cbn. eapply list_set_at, Ep.
          -- destruct (I4 i z Ei) as (d & E' & D'). exists d. split; [rewrite list_set_else by exact N; exact E'|].
             apply calls_snoc_other; auto.
    - (* a step of what comes after *)
      assert (conv_turn c k = []) as Ct by (unfold conv_turn; rewrite Ed; reflexivity). rewrite Ct, app_nil_r in *.
      destruct D as (Ex & (r0 & q & -> & S) & C). exists (xp ++ [k]). cbn [zstep]. rewrite I2.
      destruct I3 as (G1 & G2 & G3). rewrite Ef in G1, G2, G3.
      destruct (zsafe_step rjobs m0 r0 q w _ cx G1 G2 G3 S) as [E S']. unfold rm. rewrite E.
      assert (X : xafter xjobs_of m1 (xp ++ [k]) = mkXConfig (list_set (xc_calls (xafter xjobs_of m1 xp)) k (fst (xstep cx (xc_mem (xafter xjobs_of m1 xp)))))
        (snd (xstep cx (xc_mem (xafter xjobs_of m1 xp))))).
      { rewrite MixConcProofs.xafter_snoc. unfold xturn. rewrite Ex. clear. generalize (xstep cx (xc_mem (xafter xjobs_of m1 xp))). intros []. reflexivity. }
      split; [cbn; rewrite list_set_length; exact I1| | |].
      + cbn [zc_mem]. rewrite X. reflexivity.
      + rewrite X. cbn [xc_mem]. destruct (xstep_grammars cx (xc_mem (xafter xjobs_of m1 xp))) as (-> & -> & ->).
        rewrite Ef. auto.
      + intros i z' Ei. cbn [zc_calls]. destruct (Nat.eq_dec k i) as [<-|N].
        * rewrite Ez in Ei. injection Ei as <-. eexists. split; [eapply list_set_at, Ed|]. cbn [zcall_ok].
          split; [rewrite X; cbn; eapply list_set_at, Ex|]. split; [exists r0, q; auto|exact C].
        * destruct (I4 i z' Ei) as (d & E' & D'). exists d. split; [rewrite list_set_else by exact N; exact E'|].
          apply calls_xsnoc_other; auto.
  Qed.

  Lemma zinv_prefix pre : forall post, rf = conv_turns (zall_start jobs m0) (pre ++ post) ->
    exists xp, zinv (conv_turns (zall_start jobs m0) pre) xp (zafter jobs m0 pre).
  Proof.
    induction pre as [|k pre IH] using rev_ind; intros post Ef.
    - exists []. apply zinv_init.
    - rewrite <- app_assoc in Ef. destruct (IH _ Ef) as (xp & H).
      rewrite conv_turns_app in Ef. cbn [app conv_turns] in Ef. fold (zafter jobs m0 pre) in Ef. rewrite app_assoc in Ef.
      destruct (zinv_step _ _ _ k _ H Ef) as (xp' & H'). exists xp'.
      rewrite conv_turns_app. cbn [conv_turns]. rewrite app_nil_r. fold (zafter jobs m0 pre).
      unfold zafter in *. rewrite fold_left_app. exact H'.
  Qed.
End All.
