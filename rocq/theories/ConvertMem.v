(** * ConvertMem: the converter with memory and the one with values agree. *)
From Verif Require Import Base Cst Ast FromCst Spec_Convert WalkProofs ConvertProofs SliceMem ParserMem TableGenMem
  FromCstMem Spec_Mem Spec_GenMem ParserMemProofs TGMem.

(** ** Traversals *)
Fixpoint meach {S} (f : mcallback S) (s : S) (l : list node) : S * stop :=
  match l with
  | [] => (s, Ok tt)
  | n :: l' => match f s n with (s', Ok tt) => meach f s' l' | other => other end
  end.
Lemma meach_app {S} (f : mcallback S) l l' : forall s,
  meach f s (l ++ l') = match meach f s l with (s', Ok tt) => meach f s' l' | other => other end.
Proof.
  induction l as [|n l IH]; intros s; cbn; [reflexivity|]. destruct (f s n) as [s' [[]| | |]]; try reflexivity. apply IH.
Qed.

Section Traverse.
  Context {S : Type}.
  Variable ign srch : Z -> bool.
  Variable f : mcallback S.
  Lemma mwalk_stopped st l : snd st <> Ok tt -> walk_each (mflexVisit ign srch f) tt st l = Ok st.
  Proof.
    intros N. destruct st as [s0 e0]. cbn [snd] in N. induction l as [|n l IH]; [reflexivity|].
    cbn [walk_each]. rewrite walk_eq. unfold mflexVisit at 1. cbn [snd].
    destruct e0 as [[]|e|e|]; [contradiction N; reflexivity|exact IH|exact IH|exact IH].
  Qed.
  Lemma mwalk_outermost n : forall s, walk (mflexVisit ign srch f) tt (s, Ok tt) n = Ok (meach f s (outermost ign srch n)).
  Proof.
    induction n as [ty p q childs IH] using node_ind'. intros s. rewrite walk_eq.
    unfold mflexVisit at 1. cbn [fst snd n_type n_childs outermost].
    destruct (ign ty); [reflexivity|]. destruct (srch ty).
    - cbn [meach]. destruct (f s (Node ty p q childs)) as [s' [[]|e|e|]]; reflexivity.
    - revert s. induction childs as [|c l IHl]; intros s; [reflexivity|].
      cbn [walk_each flat_map]. rewrite meach_app. inversion IH as [|? ? Hc Hl]; subst.
      rewrite Hc. destruct (meach f s (outermost ign srch c)) as [s' st] eqn:E. destruct st as [[]|e|e|].
      + apply IHl, Hl.
      + apply mwalk_stopped. discriminate.
      + apply mwalk_stopped. discriminate.
      + apply mwalk_stopped. discriminate.
  Qed.
  Lemma mlrTraverse_each root s : mlrTraverse ign srch f root s = meach f s (outermost ign srch root).
  Proof. unfold mlrTraverse. rewrite mwalk_outermost. reflexivity. Qed.
End Traverse.

(** ** Related traversals: [R] relates the states; [K] is what a panic leaves. *)
Definition related {S1 S2} (R : S1 -> S2 -> Prop) (K : S1 -> Prop) (x : S1 * stop) (y : gop (S2 * option fcerror)) : Prop :=
  match snd x, y with
  | Ok tt, Ok (s2, None) => R (fst x) s2
  | Err e1, Ok (s2, Some e2) => e1 = e2 /\ R (fst x) s2
  | Panic p, Panic q => p = q /\ K (fst x)
  | NoFuel, NoFuel => K (fst x)
  | _, _ => False
  end.

Lemma traverse_related {S1 S2} (R : S1 -> S2 -> Prop) K (f1 : mcallback S1) (f2 : callback S2) b :
  (forall s1 s2 n, R s1 s2 -> related R K (f1 s1 n) (f2 s2 n)) ->
  forall root t s1 s2, R s1 s2 -> related R K (mb_lrTraverse b root t f1 s1) (b_lrTraverse b root t f2 s2).
Proof.
  intros H root t s1 s2 H0. unfold b_lrTraverse, mb_lrTraverse. rewrite lrTraverse_each, mlrTraverse_each.
  revert s1 s2 H0. induction (outermost (isNodeIgnored (IgnoreNodeTypes b)) (fun t0 => (t0 =? t)%Z) root) as [|n l IH];
    intros s1 s2 H0; cbn [each meach]; [exact H0|].
  pose proof (H s1 s2 n H0) as Hn. unfold related in Hn.
  destruct (f1 s1 n) as [s1' [[]|e1|p1|]], (f2 s2 n) as [[s2' [e2|]]|[]|p2|]; cbn [fst snd] in Hn; try contradiction.
  - apply IH, Hn.
  - exact Hn.
  - exact Hn.
  - exact Hn.
Qed.

(** ** Ownership *)
Lemma own_mid base A B C : own_cells base (A ++ B ++ C) -> own_cells base (A ++ C).
Proof.
  induction B as [|s B IH]; [auto|]. cbn [app]. intros (F & N). apply IH. split.
  - apply Forall_app in F. destruct F as [F1 F2]. inversion F2; subst. apply Forall_app. auto.
  - rewrite filter_app, map_app in *. cbn [filter] in N.
    destruct (negb (Nat.eqb (sl_cap s) 0)); [|exact N]. cbn [map] in N. exact (NoDup_remove_1 _ _ _ N).
Qed.
Lemma own_prefix base A B : own_cells base (A ++ B) -> own_cells base A.
Proof. intros H. rewrite <- (app_nil_r A). apply (own_mid _ A B []). rewrite app_nil_r. exact H. Qed.
Lemma own_snoc_nil base L : own_cells base L -> own_cells base (L ++ [nil_slice]).
Proof.
  intros (F & N). split.
  - apply Forall_app. split; [exact F|]. constructor; [left; reflexivity|constructor].
  - rewrite filter_app. cbn. rewrite app_nil_r. exact N.
Qed.

(** Appending to the last of several slices. *)
Lemma append_last {T} (zero : T) grow (h : heap T) base X s xs x h' s' :
  own_cells base (X ++ [s]) -> base <= length h ->
  (forall c, In c X -> sl_cap c <> 0 -> sl_arr c < length h) -> holds h s xs ->
  slice_append zero grow h s [x] = (h', s') ->
  holds h' s' (xs ++ [x]) /\ own_cells base (X ++ [s']) /\
  (forall c, In c X -> sl_cap c <> 0 -> nth_error h' (sl_arr c) = nth_error h (sl_arr c)) /\
  (forall a, a < base -> nth_error h' a = nth_error h a).
Proof.
  intros Own Lb Lt Hs Ea.
  assert (Bs : sl_cap s = 0 \/ base <= sl_arr s).
  { destruct Own as (F & _). rewrite Forall_forall in F. apply F, in_or_app. right. left. reflexivity. }
  destruct (append_one zero grow h s xs x h' s' base Hs Lb Bs Ea) as (H' & B' & Lh & Fr).
  split; [exact H'|]. split; [|split].
  - apply (own_replace h base X s [] s' Own); [|exact B'|].
    + intros c I. rewrite app_nil_r in I. apply Lt, I.
    + intros a La Na. apply Fr; assumption.
  - intros c I C. apply Fr; [apply Lt; assumption|]. eapply own_apart; [exact Own| |exact C].
    rewrite app_nil_r. exact I.
  - intros a La. apply Fr; [lia|]. destruct Bs as [Bs|Bs]; [left; exact Bs|right; lia].
Qed.

Section Sim.
  Variable m0 : gmem.
  Variable grow : nat -> nat.
  Variable b : bindings.
  Variable str : bytes.

  (** Slices made by the call and what they hold. *)
  Definition PG (XS : list (slice * list symbol)) (XQ : list (slice * list slice)) (hr : heap mrule) (m : gmem) : Prop :=
    all_kept m0 m /\ gm_rules m = hr /\
    Forall (fun p => holds (gm_syms m) (fst p) (snd p)) XS /\
    Forall (fun p => holds (gm_seqs m) (fst p) (snd p)) XQ /\
    own_cells (length (gm_syms m0)) (map fst XS) /\ own_cells (length (gm_seqs m0)) (map fst XQ).

  Lemma PG_mid A B C A' B' C' hr m : PG (A ++ B ++ C) (A' ++ B' ++ C') hr m -> PG (A ++ C) (A' ++ C') hr m.
  Proof.
    intros (K & E & F1 & F2 & O1 & O2). split; [exact K|]. split; [exact E|].
    rewrite !Forall_app in *. rewrite !map_app in *. repeat split; try tauto; eapply own_mid; eassumption.
  Qed.
  Lemma PG_prefix A B A' B' hr m : PG (A ++ B) (A' ++ B') hr m -> PG A A' hr m.
  Proof.
    intros H. rewrite <- (app_nil_r A), <- (app_nil_r A'). apply (PG_mid A B [] A' B' []).
    rewrite !app_nil_r. exact H.
  Qed.

  Lemma held_lt {T} (h : heap T) X : Forall (fun p => holds h (fst p) (snd p)) X ->
    forall c, In c (map fst X) -> sl_cap c <> 0 -> sl_arr c < length h.
  Proof.
    intros F c I C. apply in_map_iff in I. destruct I as (p & <- & I). rewrite Forall_forall in F.
    eapply holds_arr_lt; [apply F, I|exact C].
  Qed.
  Lemma held_frame {T} (h h' : heap T) X : Forall (fun p => holds h (fst p) (snd p)) X ->
    (forall c, In c (map fst X) -> sl_cap c <> 0 -> nth_error h' (sl_arr c) = nth_error h (sl_arr c)) ->
    Forall (fun p => holds h' (fst p) (snd p)) X.
  Proof.
    intros F Fr. rewrite Forall_forall in *. intros p I. eapply holds_frame; [apply F, I|].
    destruct (Nat.eq_dec (sl_cap (fst p)) 0) as [C|C]; [left; exact C|right].
    apply Fr; [apply in_map, I|exact C].
  Qed.
  Lemma kept_write {T} (h h1 h2 : heap T) : kept h h1 -> (forall a, a < length h -> nth_error h2 a = nth_error h1 a) -> kept h h2.
  Proof.
    intros K Fr a arr E. rewrite Fr; [apply K, E|]. apply nth_error_Some. congruence.
  Qed.

  (** What a panic leaves behind. *)
  Definition KP (hr : heap mrule) (st : gmem * slice) : Prop := all_kept m0 (fst st) /\ gm_rules (fst st) = hr.
  Lemma PG_KP XS XQ hr m s : PG XS XQ hr m -> KP hr (m, s).
  Proof. intros (K & E & _). split; assumption. Qed.

  (** *** Symbols *)
  Definition RS XS XQ hr (st : gmem * slice) (syms : list symbol) : Prop :=
    PG (XS ++ [(snd st, syms)]) XQ hr (fst st).

  Lemma mdoOnSymbol_sim XS XQ hr st syms n : RS XS XQ hr st syms ->
    related (RS XS XQ hr) (KP hr) (mdoOnSymbol grow b str st n) (doOnSymbol b str syms n).
  Proof.
    destruct st as [m s]. intros H. unfold mdoOnSymbol, doOnSymbol.
    destruct (parseSymbol b str n) as [x|e|p|]; [|cbn; auto|split; [reflexivity|eapply PG_KP, H]|eapply PG_KP, H].
    destruct (slice_append zero_symbol grow (gm_syms m) s [x]) as [h' s'] eqn:Ea.
    unfold RS in *. cbn [fst snd] in *. destruct H as (K & E & F1 & F2 & O1 & O2).
    apply Forall_app in F1. destruct F1 as [F1 Fs]. inversion Fs as [|? ? Hs _]; subst. cbn in Hs.
    rewrite map_app in O1. cbn in O1.
    assert (Lb : length (gm_syms m0) <= length (gm_syms m)) by (apply nth_incl_length; apply K).
    destruct (append_last _ _ _ _ _ _ _ _ _ _ O1 Lb (held_lt _ _ F1) Hs Ea) as (H' & O' & Fr & Fb).
    unfold related. cbn [fst snd].
    split; [|split; [reflexivity|split; [|split; [exact F2|split; [|exact O2]]]]].
    - destruct K as (K1 & K2 & K3 & K4 & K5). split; [exact K1|]. split; [|auto].
      cbn. eapply kept_write; [exact K2|exact Fb].
    - apply Forall_app. split; [|constructor; [exact H'|constructor]]. cbn. eapply held_frame; eassumption.
    - rewrite map_app. exact O'.
  Qed.

  Lemma mparseSequence_sim XS XQ hr m n : PG XS XQ hr m ->
    related (RS XS XQ hr) (KP hr) (mparseSequence grow b str m n)
      (b_lrTraverse b n (SequencesSymbolType b) (doOnSymbol b str) []).
  Proof.
    intros (K & E & F1 & F2 & O1 & O2). unfold mparseSequence. apply traverse_related.
    - intros. apply mdoOnSymbol_sim. assumption.
    - split; [exact K|]. split; [exact E|]. split; [|split; [exact F2|split; [|exact O2]]].
      + apply Forall_app. split; [exact F1|]. constructor; [apply holds_nil_slice|constructor].
      + rewrite map_app. apply own_snoc_nil, O1.
  Qed.

  (** *** Sequences *)
  Definition RQ XS XQ hr (st : gmem * slice) (tail : substitution) : Prop :=
    exists X, PG (XS ++ X) (XQ ++ [(snd st, map fst X)]) hr (fst st) /\ tail = map snd X.

  Lemma mdoOnSequence_sim XS XQ hr st tail n : RQ XS XQ hr st tail ->
    related (RQ XS XQ hr) (KP hr) (mdoOnSequence grow b str st n) (doOnSequence b str tail n).
  Proof.
    destruct st as [m sq]. intros (X & H & ->). cbn [fst snd] in H.
    unfold mdoOnSequence, doOnSequence, parseSequence.
    pose proof (mparseSequence_sim _ _ _ m n H) as S. unfold related in S.
    destruct (mparseSequence grow b str m n) as [[m' s] [[]|e|p|]],
      (b_lrTraverse b n (SequencesSymbolType b) (doOnSymbol b str) []) as [[syms [e'|]]|[]|p'|];
      cbn [fst snd] in S; try contradiction.
    2: { destruct S as [<- S]. split; [reflexivity|]. exists X. split; [|reflexivity].
      unfold RS in S. cbn in S. cbn [fst snd].
      apply (PG_prefix _ [(s, syms)] _ []). rewrite app_nil_r. exact S. }
    2, 3: exact S.
    - unfold RS in S. cbn in S.
      destruct (slice_append nil_slice grow (gm_seqs m') sq [s]) as [h' sq'] eqn:Ea.
      unfold related. cbn [gobind lift fst snd]. exists (X ++ [(s, syms)]). cbn [fst snd]. split; [|rewrite map_app; reflexivity].
      destruct S as (K & E & F1 & F2 & O1 & O2).
      apply Forall_app in F2. destruct F2 as [F2 Fs]. inversion Fs as [|? ? Hs _]; subst. cbn in Hs.
      rewrite map_app in O2. cbn in O2.
      assert (Lb : length (gm_seqs m0) <= length (gm_seqs m')) by (apply nth_incl_length; apply K).
      destruct (append_last _ _ _ _ _ _ _ _ _ _ O2 Lb (held_lt _ _ F2) Hs Ea) as (H' & O' & Fr & Fb).
      rewrite app_assoc.
      split; [|split; [reflexivity|split; [exact F1|split; [|split; [exact O1|]]]]].
      + destruct K as (K1 & K2 & K3 & K4 & K5). split; [exact K1|]. split; [exact K2|]. split; [|auto].
        cbn. eapply kept_write; [exact K3|exact Fb].
      + apply Forall_app. split; [cbn; eapply held_frame; eassumption|].
        constructor; [|constructor]. cbn. rewrite map_app. exact H'.
      + rewrite map_app. exact O'.
  Qed.

  Lemma RQ_nil XS XQ hr m : PG XS XQ hr m -> RQ XS XQ hr (m, nil_slice) [].
  Proof.
    intros (K & E & F1 & F2 & O1 & O2). exists []. split; [|reflexivity]. cbn [fst snd map]. rewrite app_nil_r.
    split; [exact K|]. split; [exact E|]. split; [exact F1|]. split; [|split; [exact O1|]].
    - apply Forall_app. split; [exact F2|]. constructor; [apply holds_nil_slice|constructor].
    - rewrite map_app. apply own_snoc_nil, O2.
  Qed.

  Lemma mparseSubstitution_sim XS XQ hr m n : PG XS XQ hr m ->
    related (RQ XS XQ hr) (KP hr) (mparseSubstitution grow b str m n)
      (b_lrTraverse b n (ExpressionSequencesType b) (doOnSequence b str) []).
  Proof.
    intros H. unfold mparseSubstitution. apply traverse_related.
    - intros. apply mdoOnSequence_sim. assumption.
    - apply RQ_nil, H.
  Qed.

  (** *** Rules *)
  Lemma mdoOnSubstitution_sim XS XQ hr st tail n : RQ XS XQ hr st tail ->
    related (RQ XS XQ hr) (KP hr) (mdoOnSubstitution grow b str st n) (doOnSubstitution b str tail n).
  Proof.
    destruct st as [m sq]. intros (X & H & ->). cbn [fst snd] in H.
    unfold mdoOnSubstitution, doOnSubstitution, parseSubstitution.
    pose proof (mparseSubstitution_sim _ _ _ m n H) as S. unfold related in S.
    destruct (mparseSubstitution grow b str m n) as [[m' s] [[]|e|p|]],
      (b_lrTraverse b n (ExpressionSequencesType b) (doOnSequence b str) []) as [[tl [e'|]]|[]|p'|];
      cbn [fst snd] in S; try contradiction.
    2: { destruct S as [<- (X' & S & _)]. split; [reflexivity|]. exists X. split; [|reflexivity].
      cbn [fst snd] in *. eapply PG_prefix. exact S. }
    2, 3: exact S.
    - destruct S as (X' & S & ->). cbn [fst snd] in *. split; [reflexivity|]. exists X'. split; [|reflexivity].
      cbn [fst snd]. eapply PG_mid. rewrite <- !app_assoc in S. exact S.
  Qed.

  Lemma mparseRule_sim XS XQ hr m n : PG XS XQ hr m ->
    let (m', res) := mparseRule grow b str m n in
    match res, parseRule b str n with
    | Ok mr, Ok r =>
        exists X, PG (XS ++ X) (XQ ++ [(snd mr, map fst X)]) hr m' /\ r = mkRule (fst mr) (map snd X)
    | Err e, Err e' => e = e' /\ PG XS XQ hr m'
    | Panic p, Panic q => p = q /\ all_kept m0 m' /\ gm_rules m' = hr
    | NoFuel, NoFuel => all_kept m0 m' /\ gm_rules m' = hr
    | _, _ => False
    end.
  Proof.
    intros H. unfold mparseRule, parseRule.
    assert (HK : all_kept m0 m /\ gm_rules m = hr) by (destruct H as (K & E & _); auto).
    assert (N : forall m f, PG XS XQ hr m ->
      let (m', res) := mfail str m n f in
      match res, (go text <- lift (nodeName n str); Err (f text)) : fcres rule with
      | Ok mr, Ok r =>
          exists X, PG (XS ++ X) (XQ ++ [(snd mr, map fst X)]) hr m' /\ r = mkRule (fst mr) (map snd X)
      | Err e, Err e' => e = e' /\ PG XS XQ hr m'
      | Panic p, Panic q => p = q /\ all_kept m0 m' /\ gm_rules m' = hr
      | NoFuel, NoFuel => all_kept m0 m' /\ gm_rules m' = hr
      | _, _ => False
      end).
    { intros m' f H'. assert (HK' : all_kept m0 m' /\ gm_rules m' = hr) by (destruct H' as (K & E & _); auto).
      unfold mfail. destruct (nodeName n str) as [text|[]|p|]; cbn; auto. }
    destruct (b_lrTraverse b n (RuleHeadType b) (doOnHead str) []) as [[head err]|[]|p|]; cbn [lift gobind]; auto.
    destruct err as [[[]|s1| |s3|s4|s5]|]; try (apply N; exact H).
    assert (S : related (RQ XS XQ hr) (KP hr)
              (mb_lrTraverse b n (RuleTailType b) (mdoOnSubstitution grow b str) (m, nil_slice))
              (b_lrTraverse b n (RuleTailType b) (doOnSubstitution b str) [])).
    { apply traverse_related; [intros; apply mdoOnSubstitution_sim; assumption|apply RQ_nil, H]. }
    unfold related in S.
    destruct (mb_lrTraverse b n (RuleTailType b) (mdoOnSubstitution grow b str) (m, nil_slice)) as [[m' sq] e],
      (b_lrTraverse b n (RuleTailType b) (doOnSubstitution b str) []) as [[tl e']|[]|p'|]; cbn [fst snd lift gobind] in *;
      destruct e as [[]|e|p|]; try contradiction; try (destruct e'; contradiction); try exact S.
    - destruct e' as [e'|]; [contradiction|]. destruct S as (X & S & ->).
      apply (N m' ENoRuleSubstitution). eapply PG_prefix; exact S.
    - destruct e' as [e'|]; [|contradiction]. destruct S as [<- (X & S & ->)]. cbn [fst snd] in S.
      assert (S0 : PG XS XQ hr m') by (eapply PG_prefix; exact S).
      destruct e as [[]|s1| |s3|s4|s5]; cbn; auto. exists X. auto.
  Qed.

  Definition part := (mrule * list (slice * list symbol))%type.
  Definition RR (st : gmem * slice) (g : grammar) : Prop :=
    exists L : list part,
      PG (concat (map snd L)) (map (fun l => (snd (fst l), map fst (snd l))) L) (gm_rules (fst st)) (fst st) /\
      holds (gm_rules (fst st)) (snd st) (map fst L) /\
      own_cells (length (gm_rules m0)) [snd st] /\
      g = map (fun l => mkRule (fst (fst l)) (map snd (snd l))) L.

  Definition KR (st : gmem * slice) : Prop := all_kept m0 (fst st).
  Lemma mdoOnRule_sim st g n : RR st g -> related RR KR (mdoOnRule grow b str st n) (doOnRule b str g n).
  Proof.
    destruct st as [m rs]. intros (L & H & Hr & Own & ->). cbn [fst snd] in *. unfold mdoOnRule, doOnRule.
    pose proof (mparseRule_sim _ _ _ m n H) as S.
    destruct (mparseRule grow b str m n) as [m' [mr|e|p|]], (parseRule b str n) as [r|e'|p'|];
      try contradiction.
    3: exact (conj (proj1 S) (proj1 (proj2 S))).
    3: exact (proj1 S).
    - destruct S as (X & S & ->). assert (Er : gm_rules m' = gm_rules m) by apply S.
      destruct (slice_append zero_rule grow (gm_rules m') rs [mr]) as [h' rs'] eqn:Ea.
      unfold related. cbn [gobind lift fst snd]. exists (L ++ [(mr, X)]). cbn [fst snd gm_rules set_grules].
      assert (Lb : length (gm_rules m0) <= length (gm_rules m')) by (apply nth_incl_length; apply S).
      rewrite <- Er in Hr.
      destruct (append_last _ _ _ _ [] _ _ _ _ _ Own Lb (fun c I => match I with end) Hr Ea) as (H' & O' & _ & Fb).
      split; [|split; [|split; [exact O'|rewrite map_app; reflexivity]]].
      + destruct S as (K & E & F1 & F2 & O1 & O2).
        rewrite !map_app, concat_app. cbn [map concat]. rewrite app_nil_r.
        split; [|split; [reflexivity|split; [exact F1|split; [exact F2|split; assumption]]]].
        destruct K as (K1 & K2 & K3 & K4 & K5). split; [exact K1|]. split; [exact K2|]. split; [exact K3|].
        split; [|exact K5]. cbn. eapply kept_write; [exact K4|exact Fb].
      + rewrite map_app. exact H'.
    - destruct S as [-> S]. split; [reflexivity|]. exists L. cbn [fst snd].
      assert (Er : gm_rules m' = gm_rules m) by apply S. rewrite Er. auto.
  Qed.
End Sim.

Lemma mToAST_sorted_sim grow b str m root :
  related (RR m) (KR m) (mToAST_sorted grow b str m root)
    (b_lrTraverse b root (RuleType b) (doOnRule b str) []).
Proof.
  unfold mToAST_sorted. apply traverse_related.
  - intros. apply mdoOnRule_sim. assumption.
  - exists []. cbn. split; [|split; [apply holds_nil_slice|split; [|reflexivity]]].
    + split; [apply all_kept_refl|]. split; [reflexivity|]. repeat split; constructor.
    + split; [constructor; [left; reflexivity|constructor]|constructor].
Qed.

(** What the invariant says at the end. *)
Lemma RR_grammar m m' rs g : RR m (m', rs) g ->
  all_kept m m' /\ grammar_in m' rs g /\ own_grammar m m' rs.
Proof.
  intros (L & (K & _ & F1 & F2 & O1 & O2) & Hr & Own & ->). cbn [fst snd] in *. split; [exact K|]. split.
  - exists (map fst L). split; [exact Hr|]. clear -F1 F2.
    induction L as [|[[hd sq] X] L IH]; [constructor|]. cbn [map concat] in *. rewrite Forall_app in F1.
    destruct F1 as [F1 F1']. inversion F2 as [|? ? Hq F2']; subst. cbn in Hq. constructor; [|apply IH; assumption].
    split; [reflexivity|]. exists (map fst X). split; [exact Hq|]. cbn. clear -F1.
    cbn [snd] in F1. induction X as [|x X IH]; cbn [map]; [constructor|]. inversion F1; subst. constructor; [assumption|apply IH; assumption].
  - unfold own_grammar, alternatives_of, rules_of. rewrite (holds_elems _ _ _ Hr).
    split; [exact Own|]. split.
    + rewrite map_map in *. cbn in O2. exact O2.
    + assert (E : flat_map (fun r => slice_elems (gm_seqs m') (snd r)) (map fst L) = map fst (concat (map snd L))).
      { clear -F2. induction L as [|[[hd sq] X] L IH]; [reflexivity|]. cbn [map] in F2.
        inversion F2 as [|? ? Hq F2']; subst. cbn in Hq. cbn [map flat_map concat snd fst].
        rewrite (holds_elems _ _ _ Hq), map_app, IH by exact F2'. reflexivity. }
      rewrite E. exact O1.
Qed.
