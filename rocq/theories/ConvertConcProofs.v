(** * ConvertConcProofs: what one call of ToAST does, wherever its arrays are. *)
From Coq Require Import Permutation.
From Verif Require Import Base Cst Ast FromCst Spec_Convert WalkProofs ConvertProofs SliceMem ParserMem TableGenMem
  FromCstMem Spec_Mem Spec_GenMem ParserMemProofs TGMem ConvertMem ConvertConc Spec_ConvertConc.

(** ** The slices a call owns, and what they hold *)
Definition owned (T : Type) := list (slice * list T).
(** A call may forget slices, and a nil slice holds nothing. *)
Inductive gle {T} : owned T -> owned T -> Prop :=
| gle_nil : gle [] []
| gle_keep x l l' : gle l l' -> gle (x :: l) (x :: l')
| gle_drop x l l' : gle l l' -> gle (x :: l) l'
| gle_new l l' : gle l l' -> gle l ((nil_slice, []) :: l').

Lemma gle_refl {T} (l : owned T) : gle l l.
Proof. induction l; constructor; assumption. Qed.
Lemma gle_app {T} (l l' k k' : owned T) : gle l l' -> gle k k' -> gle (l ++ k) (l' ++ k').
Proof. intros H K. induction H; cbn; [exact K|constructor; assumption..]. Qed.
Lemma gle_trans {T} (a b c : owned T) : gle a b -> gle b c -> gle a c.
Proof.
  intros H. revert c. induction H as [|x l l' H IH|x l l' H IH|l l' H IH]; intros c K.
  - exact K.
  - remember (x :: l') as y eqn:E. induction K as [|x1 k k' K IHK|x1 k k' K IHK|k k' K IHK].
    + discriminate.
    + injection E as -> ->. constructor. apply IH, K.
    + injection E as -> ->. apply gle_drop, IH, K.
    + apply gle_new, IHK, E.
  - apply gle_drop, IH, K.
  - remember ((nil_slice, []) :: l') as y eqn:E. induction K as [|x1 k k' K IHK|x1 k k' K IHK|k k' K IHK].
    + discriminate.
    + injection E as -> ->. apply gle_new, IH, K.
    + injection E as -> ->. apply IH, K.
    + apply gle_new, IHK, E.
Qed.
Lemma gle_prefix {T} (l k : owned T) : gle (l ++ k) l.
Proof.
  rewrite <- (app_nil_r l) at 2. apply gle_app; [apply gle_refl|]. induction k; constructor; assumption.
Qed.
Lemma gle_snoc_nil {T} (l : owned T) : gle l (l ++ [(nil_slice, [])]).
Proof. rewrite <- (app_nil_r l) at 1. apply gle_app; [apply gle_refl|]. constructor. constructor. Qed.

Record ghost := mkGhost { g_s : owned symbol; g_q : owned slice; g_r : owned mrule }.
Definition ghle (G G' : ghost) : Prop := gle (g_s G) (g_s G') /\ gle (g_q G) (g_q G') /\ gle (g_r G) (g_r G').
Lemma ghle_refl G : ghle G G.
Proof. repeat split; apply gle_refl. Qed.
Lemma ghle_trans A B C : ghle A B -> ghle B C -> ghle A C.
Proof. intros (a & b & c) (d & e & f). repeat split; eapply gle_trans; eassumption. Qed.

(** [wp p G Q]: a call that owns [G] only appends to what it owns, whatever
    addresses it is given, and ends with [Q]. *)
Fixpoint wp {A} (p : rprog A) (G : ghost) (Q : A -> ghost -> Prop) : Prop :=
  match p with
  | RRet a => exists G', ghle G G' /\ Q a G'
  | RSym _ s x k => exists X xs q r, ghle G (mkGhost (X ++ [(s, xs)]) q r) /\
      forall t, wp (k t) (mkGhost (X ++ [(t, xs ++ [x])]) q r) Q
  | RSeq _ s x k => exists X xs q r, ghle G (mkGhost q (X ++ [(s, xs)]) r) /\
      forall t, wp (k t) (mkGhost q (X ++ [(t, xs ++ [x])]) r) Q
  | RRule _ s x k => exists X xs q r, ghle G (mkGhost q r (X ++ [(s, xs)])) /\
      forall t, wp (k t) (mkGhost q r (X ++ [(t, xs ++ [x])])) Q
  end.

Lemma wp_weaken {A} (p : rprog A) G G' Q : ghle G G' -> wp p G' Q -> wp p G Q.
Proof.
  intros L. destruct p; cbn.
  - intros (G1 & L1 & H). exists G1. split; [eapply ghle_trans; eassumption|exact H].
  - intros (X & xs & q & r & L1 & H). exists X, xs, q, r. split; [eapply ghle_trans; eassumption|exact H].
  - intros (X & xs & q & r & L1 & H). exists X, xs, q, r. split; [eapply ghle_trans; eassumption|exact H].
  - intros (X & xs & q & r & L1 & H). exists X, xs, q, r. split; [eapply ghle_trans; eassumption|exact H].
Qed.
Lemma wp_ret {A} (a : A) G (Q : A -> ghost -> Prop) : Q a G -> wp (RRet a) G Q.
Proof. intros H. exists G. split; [apply ghle_refl|exact H]. Qed.
Lemma wp_bind {A B} (p : rprog A) (f : A -> rprog B) G Q :
  wp p G (fun a G' => wp (f a) G' Q) -> wp (rbind p f) G Q.
Proof.
  revert G. induction p as [a|g s x k IH|g s x k IH|g s x k IH]; intros G; cbn.
  - intros (G' & L & H). eapply wp_weaken; eassumption.
  - intros (X & xs & q & r & L & H). exists X, xs, q, r. split; [exact L|]. intros t. apply IH, H.
  - intros (X & xs & q & r & L & H). exists X, xs, q, r. split; [exact L|]. intros t. apply IH, H.
  - intros (X & xs & q & r & L & H). exists X, xs, q, r. split; [exact L|]. intros t. apply IH, H.
Qed.
Lemma wp_conseq {A} (p : rprog A) G (Q Q' : A -> ghost -> Prop) :
  (forall a G', Q a G' -> Q' a G') -> wp p G Q -> wp p G Q'.
Proof.
  intros I. revert G. induction p as [a|g s x k IH|g s x k IH|g s x k IH]; intros G; cbn.
  - intros (G' & L & H). exists G'. auto.
  - intros (X & xs & q & r & L & H). exists X, xs, q, r. auto.
  - intros (X & xs & q & r & L & H). exists X, xs, q, r. auto.
  - intros (X & xs & q & r & L & H). exists X, xs, q, r. auto.
Qed.

(** ** Traversals *)
Section Walk.
  Context {S1 : Type}.
  Variable ign srch : Z -> bool.
  Variable f : rcallback S1.
  Fixpoint rwalk_list (st : S1 * stop) (l : list node) {struct l} : rprog (S1 * stop) :=
    match l with
    | [] => RRet st
    | c :: l' => rr st <- rwalk ign srch f st c; rwalk_list st l'
    end.
  Lemma rwalk_eq st n : rwalk ign srch f st n =
    rr (st, more) <- rflexVisit ign srch f st n;
    if (more : bool) then rwalk_list st (n_childs n) else RRet st.
  Proof. destruct n. reflexivity. Qed.
End Walk.

(** How a traversal on slices and one on values end. *)
Definition ends {S1 S2} (I : S1 -> S2 -> ghost -> Prop) (y : gop (S2 * option fcerror)) (x : S1 * stop) (G : ghost) : Prop :=
  match snd x, y with
  | Ok tt, Ok (s2, None) => I (fst x) s2 G
  | Err e1, Ok (s2, Some e2) => e1 = e2 /\ I (fst x) s2 G
  | Panic p, Panic q => p = q
  | NoFuel, NoFuel => True
  | _, _ => False
  end.

Section Traverse.
  Context {S1 S2 : Type}.
  Variable ign srch : Z -> bool.
  Variable f : rcallback S1.
  Variable f2 : callback S2.
  Variable I : S1 -> S2 -> ghost -> Prop.
  Hypothesis Hf : forall s s2 n G, I s s2 G -> wp (f s n) G (ends I (f2 s2 n)).

  Lemma wp_stopped st l G (Q : S1 * stop -> ghost -> Prop) : snd st <> Ok tt -> Q st G ->
    wp (rwalk_list ign srch f st l) G Q.
  Proof.
    intros N H. induction l as [|n l IH]; [apply wp_ret, H|]. cbn [rwalk_list]. apply wp_bind. rewrite rwalk_eq.
    unfold rflexVisit. destruct st as [s [[]|e|p|]]; cbn [snd] in *; [contradiction N; reflexivity| | |];
      cbn [rbind]; apply wp_ret; exact IH.
  Qed.

  Lemma wp_walk n : forall s s2 G, I s s2 G ->
    wp (rwalk ign srch f (s, Ok tt) n) G (ends I (each f2 s2 (outermost ign srch n))).
  Proof.
    induction n as [ty p q childs IH] using node_ind'. intros s s2 G H. rewrite rwalk_eq. unfold rflexVisit.
    cbn [snd fst n_type n_childs outermost]. destruct (ign ty); [cbn; apply wp_ret, H|]. destruct (srch ty).
    - apply wp_bind, wp_bind. eapply wp_conseq; [|apply Hf, H]. intros x G1 E. apply wp_ret. cbn. apply wp_ret.
      cbn [each]. destruct x as [s' [[]|e|p1|]], (f2 s2 (Node ty p q childs)) as [[s2' [e2|]]|[]|p2|]; exact E.
    - cbn [rbind]. revert s s2 G H. induction childs as [|c l IHl]; intros s s2 G H; [apply wp_ret, H|].
      inversion IH as [|? ? Hc Hl]; subst. cbn [rwalk_list flat_map]. rewrite each_app. apply wp_bind.
      eapply wp_conseq; [|apply Hc, H]. intros x G1 E.
      destruct x as [s' [[]|e|p1|]], (each f2 s2 (outermost ign srch c)) as [[s2' [e2|]]|[]|p2|]; try contradiction.
      + apply IHl; [exact Hl|exact E].
      + apply wp_stopped; [discriminate|exact E].
      + apply wp_stopped; [discriminate|exact E].
      + apply wp_stopped; [discriminate|exact E].
  Qed.
End Traverse.

Section Call.
  Variable grow : nat -> nat.
  Variable b : bindings.
  Variable str : bytes.

  Lemma wp_traverse {S1 S2} (f : rcallback S1) (f2 : callback S2) (I : S1 -> S2 -> ghost -> Prop) root t s s2 G :
    (forall s s2 n G, I s s2 G -> wp (f s n) G (ends I (f2 s2 n))) -> I s s2 G ->
    wp (rb_lrTraverse b root t f s) G (ends I (b_lrTraverse b root t f2 s2)).
  Proof.
    intros Hf H. unfold rb_lrTraverse, rlrTraverse, b_lrTraverse. rewrite lrTraverse_each.
    apply wp_walk; assumption.
  Qed.

  (** *** Symbols *)
  Definition IS (XS : owned symbol) XQ XR (s : slice) (syms : list symbol) (G : ghost) : Prop :=
    G = mkGhost (XS ++ [(s, syms)]) XQ XR.

  Lemma wp_symbol XS XQ XR s syms n G : IS XS XQ XR s syms G ->
    wp (rdoOnSymbol grow b str s n) G (ends (IS XS XQ XR) (doOnSymbol b str syms n)).
  Proof.
    intros ->. unfold rdoOnSymbol, doOnSymbol.
    destruct (parseSymbol b str n) as [x|e|p|]; [|apply wp_ret; cbn; try split; reflexivity..].
    cbn. exists XS, syms, XQ, XR. split; [apply ghle_refl|]. intros t.
    exists (mkGhost (XS ++ [(t, syms ++ [x])]) XQ XR). split; [apply ghle_refl|reflexivity].
  Qed.

  Lemma wp_sequence XS XQ XR n :
    wp (rparseSequence grow b str n) (mkGhost XS XQ XR)
      (ends (IS XS XQ XR) (b_lrTraverse b n (SequencesSymbolType b) (doOnSymbol b str) [])).
  Proof.
    apply (wp_weaken _ _ (mkGhost (XS ++ [(nil_slice, [])]) XQ XR)).
    - repeat split; try apply gle_refl. apply gle_snoc_nil.
    - apply wp_traverse; [intros; apply wp_symbol; assumption|reflexivity].
  Qed.

  (** *** Alternatives *)
  Definition IQ (XS : owned symbol) (XQ : owned slice) XR (s : slice) (tail : substitution) (G : ghost) : Prop :=
    exists X, G = mkGhost (XS ++ X) (XQ ++ [(s, map fst X)]) XR /\ tail = map snd X.

  Lemma wp_alternative XS XQ XR s tail n G : IQ XS XQ XR s tail G ->
    wp (rdoOnSequence grow b str s n) G (ends (IQ XS XQ XR) (doOnSequence b str tail n)).
  Proof.
    intros (X & -> & ->). unfold rdoOnSequence, doOnSequence, parseSequence. apply wp_bind.
    eapply wp_conseq; [|apply wp_sequence]. intros [s' e] G E. unfold ends in E. cbn [snd fst] in E.
    assert (D : forall syms, ghle (mkGhost ((XS ++ X) ++ [(s', syms)]) (XQ ++ [(s, map fst X)]) XR)
                               (mkGhost (XS ++ X) (XQ ++ [(s, map fst X)]) XR)).
    { intros syms. repeat split; try apply gle_refl. apply gle_prefix. }
    destruct e as [[]|e|p|],
      (b_lrTraverse b n (SequencesSymbolType b) (doOnSymbol b str) []) as [[syms [e'|]]|[]|p'|]; try contradiction.
    - unfold IS in E. subst G. cbn. exists XQ, (map fst X), ((XS ++ X) ++ [(s', syms)]), XR.
      split; [apply ghle_refl|]. intros t. eexists. split; [apply ghle_refl|]. unfold ends. cbn.
      exists (X ++ [(s', syms)]). rewrite <- app_assoc, !map_app. auto.
    - destruct E as [-> ->]. cbn. exists (mkGhost (XS ++ X) (XQ ++ [(s, map fst X)]) XR). split; [apply D|].
      split; [reflexivity|]. exists X. auto.
    - subst p'. apply wp_ret. reflexivity.
    - apply wp_ret. exact Logic.I.
  Qed.

  Lemma IQ_start XS XQ XR : exists G, ghle (mkGhost XS XQ XR) G /\ IQ XS XQ XR nil_slice [] G.
  Proof.
    exists (mkGhost XS (XQ ++ [(nil_slice, [])]) XR). split.
    - repeat split; try apply gle_refl. apply gle_snoc_nil.
    - exists []. rewrite app_nil_r. auto.
  Qed.

  Lemma wp_substitution XS XQ XR n :
    wp (rparseSubstitution grow b str n) (mkGhost XS XQ XR)
      (ends (IQ XS XQ XR) (b_lrTraverse b n (ExpressionSequencesType b) (doOnSequence b str) [])).
  Proof.
    destruct (IQ_start XS XQ XR) as (G & L & H). eapply wp_weaken; [exact L|].
    apply wp_traverse; [intros; apply wp_alternative; assumption|exact H].
  Qed.

  (** *** Rules *)
  Lemma wp_tail XS XQ XR s tail n G : IQ XS XQ XR s tail G ->
    wp (rdoOnSubstitution grow b str s n) G (ends (IQ XS XQ XR) (doOnSubstitution b str tail n)).
  Proof.
    intros (X & -> & ->). unfold rdoOnSubstitution, doOnSubstitution, parseSubstitution. apply wp_bind.
    eapply wp_conseq; [|apply wp_substitution]. intros [s' e] G E. unfold ends in E. cbn [snd fst] in E.
    destruct e as [[]|e|p|],
      (b_lrTraverse b n (ExpressionSequencesType b) (doOnSequence b str) []) as [[tl [e'|]]|[]|p'|]; try contradiction.
    - destruct E as (X' & -> & ->). cbn [lift gobind]. exists (mkGhost (XS ++ X') (XQ ++ [(s', map fst X')]) XR). split.
      + split; [|split]; cbn; [|rewrite <- app_assoc|apply gle_refl].
        * rewrite <- app_assoc. apply gle_app; [apply gle_refl|]. clear. induction X; cbn; [apply gle_refl|].
          apply gle_drop; assumption.
        * apply gle_app; [apply gle_refl|]. apply gle_drop, gle_refl.
      + split; [reflexivity|]. exists X'. auto.
    - destruct E as [-> (X' & -> & ->)]. cbn. exists (mkGhost (XS ++ X) (XQ ++ [(s, map fst X)]) XR). split.
      + repeat split; try apply gle_refl; apply gle_prefix.
      + split; [reflexivity|]. exists X. auto.
    - subst p'. apply wp_ret. reflexivity.
    - apply wp_ret. exact Logic.I.
  Qed.

  Definition rule_ends XS XQ XR (y : fcres rule) (x : gores fcerror mrule) (G : ghost) : Prop :=
    match x, y with
    | Ok mr, Ok r => exists X, G = mkGhost (XS ++ X) (XQ ++ [(snd mr, map fst X)]) XR /\
        r = mkRule (fst mr) (map snd X)
    | Err e, Err e' => e = e' /\ G = mkGhost XS XQ XR
    | Panic p, Panic q => p = q
    | NoFuel, NoFuel => True
    | _, _ => False
    end.

  Lemma wp_fail XS XQ XR n e G : ghle G (mkGhost XS XQ XR) ->
    wp (rfail str n e) G
      (rule_ends XS XQ XR (go text <- lift (nodeName n str); Err (e text))).
  Proof.
    intros L. exists (mkGhost XS XQ XR). split; [exact L|]. destruct (nodeName n str) as [x|[]|p|]; cbn; auto.
  Qed.

  Lemma wp_rule XS XQ XR n :
    wp (rparseRule grow b str n) (mkGhost XS XQ XR) (rule_ends XS XQ XR (parseRule b str n)).
  Proof.
    unfold rparseRule, parseRule.
    destruct (b_lrTraverse b n (RuleHeadType b) (doOnHead str) []) as [[head err]|[]|p|]; cbn [lift gobind];
      [|apply wp_ret; cbn; auto..].
    destruct err as [[[]|s1| |s3|s4|s5]|]; try (apply wp_fail, ghle_refl).
    apply wp_bind. destruct (IQ_start XS XQ XR) as (G & L & H). eapply wp_weaken; [exact L|].
    eapply wp_conseq; [|apply (wp_traverse _ (doOnSubstitution b str) (IQ XS XQ XR) n (RuleTailType b)); [intros; apply wp_tail; eassumption|exact H]].
    clear G L H. intros [s' e] G E. unfold ends in E. cbn [snd fst] in E.
    assert (D : forall X, ghle (mkGhost (XS ++ X) (XQ ++ [(s', map fst X)]) XR) (mkGhost XS XQ XR)).
    { intros X. repeat split; try apply gle_refl; apply gle_prefix. }
    destruct e as [[]|e|p|],
      (b_lrTraverse b n (RuleTailType b) (doOnSubstitution b str) []) as [[tl [e'|]]|[]|p'|]; try contradiction;
      cbn [lift gobind].
    - destruct E as (X & -> & ->). apply wp_fail, D.
    - destruct E as [<- (X & -> & ->)].
      destruct e as [[]|s1| |s3|s4|s5]; cbn;
        first [ exists (mkGhost XS XQ XR); split; [apply D|split; reflexivity]
              | eexists; split; [apply ghle_refl|]; exists X; auto ].
    - subst p'. apply wp_ret. reflexivity.
    - apply wp_ret. exact Logic.I.
  Qed.

  Definition IR (s : slice) (g : grammar) (G : ghost) : Prop :=
    exists L : list part,
      G = mkGhost (concat (map snd L)) (map (fun l => (snd (fst l), map fst (snd l))) L) [(s, map fst L)] /\
      g = map (fun l => mkRule (fst (fst l)) (map snd (snd l))) L.

  Lemma wp_onRule s g n G : IR s g G -> wp (rdoOnRule grow b str s n) G (ends IR (doOnRule b str g n)).
  Proof.
    intros (L & -> & ->). unfold rdoOnRule, doOnRule. apply wp_bind.
    eapply wp_conseq; [|apply wp_rule]. intros res G E. unfold rule_ends in E.
    destruct res as [mr|e|p|], (parseRule b str n) as [r|e'|p'|]; try contradiction.
    - destruct E as (X & -> & ->). cbn. exists [], (map fst L).
      do 2 eexists. split; [apply ghle_refl|]. intros t. eexists. split; [apply ghle_refl|].
      unfold ends. cbn. exists (L ++ [(mr, X)]).
      rewrite !map_app, concat_app. cbn. rewrite app_nil_r. auto.
    - destruct E as [<- ->]. apply wp_ret. split; [reflexivity|]. exists L. auto.
    - subst p'. apply wp_ret. reflexivity.
    - apply wp_ret. exact Logic.I.
  Qed.

  (** What a call of ToAST ends with. *)
  Definition call_ends (y : fcres grammar) (x : gores fcerror slice) (G : ghost) : Prop :=
    match x, y with
    | Ok s, Ok g => IR s g G
    | Err e, Err e' => e = e'
    | Panic p, Panic q => p = q
    | NoFuel, NoFuel => True
    | _, _ => False
    end.

  Lemma wp_ToAST_sorted root :
    wp (rToAST_sorted grow b str root) (mkGhost [] [] []) (call_ends (ToAST_sorted b str root)).
  Proof.
    unfold rToAST_sorted, ToAST_sorted. apply wp_bind.
    apply (wp_weaken _ _ (mkGhost [] [] [(nil_slice, [])])); [repeat split; repeat constructor|].
    eapply wp_conseq; [|apply (wp_traverse _ (doOnRule b str) IR root (RuleType b) nil_slice []); [intros; apply wp_onRule; eassumption|]].
    2:{ exists []. split; reflexivity. }
    intros [s e] G E. unfold ends in E. cbn [snd fst] in E. apply wp_ret.
    destruct e as [[]|e|p|], (b_lrTraverse b root (RuleType b) (doOnRule b str) []) as [[g [e'|]]|[]|p'|];
      try contradiction; cbn [lift gobind call_ends]; [exact E|apply E|exact E|exact Logic.I].
  Qed.
End Call.

Lemma wp_ToAST grow b root str :
  wp (rToAST grow b root str) (mkGhost [] [] []) (call_ends (ToAST b root str)).
Proof. apply wp_ToAST_sorted. Qed.

(** ** How many steps a call takes *)
Fixpoint within {A} (p : rprog A) (n : nat) : Prop :=
  match p with
  | RRet _ => True
  | RSym _ _ _ k => exists n', n = S n' /\ forall t, within (k t) n'
  | RSeq _ _ _ k => exists n', n = S n' /\ forall t, within (k t) n'
  | RRule _ _ _ k => exists n', n = S n' /\ forall t, within (k t) n'
  end.
Lemma within_le {A} (p : rprog A) : forall n m, n <= m -> within p n -> within p m.
Proof.
  induction p as [a|g s x k IH|g s x k IH|g s x k IH]; intros n m L; cbn; [auto| | |];
    intros (n' & -> & H); destruct m as [|m]; try lia; exists m; (split; [reflexivity|]); intros t;
    (apply (IH t n'); [lia|apply H]).
Qed.
Lemma within_bind {A B} (p : rprog A) (f : A -> rprog B) : forall n m,
  within p n -> (forall a, within (f a) m) -> within (rbind p f) (n + m).
Proof.
  induction p as [a|g s x k IH|g s x k IH|g s x k IH]; intros n m H K; cbn.
  - apply (within_le _ m); [lia|apply K].
  - destruct H as (n' & -> & H). exists (n' + m). split; [reflexivity|]. intros t. apply IH; [apply H|exact K].
  - destruct H as (n' & -> & H). exists (n' + m). split; [reflexivity|]. intros t. apply IH; [apply H|exact K].
  - destruct H as (n' & -> & H). exists (n' + m). split; [reflexivity|]. intros t. apply IH; [apply H|exact K].
Qed.
Lemma within_bind0 {A B} (p : rprog A) (f : A -> rprog B) n :
  within p n -> (forall a, within (f a) 0) -> within (rbind p f) n.
Proof. intros H K. rewrite <- (Nat.add_0_r n). apply within_bind; assumption. Qed.

Lemma within_bind2 {A B C} (p : rprog A) (g : A -> rprog B) (f : B -> rprog C) : forall n,
  within p n -> (forall a, within (rbind (g a) f) 0) -> within (rbind (rbind p g) f) n.
Proof.
  induction p as [a|gr s x k IH|gr s x k IH|gr s x k IH]; intros n H K; cbn.
  - apply (within_le _ 0); [lia|apply K].
  - destruct H as (n' & -> & H). exists n'. split; [reflexivity|]. intros t. apply IH; [apply H|exact K].
  - destruct H as (n' & -> & H). exists n'. split; [reflexivity|]. intros t. apply IH; [apply H|exact K].
  - destruct H as (n' & -> & H). exists n'. split; [reflexivity|]. intros t. apply IH; [apply H|exact K].
Qed.

Lemma within_walk {S1} ign srch (f : rcallback S1) c :
  (forall s n, within (f s n) (c * nodes_of n)) ->
  forall n st, within (rwalk ign srch f st n) (c * nodes_of n).
Proof.
  intros Hf n. induction n as [ty p q childs IH] using node_ind'. intros [s e]. rewrite rwalk_eq. unfold rflexVisit.
  cbn [snd fst n_type n_childs]. destruct e as [[]|e|p1|]; try exact I.
  destruct (ign ty); [exact I|]. destruct (srch ty).
  - apply within_bind2; [apply Hf|]. intros a. exact I.
  - cbn [rbind]. apply (within_le _ (c * list_sum (map nodes_of childs))); [cbn [nodes_of]; nia|].
    generalize (s, Ok tt : stop). clear s. induction childs as [|x l IHl]; intros st; [exact I|].
    inversion IH as [|? ? Hx Hl]; subst. cbn [rwalk_list map list_sum fold_right].
    rewrite Nat.mul_add_distr_l. apply within_bind; [apply Hx|]. intros st'. apply IHl, Hl.
Qed.

Section Within.
  Variable grow : nat -> nat.
  Variable b : bindings.
  Variable str : bytes.
  Lemma within_lr {S1} (f : rcallback S1) root t s c :
    (forall s n, within (f s n) (c * nodes_of n)) -> within (rb_lrTraverse b root t f s) (c * nodes_of root).
  Proof. intros H. apply within_walk, H. Qed.
  Lemma nodes_of_pos n : 1 <= nodes_of n.
  Proof. destruct n. cbn. lia. Qed.

  Lemma within_symbol s n : within (rdoOnSymbol grow b str s n) (1 * nodes_of n).
  Proof.
    unfold rdoOnSymbol. destruct (parseSymbol b str n); try exact I. pose proof (nodes_of_pos n).
    apply (within_le _ 1); [lia|]. exists 0. split; [reflexivity|]. intros t. exact I.
  Qed.
  Lemma within_alternative s n : within (rdoOnSequence grow b str s n) (2 * nodes_of n).
  Proof.
    pose proof (nodes_of_pos n). apply (within_le _ (1 * nodes_of n + 1)); [lia|].
    unfold rdoOnSequence. apply within_bind; [apply within_lr, within_symbol|].
    intros [s' [[]|e|p|]]; try exact I. exists 0. split; [reflexivity|]. intros t. exact I.
  Qed.
  Lemma within_tail s n : within (rdoOnSubstitution grow b str s n) (2 * nodes_of n).
  Proof.
    unfold rdoOnSubstitution. apply within_bind0; [apply within_lr, within_alternative|].
    intros [s' [[]|e|p|]]; exact I.
  Qed.
  Lemma within_onRule s n : within (rdoOnRule grow b str s n) (3 * nodes_of n).
  Proof.
    pose proof (nodes_of_pos n). apply (within_le _ (2 * nodes_of n + 1)); [lia|].
    unfold rdoOnRule. apply within_bind.
    - unfold rparseRule. destruct (b_lrTraverse b n (RuleHeadType b) (doOnHead str) []) as [[hd err]|[]|p|]; try exact I.
      destruct err as [[[]|s1| |s3|s4|s5]|]; try exact I. apply within_bind0; [apply within_lr, within_tail|].
      intros [s' [[]|e|p|]]; try exact I. destruct e as [[]|s1| |s3|s4|s5]; exact I.
    - intros [r|e|p|]; try exact I. exists 0. split; [reflexivity|]. intros t. exact I.
  Qed.
  Lemma within_ToAST_sorted root : within (rToAST_sorted grow b str root) (3 * nodes_of root).
  Proof.
    unfold rToAST_sorted. apply within_bind0; [apply within_lr, within_onRule|]. intros [s e]. exact I.
  Qed.
End Within.
