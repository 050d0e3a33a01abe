(** * GenConcRel: the same program at different addresses. *)
From Verif Require Import Base ByteSet Ast Parser SliceMem ParserMem TableGen TableGenMem TableGenConc
  Spec_Mem Spec_GenMem Spec_GenConc ParserMemProofs TGMem.

(** Which address alone belongs to which address among others: for arrays of
    sets, and arrays of operands. *)
Definition adr := list (nat * nat).
Record world := mkW { w_s : adr; w_o : adr }.
Definition wle (w w' : world) : Prop := incl (w_s w) (w_s w') /\ incl (w_o w) (w_o w').
Lemma wle_refl w : wle w w.
Proof. split; apply incl_refl. Qed.
Lemma wle_trans a b c : wle a b -> wle b c -> wle a c.
Proof. intros [A B] [C D]. split; eapply incl_tran; eassumption. Qed.

Definition srel (r : adr) (s s' : slice) : Prop :=
  sl_off s = sl_off s' /\ sl_len s = sl_len s' /\ sl_cap s = sl_cap s' /\
  (sl_cap s = 0 /\ sl_len s = 0 \/ In (sl_arr s, sl_arr s') r).
Lemma srel_le r r' s s' : incl r r' -> srel r s s' -> srel r' s s'.
Proof. intros I (A & B & C & D). split; [exact A|]. split; [exact B|]. split; [exact C|]. destruct D; auto. Qed.

Section Rel.
  Context {A : Type} (R : world -> A -> A -> Prop).
  Inductive prel : world -> prog A -> prog A -> Prop :=
  | rel_ok w a b : R w a b -> prel w (PRet (Ok a)) (PRet (Ok b))
  | rel_err w e : prel w (PRet (Err e)) (PRet (Err e))
  | rel_panic w p : prel w (PRet (Panic p)) (PRet (Panic p))
  | rel_nofuel w : prel w (PRet NoFuel) (PRet NoFuel)
  | rel_rule w s i k k' : (forall x, prel w (k x) (k' x)) -> prel w (PRule s i k) (PRule s i k')
  | rel_seq w s i k k' : (forall x, prel w (k x) (k' x)) -> prel w (PSeq s i k) (PSeq s i k')
  | rel_sym w s i k k' : (forall x, prel w (k x) (k' x)) -> prel w (PSym s i k) (PSym s i k')
  | rel_set w s s' i k k' : srel (w_s w) s s' -> (forall x, prel w (k x) (k' x)) ->
      prel w (PSet s i k) (PSet s' i k')
  | rel_write w s s' i x k k' : srel (w_s w) s s' -> prel w k k' ->
      prel w (PWrite s i x k) (PWrite s' i x k')
  | rel_make w n k k' :
      (forall s s' w', wle w w' -> srel (w_s w') s s' -> prel w' (k s) (k' s')) ->
      prel w (PMake n k) (PMake n k')
  | rel_append w grow s s' o k k' : srel (w_o w) s s' ->
      (forall t t' w', wle w w' -> srel (w_o w') t t' -> prel w' (k t) (k' t')) ->
      prel w (PAppend grow s o k) (PAppend grow s' o k').
End Rel.

Lemma prel_bind {A B} (R : world -> A -> A -> Prop) (R' : world -> B -> B -> Prop) w p p' f f' :
  prel R w p p' ->
  (forall w' a a', wle w w' -> R w' a a' -> prel R' w' (f a) (f' a')) ->
  prel R' w (pbind p f) (pbind p' f').
Proof.
  intros H. revert f f'. induction H; intros f f' F; cbn [pbind]; try (constructor; auto; fail).
  - apply F; [apply wle_refl|assumption].
  - constructor. intros s s' w' L S. apply H0; [exact L|exact S|]. intros w'' a a' L'. apply F. eapply wle_trans; eassumption.
  - constructor; [assumption|]. intros s0 s0' w' L S. apply H1; [exact L|exact S|]. intros w'' a a' L'. apply F.
    eapply wle_trans; eassumption.
Qed.

Definition eqR {A} : world -> A -> A -> Prop := fun _ a b => a = b.
Lemma ret_eq {A} w (r : tgres A) : prel eqR w (PRet r) (PRet r).
Proof. destruct r; constructor. reflexivity. Qed.
Lemma prel_weak {A} (R R' : world -> A -> A -> Prop) w p p' :
  prel R w p p' -> (forall w' a b, R w' a b -> R' w' a b) -> prel R' w p p'.
Proof. intros H I. induction H; constructor; auto. Qed.

Lemma rel_p_rule w s i : prel eqR w (p_rule s i) (p_rule s i).
Proof. constructor. intros x. apply ret_eq. Qed.
Lemma rel_p_seq w s i : prel eqR w (p_seq s i) (p_seq s i).
Proof. constructor. intros x. apply ret_eq. Qed.
Lemma rel_p_sym w s i : prel eqR w (p_sym s i) (p_sym s i).
Proof. constructor. intros x. apply ret_eq. Qed.
Lemma rel_p_set w s s' i : srel (w_s w) s s' -> prel eqR w (p_set s i) (p_set s' i).
Proof. intros H. constructor; [exact H|]. intros x. apply ret_eq. Qed.
Lemma rel_p_write w s s' i x : srel (w_s w) s s' -> prel eqR w (p_write s i x) (p_write s' i x).
Proof. intros H. constructor; [exact H|]. apply ret_eq. Qed.
Lemma rel_make_sets w n : prel (fun w' s s' => srel (w_s w') s s') w (pmake_sets n) (pmake_sets n).
Proof. constructor. intros. constructor. assumption. Qed.

(** Rows and tables at different addresses. *)
Definition rrel (w : world) (a b : mrow) : Prop :=
  Forall2 (fun c d => fst c = fst d /\ srel (w_o w) (snd c) (snd d)) a b.
Definition trel (w : world) (a b : mtable) : Prop :=
  Forall2 (fun c d => fst c = fst d /\ rrel w (snd c) (snd d)) a b.
Lemma Forall2_weak {A B} (P Q : A -> B -> Prop) l l' :
  (forall a b, P a b -> Q a b) -> Forall2 P l l' -> Forall2 Q l l'.
Proof. intros H F. induction F; constructor; auto. Qed.
Lemma rrel_le w w' a b : wle w w' -> rrel w a b -> rrel w' a b.
Proof. intros [_ L]. apply Forall2_weak. intros c d [E S]. split; [exact E|]. eapply srel_le; eassumption. Qed.
Lemma trel_le w w' a b : wle w w' -> trel w a b -> trel w' a b.
Proof. intros L. apply Forall2_weak. intros c d [E S]. split; [exact E|]. eapply rrel_le; eassumption. Qed.
Lemma rrel_get w a b c : rrel w a b ->
  match mrow_get c a, mrow_get c b with
  | Some s, Some s' => srel (w_o w) s s'
  | None, None => True
  | _, _ => False
  end.
Proof.
  induction 1 as [|[k s] [k' s'] a b [E S] F IH]; [exact I|]. cbn in E, S. subst k'. unfold mrow_get in *. cbn [map_get].
  destruct (Ascii.eqb c k); [exact S|exact IH].
Qed.
Lemma map_set_rel {K V} (eqb : K -> K -> bool) (P : V -> V -> Prop) k v v' l l' :
  P v v' -> Forall2 (fun c d => fst c = fst d /\ P (snd c) (snd d)) l l' ->
  Forall2 (fun c d => fst c = fst d /\ P (snd c) (snd d)) (map_set eqb k v l) (map_set eqb k v' l').
Proof.
  intros Hv F. induction F as [|[a x] [b y] l l' [E S] F IH]; cbn.
  - constructor; [split; [reflexivity|exact Hv]|constructor].
  - cbn in E, S. subst b. destruct (eqb k a); constructor; auto; split; auto.
Qed.
Lemma nil_rel r : srel r nil_slice nil_slice.
Proof. split; [reflexivity|]. split; [reflexivity|]. split; [reflexivity|]. left. split; reflexivity. Qed.

(** Stepping through two programs at once. *)
Ltac rels0 := first
  [ assumption
  | apply ret_eq
  | apply rel_p_rule | apply rel_p_seq | apply rel_p_sym
  | (apply rel_p_set; assumption) | (apply rel_p_write; assumption)
  | match goal with IH : context [prel] |- _ => apply IH end
  | solve [auto with rels] ].

Section Code.
  Variable grow : nat -> nat.
  Variable g : slice.
  Variable rc : nat.
  Variable rm : list (bytes * nat).
  Variable sfi sfo sfi' sfo' : slice.

  Definition fine (w : world) : Prop := srel (w_s w) sfi sfi' /\ srel (w_s w) sfo sfo'.
  Lemma fine_le w w' : wle w w' -> fine w -> fine w'.
  Proof. intros [L _] [A B]. split; eapply srel_le; eassumption. Qed.
  Hint Resolve fine_le : rels.
  Lemma rel_fi w i : fine w -> prel eqR w (p_set sfi i) (p_set sfi' i).
  Proof. intros H. apply rel_p_set, H. Qed.
  Lemma rel_fo w i : fine w -> prel eqR w (p_set sfo i) (p_set sfo' i).
  Proof. intros H. apply rel_p_set, H. Qed.
  Lemma rel_wi w i x : fine w -> prel eqR w (p_write sfi i x) (p_write sfi' i x).
  Proof. intros H. apply rel_p_write, H. Qed.
  Lemma rel_wo w i x : fine w -> prel eqR w (p_write sfo i x) (p_write sfo' i x).
  Proof. intros H. apply rel_p_write, H. Qed.

  Ltac bnd := eapply (prel_bind eqR);
    [|let L := fresh "L" in let E := fresh "E" in intros ? ? ? L E; unfold eqR in E; subst;
      repeat match goal with H : fine ?w |- _ => match type of L with wle w _ => apply (fine_le _ _ L) in H end end;
      repeat match goal with H : rrel ?w _ _ |- _ => match type of L with wle w _ => apply (rrel_le _ _ _ _ L) in H end end;
      repeat match goal with H : trel ?w _ _ |- _ => match type of L with wle w _ => apply (trel_le _ _ _ _ L) in H end end;
      clear L].
  Ltac rels := repeat (first
    [ apply ret_eq
    | apply rel_p_rule | apply rel_p_seq | apply rel_p_sym
    | (apply rel_fi; assumption) | (apply rel_fo; assumption)
    | (apply rel_wi; assumption) | (apply rel_wo; assumption)
    | match goal with IH : context [prel] |- _ => apply IH; assumption end
    | solve [auto with rels]
    | match goal with |- prel _ _ (pbind _ _) (pbind _ _) => bnd end
    | match goal with |- prel _ _ (match ?x with _ => _ end) _ => destruct x end ]).

  Lemma rel_sequenceFirsts_loop seq : forall n w res found, fine w ->
    prel eqR w (psequenceFirsts_loop rm sfi seq n res found) (psequenceFirsts_loop rm sfi' seq n res found).
  Proof. induction n as [|n IH]; intros w res found H; cbn [psequenceFirsts_loop]; rels. Qed.
  Lemma rel_sequenceFirsts seq w : fine w -> prel eqR w (psequenceFirsts rm sfi seq) (psequenceFirsts rm sfi' seq).
  Proof. apply rel_sequenceFirsts_loop. Qed.
  Hint Resolve rel_sequenceFirsts : rels.
  Lemma rel_substitutionFirsts_loop seqs : forall n w res, fine w ->
    prel eqR w (psubstitutionFirsts_loop rm sfi seqs n res) (psubstitutionFirsts_loop rm sfi' seqs n res).
  Proof. induction n as [|n IH]; intros w res H; cbn [psubstitutionFirsts_loop]; rels. Qed.
  Hint Resolve rel_substitutionFirsts_loop : rels.
  Lemma rel_ruleFirsts w i ch : fine w -> prel eqR w (pruleFirsts g rc rm sfi i ch) (pruleFirsts g rc rm sfi' i ch).
  Proof. intros H. unfold pruleFirsts. rels. Qed.
  Hint Resolve rel_ruleFirsts : rels.
  Lemma rel_firsts_round : forall idxs w ch, fine w ->
    prel eqR w (pfirsts_round g rc rm sfi idxs ch) (pfirsts_round g rc rm sfi' idxs ch).
  Proof. induction idxs as [|i idxs IH]; intros w ch H; cbn [pfirsts_round]; rels. Qed.
  Hint Resolve rel_firsts_round : rels.
  Lemma rel_findFirsts : forall fuel w, fine w ->
    prel eqR w (pfindFirsts g rc rm sfi fuel) (pfindFirsts g rc rm sfi' fuel).
  Proof. induction fuel as [|fuel IH]; intros w H; cbn [pfindFirsts]; rels. Qed.
  Hint Resolve rel_findFirsts : rels.
  Lemma rel_symbolFirsts s w : fine w -> prel eqR w (psymbolFirsts rm sfi s) (psymbolFirsts rm sfi' s).
  Proof. intros H. unfold psymbolFirsts. rels. Qed.
  Hint Resolve rel_symbolFirsts : rels.
  Lemma rel_add_follows w i x : fine w -> prel eqR w (padd_follows sfo i x) (padd_follows sfo' i x).
  Proof. intros H. unfold padd_follows. rels. Qed.
  Hint Resolve rel_add_follows : rels.
  Lemma rel_follows_inner ri seq si : forall i w ch, fine w ->
    prel eqR w (pfollows_inner g rm sfi sfo ri seq si i ch) (pfollows_inner g rm sfi' sfo' ri seq si i ch).
  Proof. induction i as [|i IH]; intros w ch H; cbn [pfollows_inner]; rels. Qed.
  Hint Resolve rel_follows_inner : rels.
  Lemma rel_ruleFollowsInSequence w ri seq si ch : fine w ->
    prel eqR w (pruleFollowsInSequence g rm sfi sfo ri seq si ch) (pruleFollowsInSequence g rm sfi' sfo' ri seq si ch).
  Proof. intros H. unfold pruleFollowsInSequence. cbv zeta. rels. Qed.
  Hint Resolve rel_ruleFollowsInSequence : rels.
  Lemma rel_follows_sequences ri seqs ai : forall n w ch, fine w ->
    prel eqR w (pfollows_sequences g rm sfi sfo ri seqs n ai ch) (pfollows_sequences g rm sfi' sfo' ri seqs n ai ch).
  Proof. induction n as [|n IH]; intros w ch H; cbn [pfollows_sequences]; rels. Qed.
  Hint Resolve rel_follows_sequences : rels.
  Lemma rel_ruleFollowsInRule w i j ch : fine w ->
    prel eqR w (pruleFollowsInRule g rc rm sfi sfo i j ch) (pruleFollowsInRule g rc rm sfi' sfo' i j ch).
  Proof. intros H. unfold pruleFollowsInRule. rels. Qed.
  Hint Resolve rel_ruleFollowsInRule : rels.
  Lemma rel_follows_round : forall pairs w ch, fine w ->
    prel eqR w (pfollows_round g rc rm sfi sfo pairs ch) (pfollows_round g rc rm sfi' sfo' pairs ch).
  Proof. induction pairs as [|[i j] pairs IH]; intros w ch H; cbn [pfollows_round]; rels. Qed.
  Hint Resolve rel_follows_round : rels.
  Lemma rel_follows_loop : forall fuel w, fine w ->
    prel eqR w (pfollows_loop g rc rm sfi sfo fuel) (pfollows_loop g rc rm sfi' sfo' fuel).
  Proof. induction fuel as [|fuel IH]; intros w H; cbn [pfollows_loop]; rels. Qed.
  Hint Resolve rel_follows_loop : rels.
  Lemma rel_findFollows fuel w : fine w ->
    prel eqR w (pfindFollows g rc rm sfi sfo fuel) (pfindFollows g rc rm sfi' sfo' fuel).
  Proof. intros H. unfold pfindFollows. rels. Qed.
  Hint Resolve rel_findFollows : rels.

  Lemma rel_fill_follows : forall terms w res res', rrel w res res' ->
    prel rrel w (pfill_follows terms res) (pfill_follows terms res').
  Proof.
    induction terms as [|t terms IH]; intros w res res' H; cbn [pfill_follows]; [constructor; exact H|].
    pose proof (rrel_get _ _ _ t H) as G. destruct (mrow_get t res), (mrow_get t res'); try contradiction; [constructor|].
    apply IH. apply map_set_rel; [apply nil_rel|exact H].
  Qed.
  Lemma rel_row_append w b op res res' : rrel w res res' ->
    prel rrel w (prow_append grow b op res) (prow_append grow b op res').
  Proof.
    intros H. unfold prow_append, p_append. cbn [pbind]. constructor.
    - pose proof (rrel_get _ _ _ b H) as G. destruct (mrow_get b res), (mrow_get b res'); try contradiction; [exact G|apply nil_rel].
    - intros t t' w' L S. constructor. apply map_set_rel; [exact S|]. exact (rrel_le _ _ _ _ L H).
  Qed.
  Ltac bndr L := eapply (prel_bind rrel); [|intros ? ? ? L ?].
  Lemma rel_fill_symbols t seq : forall n w res res', rrel w res res' ->
    prel rrel w (pfill_symbols grow rm t seq n res) (pfill_symbols grow rm t seq n res').
  Proof.
    induction n as [|n IH]; intros w res res' H; cbn [pfill_symbols]; [constructor; exact H|].
    bnd; [apply rel_p_sym|]. destruct a' as [v|t0| |u]; try solve [constructor].
    - destruct (rm_get rm v); [|constructor]. bndr L; [apply rel_row_append, H|]. apply IH. assumption.
    - bndr L; [apply rel_row_append, H|]. apply IH. assumption.
  Qed.
  Lemma rel_fill_firsts seq : forall terms w res res', rrel w res res' ->
    prel rrel w (pfill_firsts grow rm terms seq res) (pfill_firsts grow rm terms seq res').
  Proof.
    induction terms as [|t terms IH]; intros w res res' H; cbn [pfill_firsts]; [constructor; exact H|].
    bndr L; [apply rel_fill_symbols, H|]. apply IH. assumption.
  Qed.
  Lemma rel_row_loop ri seqs : forall n w res res', fine w -> rrel w res res' ->
    prel rrel w (prow_loop grow rm sfi sfo ri seqs n res) (prow_loop grow rm sfi' sfo' ri seqs n res').
  Proof.
    induction n as [|n IH]; intros w res res' F H; cbn [prow_loop]; [constructor; exact H|].
    bnd; [apply rel_p_seq|]. bnd; [apply rel_sequenceFirsts; assumption|].
    eapply (prel_bind (fun w a b => rrel w (fst a) (fst b) /\ snd a = snd b)).
    - destruct (bs_contains a'0 EOS).
      + bnd; [apply rel_fo; assumption|]. bnd; [apply ret_eq|]. bndr L; [apply rel_fill_follows; eassumption|].
        constructor. split; [assumption|reflexivity].
      + constructor. split; [assumption|reflexivity].
    - intros w2 [x1 x2] [y1 y2] L [Hr E]. cbn in Hr, E. subst y2. apply (fine_le _ _ L) in F. clear L H.
      bnd; [apply ret_eq|]. bndr L; [apply rel_fill_firsts; eassumption|]. apply IH; [exact (fine_le _ _ L F)|assumption].
  Qed.
  Lemma rel_makeTableRow w i : fine w ->
    prel rrel w (pmakeTableRow grow g rm sfi sfo i) (pmakeTableRow grow g rm sfi' sfo' i).
  Proof.
    intros H. unfold pmakeTableRow. bnd; [apply rel_p_rule|]. apply rel_row_loop; [assumption|constructor].
  Qed.
  Lemma rel_makeTable_loop : forall idxs w tbl tbl', fine w -> trel w tbl tbl' ->
    prel trel w (pmakeTable_loop grow g rm sfi sfo idxs tbl) (pmakeTable_loop grow g rm sfi' sfo' idxs tbl').
  Proof.
    induction idxs as [|i idxs IH]; intros w tbl tbl' F H; cbn [pmakeTable_loop]; [constructor; exact H|].
    bndr L; [apply rel_makeTableRow, F|]. apply IH; [exact (fine_le _ _ L F)|].
    apply map_set_rel; [assumption|]. exact (trel_le _ _ _ _ L H).
  Qed.
  Lemma rel_Run fuel w : fine w ->
    prel trel w (pRun grow g rc rm sfi sfo fuel) (pRun grow g rc rm sfi' sfo' fuel).
  Proof.
    intros H. unfold pRun. bnd; [apply rel_findFirsts; assumption|]. bnd; [apply rel_findFollows; assumption|].
    apply rel_makeTable_loop; [assumption|constructor].
  Qed.
End Code.

Lemma rel_collect g : forall n w, prel eqR w (pcollect g n) (pcollect g n).
Proof.
  induction n as [|n IH]; intros w; cbn [pcollect]; [apply ret_eq|].
  eapply (prel_bind eqR); [apply rel_p_rule|]. intros w1 a a' _ E. unfold eqR in E. subst a'.
  eapply (prel_bind eqR); [apply IH|]. intros w2 b b' _ E. unfold eqR in E. subst b'. apply ret_eq.
Qed.

Definition resrel (w : world) (a b : mtable * list (Z * bytes)) : Prop := trel w (fst a) (fst b) /\ snd a = snd b.

Lemma rel_FromGrammar grow order fuel g w :
  prel resrel w (pFromGrammar grow order fuel g) (pFromGrammar grow order fuel g).
Proof.
  unfold pFromGrammar. eapply (prel_bind eqR); [apply rel_collect|]. intros w1 hs hs' _ E. unfold eqR in E. subst hs'.
  eapply prel_bind; [apply rel_make_sets|]. intros w2 s s' _ S. cbv beta in S.
  eapply prel_bind; [apply rel_make_sets|]. intros w3 t t' L T. cbv beta in T.
  eapply prel_bind; [apply rel_Run|].
  - split; [|exact T]. destruct L as [L _]. eapply srel_le; eassumption.
  - intros w4 x y _ H. constructor. split; [exact H|reflexivity].
Qed.
