(** * ParserConcRel: the same call of Parse at different addresses. *)
From Verif Require Import Base Cst Parser SliceMem ParserMem ParserConc Spec_Mem Spec_ParserConc ParserMemProofs.

(** Which address alone belongs to which address among others: for the arrays
    of operands, of nodes and of bytes that the call has made. *)
Definition adr := list (nat * nat).
Record world := mkW { w_o : adr; w_n : adr; w_b : adr }.
Definition wle (w w' : world) : Prop :=
  incl (w_o w) (w_o w') /\ incl (w_n w) (w_n w') /\ incl (w_b w) (w_b w').
Lemma wle_refl w : wle w w.
Proof. repeat split; apply incl_refl. Qed.
Lemma wle_trans a b c : wle a b -> wle b c -> wle a c.
Proof. intros (A & B & C) (D & E & F). repeat split; eapply incl_tran; eassumption. Qed.

Definition srel (r : adr) (s s' : slice) : Prop :=
  sl_off s = sl_off s' /\ sl_len s = sl_len s' /\ sl_cap s = sl_cap s' /\
  (sl_cap s = 0 /\ sl_len s = 0 \/ In (sl_arr s, sl_arr s') r).
Lemma srel_le r r' s s' : incl r r' -> srel r s s' -> srel r' s s'.
Proof. intros I (A & B & C & D). split; [exact A|]. split; [exact B|]. split; [exact C|]. destruct D; auto. Qed.
Lemma nil_rel r : srel r nil_slice nil_slice.
Proof. split; [reflexivity|]. split; [reflexivity|]. split; [reflexivity|]. left. split; reflexivity. Qed.
Lemma srel_len r s s' : srel r s s' -> sl_len s = sl_len s'.
Proof. intros (_ & E & _). exact E. Qed.
Lemma srel_trunc r s s' n : srel r s s' -> n <= sl_len s -> srel r (slice_trunc s n) (slice_trunc s' n).
Proof.
  intros (A & B & C & D) L. repeat split; [exact A|exact C|]. cbn. destruct D as [[D1 D2]|D]; [left; split; [exact D1|lia]|right; exact D].
Qed.

(** A slice of an array that existed before the calls is the same for both. *)
Definition base_ok (base : nat) (s : slice) : Prop := sl_len s = 0 \/ sl_arr s < base.
Definition bsrel (base : nat) (r : adr) (s s' : slice) : Prop :=
  srel r s s' \/ (s = s' /\ base_ok base s).
Lemma bsrel_le base r r' s s' : incl r r' -> bsrel base r s s' -> bsrel base r' s s'.
Proof. intros I [H|H]; [left; eapply srel_le; eassumption|right; exact H]. Qed.
Lemma bsrel_len base r s s' : bsrel base r s s' -> sl_len s = sl_len s'.
Proof. intros [H|[-> _]]; [eapply srel_len; exact H|reflexivity]. Qed.

(** Nodes at different addresses. *)
Definition nrel (w : world) (a b : mnode) : Prop :=
  match a, b with
  | MNode t p q s, MNode t' p' q' s' => t = t' /\ p = p' /\ q = q' /\ srel (w_n w) s s'
  end.
Definition orel {T} (P : T -> T -> Prop) (a b : option T) : Prop :=
  match a, b with Some x, Some y => P x y | None, None => True | _, _ => False end.
Definition onrel (w : world) : option mnode -> option mnode -> Prop := orel (nrel w).
Lemma nrel_le w w' a b : wle w w' -> nrel w a b -> nrel w' a b.
Proof.
  intros (_ & L & _). destruct a, b. cbn. intros (-> & -> & -> & S). repeat (split; [reflexivity|]). eapply srel_le; eassumption.
Qed.
Lemma onrel_le w w' a b : wle w w' -> onrel w a b -> onrel w' a b.
Proof. intros L. destruct a, b; cbn; auto. apply nrel_le, L. Qed.
Lemma nrel_type w a b : nrel w a b -> mn_type a = mn_type b.
Proof. destruct a, b. cbn. intros (-> & _). reflexivity. Qed.

Section Rel.
  Variable bo bb : nat.
  Context {A : Type} (R : world -> A -> A -> Prop).
  Inductive qrel : world -> qprog A -> qprog A -> Prop :=
  | qr_ret w a b : R w a b -> qrel w (QRet a) (QRet b)
  | qr_op w s s' i k k' : bsrel bo (w_o w) s s' -> (forall x, qrel w (k x) (k' x)) ->
      qrel w (QOp s i k) (QOp s' i k')
  | qr_byte w s s' i k k' : bsrel bb (w_b w) s s' -> (forall x, qrel w (k x) (k' x)) ->
      qrel w (QByte s i k) (QByte s' i k')
  | qr_node w s s' i k k' : srel (w_n w) s s' ->
      (forall x x', orel (onrel w) x x' -> qrel w (k x) (k' x')) ->
      qrel w (QNode s i k) (QNode s' i k')
  | qr_appop w grow s s' o k k' : srel (w_o w) s s' ->
      (forall t t' w', wle w w' -> srel (w_o w') t t' -> qrel w' (k t) (k' t')) ->
      qrel w (QAppOp grow s o k) (QAppOp grow s' o k')
  | qr_appnode w grow s s' n n' k k' : srel (w_n w) s s' -> onrel w n n' ->
      (forall t t' w', wle w w' -> srel (w_n w') t t' -> qrel w' (k t) (k' t')) ->
      qrel w (QAppNode grow s n k) (QAppNode grow s' n' k')
  | qr_setnode w s s' i n n' k k' : srel (w_n w) s s' -> onrel w n n' ->
      (forall b, qrel w (k b) (k' b)) ->
      qrel w (QSetNode s i n k) (QSetNode s' i n' k')
  | qr_nodes w arr arr' k k' : Forall2 (onrel w) arr arr' ->
      (forall t t' w', wle w w' -> srel (w_n w') t t' -> qrel w' (k t) (k' t')) ->
      qrel w (QNodes arr k) (QNodes arr' k')
  | qr_bytes w arr k k' :
      (forall t t' w', wle w w' -> srel (w_b w') t t' -> qrel w' (k t) (k' t')) ->
      qrel w (QBytes arr k) (QBytes arr k').
End Rel.

Lemma qrel_bind {A B} bo bb (R : world -> A -> A -> Prop) (R' : world -> B -> B -> Prop) w p p' f f' :
  qrel bo bb R w p p' ->
  (forall w' a a', wle w w' -> R w' a a' -> qrel bo bb R' w' (f a) (f' a')) ->
  qrel bo bb R' w (qbind p f) (qbind p' f').
Proof.
  intros H. revert f f'. induction H as [w a b Hr|w s s' i k k' S K IH|w s s' i k k' S K IH|w s s' i k k' S K IH
    |w g s s' o k k' S K IH|w g s s' n n' k k' S N K IH|w s s' i n n' k k' S N K IH|w arr arr' k k' F K IH|w arr k k' K IH];
    intros f f' G; cbn [qbind].
  - apply G; [apply wle_refl|exact Hr].
  - constructor; [exact S|]. intros x. apply IH. exact G.
  - constructor; [exact S|]. intros x. apply IH. exact G.
  - constructor; [exact S|]. intros x x' X. apply IH; [exact X|exact G].
  - constructor; [exact S|]. intros t t' w' L T. apply IH; [exact L|exact T|]. intros w'' a a' L'. apply G. eapply wle_trans; eassumption.
  - constructor; [exact S|exact N|]. intros t t' w' L T. apply IH; [exact L|exact T|]. intros w'' a a' L'. apply G. eapply wle_trans; eassumption.
  - constructor; [exact S|exact N|]. intros b. apply IH. exact G.
  - constructor; [exact F|]. intros t t' w' L T. apply IH; [exact L|exact T|]. intros w'' a a' L'. apply G. eapply wle_trans; eassumption.
  - constructor. intros t t' w' L T. apply IH; [exact L|exact T|]. intros w'' a a' L'. apply G. eapply wle_trans; eassumption.
Qed.

Definition eqR {A} : world -> A -> A -> Prop := fun _ a b => a = b.

(** Outcomes with something in them. *)
Definition gorel {E A} (R : A -> A -> Prop) (a b : gores E A) : Prop :=
  match a, b with
  | Ok x, Ok y => R x y
  | Err e, Err e' => e = e'
  | Panic p, Panic q => p = q
  | NoFuel, NoFuel => True
  | _, _ => False
  end.
Definition retrel (w : world) (a b : mreturn) : Prop :=
  onrel w (mr_tree a) (mr_tree b) /\ mr_names a = mr_names b /\ mr_err a = mr_err b.
Lemma mret_err_rel w e : retrel w (mret_err e) (mret_err e).
Proof. split; [exact I|split; reflexivity]. Qed.
Definition strel (w : world) (a b : qstate) : Prop :=
  srel (w_o w) (qs_ops a) (qs_ops b) /\ srel (w_n w) (qs_prods a) (qs_prods b) /\ qs_off a = qs_off b.
Lemma strel_le w w' a b : wle w w' -> strel w a b -> strel w' a b.
Proof. intros (L1 & L2 & _) (A & B & C). split; [eapply srel_le; eassumption|]. split; [eapply srel_le; eassumption|exact C]. Qed.
Definition steprel (w : world) (a b : qstepres) : Prop :=
  match a, b with
  | QNext s, QNext s' => strel w s s'
  | QReturn r nm, QReturn r' nm' => retrel w r r' /\ nm = nm'
  | QPanic p, QPanic q => p = q
  | _, _ => False
  end.

(** The same cells under the same numbers and bytes, the cells at different
    addresses. *)
Definition tabrel (bo : nat) (w : world) (t t' : mtable) : Prop :=
  forall n, orel (fun row row' => forall c, orel (bsrel bo (w_o w)) (mrow_get c row) (mrow_get c row'))
    (mtable_get n t) (mtable_get n t').
Lemma tabrel_le bo w w' t t' : wle w w' -> tabrel bo w t t' -> tabrel bo w' t t'.
Proof.
  intros (L & _) T n. specialize (T n). destruct (mtable_get n t), (mtable_get n t'); cbn in *; auto.
  intros c. specialize (T c). destruct (mrow_get c _), (mrow_get c _); cbn in *; auto. eapply bsrel_le; eassumption.
Qed.

Section Code.
  Variable bo bb : nat.
  Variable grow : nat -> nat.
  Variable tbl tbl' : mtable.
  Variable src src' : slice.
  Variable names : names_map.
  Notation qrel := (qrel bo bb).

  Definition srcrel (w : world) : Prop := tabrel bo w tbl tbl' /\ bsrel bb (w_b w) src src'.
  Lemma srcrel_le w w' : wle w w' -> srcrel w -> srcrel w'.
  Proof. intros L [T S]. split; [eapply tabrel_le; eassumption|]. destruct L as (_ & _ & L). eapply bsrel_le; eassumption. Qed.

  Lemma rel_push_op w st st' o : srel (w_o w) st st' ->
    qrel (fun w s s' => srel (w_o w) s s') w (qpush_op grow st o) (qpush_op grow st' o).
  Proof. intros S. constructor; [exact S|]. intros t t' w' _ T. constructor. exact T. Qed.
  Lemma rel_push_node w st st' n n' : srel (w_n w) st st' -> nrel w n n' ->
    qrel (fun w s s' => srel (w_n w) s s') w (qpush_node grow st n) (qpush_node grow st' n').
  Proof. intros S N. constructor; [exact S|exact N|]. intros t t' w' _ T. constructor. exact T. Qed.
  Lemma rel_pop_op w st st' : srel (w_o w) st st' ->
    qrel (fun w => gorel (orel (fun a b => fst a = fst b /\ srel (w_o w) (snd a) (snd b)))) w (qpop_op st) (qpop_op st').
  Proof.
    intros S. unfold qpop_op. rewrite <- (srel_len _ _ _ S). destruct (Nat.eqb _ 0); [constructor; exact I|].
    constructor; [left; exact S|]. intros [x|]; constructor; cbn; [|reflexivity].
    split; [reflexivity|]. apply srel_trunc; [exact S|lia].
  Qed.
  Lemma rel_pop_node w st st' : srel (w_n w) st st' ->
    qrel (fun w => gorel (orel (fun a b => onrel w (fst a) (fst b) /\ srel (w_n w) (snd a) (snd b)))) w (qpop_node st) (qpop_node st').
  Proof.
    intros S. unfold qpop_node. rewrite <- (srel_len _ _ _ S). destruct (Nat.eqb _ 0); [constructor; exact I|].
    constructor; [exact S|]. intros [x|] [x'|] X; try contradiction; constructor; cbn; [|reflexivity].
    split; [exact X|]. apply srel_trunc; [exact S|lia].
  Qed.
  Lemma rel_peek w off : srcrel w -> qrel eqR w (qpeek src off) (qpeek src' off).
  Proof.
    intros [_ S]. unfold qpeek. rewrite <- (bsrel_len _ _ _ _ S). destruct (Nat.leb _ off); [constructor; reflexivity|].
    constructor; [exact S|]. intros x. constructor. reflexivity.
  Qed.

  (** Continue after a program whose outcome is related by [R]. *)
  Ltac bnd tac L H := eapply qrel_bind; [tac|intros ? ? ? L H; cbv beta in H].
  Ltac peek S c := let L := fresh "L" in let E := fresh "E" in
    eapply qrel_bind; [apply rel_peek; exact S|intros ? c ? L E; unfold eqR in E; subst];
    repeat match goal with H : strel ?w _ _ |- _ => match type of L with wle w _ => apply (strel_le _ _ _ _ L) in H end end;
    apply (srcrel_le _ _ L) in S; clear L.

  Lemma rel_push_cell cell cell' : forall i w st st', bsrel bo (w_o w) cell cell' -> srel (w_o w) st st' ->
    qrel (fun w => gorel (srel (w_o w))) w (qpush_cell grow cell i st) (qpush_cell grow cell' i st').
  Proof.
    induction i as [|i IH]; intros w st st' B S; cbn [qpush_cell]; [constructor; exact S|].
    constructor; [exact B|]. intros [op|]; [|constructor; reflexivity].
    bnd ltac:(apply rel_push_op, S) L T. apply IH; [|exact T]. destruct L as (L & _). eapply bsrel_le; eassumption.
  Qed.

  Lemma rel_push_chars : forall cs w st st', srel (w_o w) st st' ->
    qrel (fun w s s' => srel (w_o w) s s') w (qpush_chars grow cs st) (qpush_chars grow cs st').
  Proof.
    induction cs as [|c cs IH]; intros w st st' S; cbn [qpush_chars]; [constructor; exact S|].
    bnd ltac:(apply rel_push_op, S) L T. apply IH. exact T.
  Qed.

  Lemma rel_table w name st st' : srcrel w -> strel w st st' ->
    qrel steprel w (qprocessTableNonTerminal grow tbl src names name st)
      (qprocessTableNonTerminal grow tbl' src' names name st').
  Proof.
    intros Sr St. unfold qprocessTableNonTerminal. pose proof (proj1 Sr name) as Tn.
    destruct (mtable_get name tbl) as [row|] eqn:Er, (mtable_get name tbl') as [row'|] eqn:Er'; try contradiction.
    2: { constructor. split; [apply mret_err_rel|reflexivity]. }
    clear Tn. rewrite <- (proj2 (proj2 St)). peek Sr c. pose proof (proj1 Sr name) as Tn. rewrite Er, Er' in Tn.
    cbn in Tn. specialize (Tn a').
    destruct (mrow_get a' row) as [cell|] eqn:Ec, (mrow_get a' row') as [cell'|] eqn:Ec'; try contradiction; cbn in Tn.
    - rewrite <- (bsrel_len _ _ _ _ Tn). bnd ltac:(apply rel_push_op, St) L T. apply (strel_le _ _ _ _ L) in St.
      bnd ltac:(apply rel_push_cell; [destruct L as (L & _); eapply bsrel_le; eassumption|exact T]) L' U. apply (strel_le _ _ _ _ L') in St.
      destruct a0 as [x|x|x|], a'1 as [y|y|y|]; try contradiction; constructor; cbn; try exact U; try reflexivity.
      split; [exact U|]. split; [apply St|reflexivity].
    - peek Sr d. constructor. split; [apply mret_err_rel|reflexivity].
  Qed.

  Lemma rel_NonTerminal w name st st' : srcrel w -> strel w st st' ->
    qrel steprel w (qprocessNonTerminal grow tbl src names name st)
      (qprocessNonTerminal grow tbl' src' names name st').
  Proof.
    intros Sr St. unfold qprocessNonTerminal. destruct (name <? 0)%Z; [|apply rel_table; assumption].
    unfold qprocessBuiltinNonTerminal. destruct (name =? -2)%Z; [|constructor; split; [apply mret_err_rel|reflexivity]].
    pose proof (proj2 (proj2 St)) as Eo. rewrite <- Eo. peek Sr c. destruct (Ascii.eqb _ LF); [|destruct (Ascii.eqb _ CR)].
    - bnd ltac:(apply rel_push_op, St) L1 T1. apply (strel_le _ _ _ _ L1) in St.
      bnd ltac:(apply rel_push_op, T1) L2 T2. apply (strel_le _ _ _ _ L2) in St.
      constructor. split; [exact T2|]. split; [apply St|reflexivity].
    - bnd ltac:(apply rel_push_op, St) L1 T1. apply (strel_le _ _ _ _ L1) in St.
      bnd ltac:(apply rel_push_op, T1) L2 T2. apply (strel_le _ _ _ _ L2) in St.
      bnd ltac:(apply rel_push_op, T2) L3 T3. apply (strel_le _ _ _ _ L3) in St.
      constructor. split; [exact T3|]. split; [apply St|reflexivity].
    - peek Sr d. constructor. split; [apply mret_err_rel|reflexivity].
  Qed.

  Lemma rel_Terminal w t st st' : strel w st st' ->
    qrel steprel w (qprocessTerminal grow t st) (qprocessTerminal grow t st').
  Proof.
    intros St. unfold qprocessTerminal. rewrite <- (proj2 (proj2 St)).
    bnd ltac:(apply rel_push_op, St) L1 T1. apply (strel_le _ _ _ _ L1) in St.
    bnd ltac:(apply rel_push_chars, T1) L2 T2. apply (strel_le _ _ _ _ L2) in St.
    constructor. split; [exact T2|]. split; [apply St|reflexivity].
  Qed.

  Lemma rel_pop_into dc : forall i w st st' ch ch', srel (w_n w) st st' -> srel (w_n w) ch ch' ->
    qrel (fun w => gorel (srel (w_n w))) w (qpop_into dc i st ch) (qpop_into dc i st' ch').
  Proof.
    induction i as [|i IH]; intros w st st' ch ch' S C; cbn [qpop_into]; [constructor; exact S|].
    bnd ltac:(apply rel_pop_node, S) L H. apply (srel_le (w_n w) (w_n w')) in C; [|apply L].
    destruct a as [x|x|x|], a' as [y|y|y|]; try contradiction; try (constructor; cbn; congruence).
    destruct x as [[n s]|], y as [[n' s']|]; try contradiction; [|constructor; reflexivity]. destruct H as [N T]. cbn in N, T.
    destruct dc; cbn [negb].
    - destruct n as [n|], n' as [n'|]; try contradiction; [|constructor; reflexivity].
      rewrite <- (nrel_type _ _ _ N). destruct (negb _); [constructor; reflexivity|]. apply IH; assumption.
    - constructor; [exact C|exact N|]. intros [|]; [apply IH; assumption|constructor; reflexivity].
  Qed.

  Lemma rel_Function w name pos amount st st' : strel w st st' ->
    qrel steprel w (qprocessFunction grow name pos amount st) (qprocessFunction grow name pos amount st').
  Proof.
    intros St. unfold qprocessFunction. rewrite <- (proj2 (proj2 St)). cbv zeta. destruct (Nat.eqb amount 0).
    - constructor.
      + constructor; [|constructor]. cbn. repeat (split; [reflexivity|]). apply nil_rel.
      + intros t t' w' L T. apply (strel_le _ _ _ _ L) in St.
        bnd ltac:(apply rel_push_node; [apply St|cbn; repeat (split; [reflexivity|]); exact T]) L1 T1.
        apply (strel_le _ _ _ _ L1) in St. constructor. split; [apply St|]. split; [exact T1|reflexivity].
    - eapply (qrel_bind _ _ (fun w s s' => srel (w_n w) s s')).
      { destruct (negb _); [|constructor; apply nil_rel]. constructor.
        - induction amount; constructor; [exact I|assumption].
        - intros t t' w' _ T. constructor. exact T. }
      intros w1 ch ch' L C. apply (strel_le _ _ _ _ L) in St.
      bnd ltac:(apply rel_pop_into; [apply St|exact C]) L1 H. apply (strel_le _ _ _ _ L1) in St.
      apply (srel_le (w_n w1) (w_n w')) in C; [|apply L1].
      destruct a as [x|x|x|], a' as [y|y|y|]; try contradiction; try (constructor; cbn; congruence).
      bnd ltac:(apply rel_push_node; [exact H|cbn; repeat (split; [reflexivity|]); exact C]) L2 T2.
      apply (strel_le _ _ _ _ L2) in St. constructor. split; [apply St|]. split; [exact T2|reflexivity].
  Qed.

  Lemma rel_EOS w st st' : srcrel w -> strel w st st' ->
    qrel steprel w (qprocessEOS src names st) (qprocessEOS src' names st').
  Proof.
    intros Sr St. unfold qprocessEOS. rewrite <- (proj2 (proj2 St)). peek Sr c. destruct (negb _).
    - peek Sr d. constructor. split; [apply mret_err_rel|reflexivity].
    - bnd ltac:(apply rel_pop_node, St) L H.
      destruct a as [x|x|x|], a'0 as [y|y|y|]; try contradiction; try (constructor; cbn; congruence).
      destruct x as [[n s]|], y as [[n' s']|]; try contradiction; [|constructor; split; [apply mret_err_rel|reflexivity]].
      destruct H as [N _]. cbn in N. destruct names; constructor; [|reflexivity].
      split; [|reflexivity]. split; [exact N|split; reflexivity].
  Qed.

  Lemma rel_Char w c st st' : srcrel w -> strel w st st' ->
    qrel steprel w (qprocessChar grow src names c st) (qprocessChar grow src' names c st').
  Proof.
    intros Sr St. pose proof (proj2 (proj2 St)) as Eo. unfold qprocessChar. rewrite <- Eo. peek Sr d. destruct (negb _).
    - peek Sr e. constructor. split; [apply mret_err_rel|reflexivity].
    - bnd ltac:(apply rel_push_node; [apply St|cbn; repeat (split; [reflexivity|]); apply nil_rel]) L T.
      apply (strel_le _ _ _ _ L) in St. constructor. split; [apply St|]. split; [exact T|reflexivity].
  Qed.

  Lemma rel_iter w st st' : srcrel w -> strel w st st' ->
    qrel steprel w (qiter grow tbl src names st) (qiter grow tbl' src' names st').
  Proof.
    intros Sr St. unfold qiter. bnd ltac:(apply rel_pop_op, St) L H.
    apply (srcrel_le _ _ L) in Sr. apply (strel_le _ _ _ _ L) in St.
    destruct a as [x|x|x|], a' as [y|y|y|]; try contradiction; try (constructor; cbn; congruence).
    destruct x as [[o s]|], y as [[o' s']|]; try contradiction; [|constructor; reflexivity].
    destruct H as [E T]. cbn in E, T. subst o'.
    assert (St1 : strel w' (mkQS s (qs_prods st) (qs_off st)) (mkQS s' (qs_prods st') (qs_off st')))
      by (split; [exact T|split; apply St]).
    destruct o as [name|t|name pos amount| |c| |e].
    - apply rel_NonTerminal; assumption.
    - apply rel_Terminal; assumption.
    - apply rel_Function; assumption.
    - apply rel_EOS; assumption.
    - apply rel_Char; assumption.
    - constructor. reflexivity.
    - constructor. reflexivity.
  Qed.

  Definition looprel (w : world) (a b : gores Empty_set mreturn * names_map) : Prop :=
    gorel (retrel w) (fst a) (fst b) /\ snd a = snd b.
  Lemma rel_loop : forall fuel w st st', srcrel w -> strel w st st' ->
    qrel looprel w (qloop grow tbl src names fuel st) (qloop grow tbl' src' names fuel st').
  Proof.
    induction fuel as [|fuel IH]; intros w st st' Sr St; cbn [qloop]; [constructor; split; reflexivity|].
    bnd ltac:(apply rel_iter; eassumption) L H. apply (srcrel_le _ _ L) in Sr.
    destruct a as [x|x nm|x], a' as [y|y nm'|y]; try contradiction.
    - apply IH; assumption.
    - destruct H as [H ->]. constructor. split; [exact H|reflexivity].
    - constructor. split; [exact H|reflexivity].
  Qed.

  Lemma rel_parse fuel w : srcrel w ->
    qrel looprel w (qparse grow tbl src names fuel) (qparse grow tbl' src' names fuel).
  Proof.
    intros Sr. unfold qparse. bnd ltac:(apply rel_push_op, nil_rel) L T. apply (srcrel_le _ _ L) in Sr.
    bnd ltac:(apply rel_push_op, T) L1 T1. apply (srcrel_le _ _ L1) in Sr.
    apply rel_loop; [exact Sr|]. split; [exact T1|]. split; [apply nil_rel|reflexivity].
  Qed.
End Code.

Definition outrel (w : world) (a b : qout) : Prop :=
  gorel (retrel w) (qo_result a) (qo_result b) /\ qo_names a = qo_names b /\ qo_source a = qo_source b.

(** What a job's source must be. *)
Definition src_ok (bb : nat) (s : msource) : Prop :=
  match s with MSrcBytes s | MSrcBuffer (Some s) => base_ok bb s | _ => True end.

Lemma rel_readSource bo bb s w : src_ok bb s ->
  qrel bo bb (fun w a b => gorel (bsrel bb (w_b w)) (fst a) (fst b) /\ snd a = snd b) w (qreadSource s) (qreadSource s).
Proof.
  intros H. destruct s as [|x|x|[x|]|rd|]; cbn [qreadSource]; try (constructor; split; reflexivity).
  - constructor. intros t t' w' _ T. constructor. split; [left; exact T|reflexivity].
  - constructor. split; [right; split; [reflexivity|exact H]|reflexivity].
  - constructor. split; [right; split; [reflexivity|exact H]|reflexivity].
  - destruct (rd_end rd); constructor; [split; reflexivity|]. intros t t' w' _ T. constructor. split; [left; exact T|reflexivity].
Qed.

Lemma rel_Parse_at bo bb grow fuel tbl tbl' names src w :
  (tbl = [] <-> tbl' = []) -> tabrel bo w tbl tbl' -> src_ok bb src ->
  qrel bo bb outrel w (qParse grow fuel tbl names src) (qParse grow fuel tbl' names src).
Proof.
  intros N C S. unfold qParse. destruct tbl as [|r0 tbl], tbl' as [|r0' tbl'];
    try (exfalso; destruct N as [N1 N2]; (discriminate (N1 eq_refl) || discriminate (N2 eq_refl))).
  { constructor. split; [apply mret_err_rel|split; reflexivity]. }
  pose proof (C 0%Z) as C0.
  destruct (mtable_get 0 _), (mtable_get 0 _); try contradiction; [|constructor; split; [apply mret_err_rel|split; reflexivity]].
  eapply qrel_bind; [apply rel_readSource, S|]. intros w1 [x s1] [y s2] L [H E]. cbn in H, E. subst s2.
  destruct x as [x|x|x|], y as [y|y|y|]; try contradiction.
  - eapply qrel_bind; [apply rel_parse; split; [eapply tabrel_le; eassumption|exact H]|].
    intros w2 [a nm] [b nm'] _ [G F]. cbn in G, F. subst nm'.
    constructor. split; [exact G|split; reflexivity].
  - constructor. cbn in H. subst y. split; [apply mret_err_rel|split; reflexivity].
  - constructor. cbn in H. subst y. split; [reflexivity|split; reflexivity].
  - constructor. split; [exact I|split; reflexivity].
Qed.

(** The cells of the table view arrays that existed before the calls. *)
Lemma rel_Parse bo bb grow fuel tbl names src w :
  (forall n row c cell, mtable_get n tbl = Some row -> mrow_get c row = Some cell -> base_ok bo cell) ->
  src_ok bb src ->
  qrel bo bb outrel w (qParse grow fuel tbl names src) (qParse grow fuel tbl names src).
Proof.
  intros C S. apply rel_Parse_at; [reflexivity| |exact S]. intros n.
  destruct (mtable_get n tbl) as [row|] eqn:Er; [|exact I]. intros c.
  destruct (mrow_get c row) as [cell|] eqn:Ec; [|exact I]. right. split; [reflexivity|]. eapply C; eassumption.
Qed.
