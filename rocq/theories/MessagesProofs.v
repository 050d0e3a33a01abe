(** * MessagesProofs: numbers and error messages as text. *)
From Verif Require Import Base ByteSetProofs Cst Ast Parser TableGen TableGenOutput FromCst Messages Spec_Messages.

Lemma digits_at d c : nth_error digits d = Some c <-> (d < 10 /\ c = b8 (48 + N.of_nat d)).
Proof.
  do 10 (destruct d as [|d]; [cbn; split; [intros H; injection H as <-; split; [lia|reflexivity]|intros (_ & ->); reflexivity]|]).
  cbn. split; [|lia]. intros H. apply nth_error_In in H. destruct H.
Qed.

Definition value_of (t : bytes) : N := fold_left (fun v c => 10 * v + (code c - 48))%N t 0%N.

Lemma decimal_value n t : decimal n t -> value_of t = n.
Proof.
  induction 1 as [d c H|n t d c _ _ IH H]; apply digits_at in H; destruct H as (L & ->).
  - unfold value_of. cbn [fold_left]. rewrite code_b8 by lia. lia.
  - unfold value_of in *. rewrite fold_left_app, IH. cbn [fold_left]. rewrite code_b8 by lia. lia.
Qed.

Lemma decimal_inj n n' t : decimal n t -> decimal n' t -> n = n'.
Proof. intros A B. rewrite <- (decimal_value _ _ A). apply decimal_value, B. Qed.

Lemma decimal_cons n t : decimal n t -> exists d t', t = b8 (48 + N.of_nat d) :: t' /\ d < 10.
Proof.
  induction 1 as [d c H|n t d c _ _ IH H].
  - apply digits_at in H. destruct H as (L & ->). eauto.
  - destruct IH as (d' & t' & -> & L). exists d', (t' ++ [c]). auto.
Qed.

Lemma decimal_fun n t : decimal n t -> forall t', decimal n t' -> t = t'.
Proof.
  enough (X : forall m u, decimal m u -> m = n -> decimal n t -> u = t)
    by (intros H t' H'; symmetry; exact (X n t' H' eq_refl H)).
  intros m u H. revert n t. induction H as [d c H|n t d c P _ IH H]; intros n2 t2 E H2;
    destruct H2 as [d' c' H'|n' t' d' c' P' D' H'];
    apply digits_at in H, H'; destruct H as (L & ->), H' as (L' & ->).
  - do 3 f_equal. lia.
  - lia.
  - lia.
  - assert (n = n' /\ d = d') as (<- & <-) by lia. f_equal. apply (IH n); [reflexivity|exact D'].
Qed.

Lemma dec_aux_decimal fuel : forall n acc, (n < 2 ^ N.of_nat fuel)%N -> fuel <> 0 ->
  exists t, decimal n t /\ dec_aux fuel n acc = t ++ acc.
Proof.
  induction fuel as [|fuel IH]; intros n acc L F; [congruence|]. cbn [dec_aux].
  pose proof (N.div_mod' n 10) as DM. pose proof (N.mod_lt n 10 ltac:(lia)) as ML.
  assert (Dg : nth_error digits (N.to_nat (n mod 10)) = Some (b8 (48 + n mod 10))).
  { apply digits_at. rewrite N2Nat.id. split; [lia|reflexivity]. }
  destruct (N.eqb_spec (n / 10) 0) as [E|E].
  - exists [b8 (48 + n mod 10)]. split; [|reflexivity].
    replace n with (N.of_nat (N.to_nat (n mod 10))) at 1 by lia. constructor. exact Dg.
  - assert (F' : fuel <> 0) by (intros ->; cbn in L; assert (n / 10 = 0)%N by (apply N.div_small; lia); lia).
    destruct (IH (n / 10)%N (b8 (48 + n mod 10) :: acc)) as (t & D & H); [|exact F'|].
    { apply N.div_lt_upper_bound; [lia|]. rewrite Nat2N.inj_succ, N.pow_succ_r' in L. lia. }
    exists (t ++ [b8 (48 + n mod 10)]). split; [|rewrite H, <- app_assoc; reflexivity].
    rewrite DM at 1. replace (n mod 10)%N with (N.of_nat (N.to_nat (n mod 10))) at 1 by lia.
    constructor; [lia|exact D|exact Dg].
Qed.

Lemma dec_N_decimal n : decimal n (dec_N n).
Proof.
  destruct (dec_aux_decimal (S (N.size_nat n)) n []) as (t & D & E); [|discriminate|].
  - rewrite Nat2N.inj_succ, N.pow_succ_r'.
    assert (S : N.of_nat (N.size_nat n) = N.size n).
    { destruct n as [|p]; [reflexivity|]. cbn. induction p as [p IH|p IH|]; cbn [Pos.size_nat Pos.size]; [| |reflexivity]; rewrite Nat2N.inj_succ, IH; reflexivity. }
    rewrite S. pose proof (N.size_gt n). lia.
  - unfold dec_N. rewrite E, app_nil_r. exact D.
Qed.

Lemma dec_Z_integer z : integer z (dec_Z z).
Proof.
  unfold dec_Z. destruct (Z.ltb_spec z 0) as [L|L].
  - replace z with (- Z.of_N (Z.to_N (- z)))%Z at 1 by lia. constructor; [lia|apply dec_N_decimal].
  - replace z with (Z.of_N (Z.to_N z)) at 1 by lia. constructor. apply dec_N_decimal.
Qed.

Lemma not_minus n t : ~ decimal n ("-"%char :: t).
Proof.
  intros H. destruct (decimal_cons _ _ H) as (d & t' & E & L).
  apply (f_equal (fun l => code (hd NUL l))) in E. cbn [hd] in E. rewrite (code_b8 (48 + N.of_nat d)) in E by lia.
  change (code "-"%char) with 45%N in E. lia.
Qed.

Lemma integer_fun z t t' : integer z t -> integer z t' -> t = t'.
Proof.
  enough (X : forall z', integer z t -> integer z' t' -> z = z' -> t = t') by (intros A B; exact (X z A B eq_refl)).
  intros z' [n u H|n u P H] [n' u' H'|n' u' P' H'] E; try lia.
  - apply N2Z.inj in E. subst n'. eapply decimal_fun; eassumption.
  - assert (n' = n) as -> by lia. f_equal. eapply decimal_fun; eassumption.
Qed.
Lemma integer_inj z z' t : integer z t -> integer z' t -> z = z'.
Proof.
  enough (X : forall t', integer z t -> integer z' t' -> t = t' -> z = z') by (intros A B; exact (X t A B eq_refl)).
  intros t' [n u H|n u P H] [n' u' H'|n' u' P' H'] E; subst.
  - f_equal. eapply decimal_inj; eassumption.
  - destruct (not_minus _ _ H).
  - destruct (not_minus _ _ H').
  - injection E as ->. do 2 f_equal. eapply decimal_inj; eassumption.
Qed.

Lemma code_inj c d : code c = code d -> c = d.
Proof. intros E. rewrite <- (b8_code c), <- (b8_code d), E. reflexivity. Qed.

Lemma fmt_c_character c : character c (fmt_c c).
Proof.
  unfold fmt_c. pose proof (code_lt c) as L. destruct (N.ltb_spec (code c) 128) as [H|H]; [constructor; exact H|].
  pose proof (N.div_mod' (code c) 64) as DM. pose proof (N.mod_lt (code c) 64 ltac:(lia)) as ML.
  assert (D : (code c / 64 < 4)%N) by (apply N.div_lt_upper_bound; lia).
  constructor; [exact H| | |]; rewrite ?code_b8 by lia; lia.
Qed.

Lemma character_prefix c d t u r s : character c t -> character d u -> t ++ r = u ++ s -> c = d /\ t = u /\ r = s.
Proof.
  intros [c' L|c' x y L X Y E] [d' L'|d' x' y' L' X' Y' E'] H; cbn in H.
  - injection H as -> ->. auto.
  - injection H as -> _. lia.
  - injection H as -> _. lia.
  - injection H as -> -> ->. split; [apply code_inj; lia|auto].
Qed.
Lemma character_fun c t u : character c t -> character c u -> t = u.
Proof.
  intros [c' L|c' x y L X Y E] H; inversion H as [? L'|? x' y' L' X' Y' E']; subst; try lia; [reflexivity|].
  assert (A : code x = code x') by (assert (code x - 192 = code x' - 192)%N; lia).
  apply code_inj in A. subst x'. f_equal. f_equal. apply code_inj. lia.
Qed.

Lemma charCode_text c : byte_text c (charCode c).
Proof. unfold charCode. constructor; [apply fmt_c_character|apply dec_N_decimal]. Qed.

Lemma byte_text_fun c t u : byte_text c t -> byte_text c u -> t = u.
Proof.
  intros [c' a n A N] H; inversion H as [? a' n' A' N']; subst.
  rewrite (character_fun _ _ _ A A'), (decimal_fun _ _ N _ N'). reflexivity.
Qed.

Lemma byte_text_prefix c d t u r s : byte_text c t -> byte_text d u -> t ++ r = u ++ s -> c = d /\ r = s.
Proof.
  intros [c' a n A N] [d' a' n' A' N'] H.
  rewrite <- !app_assoc in H. cbn in H. injection H as H.
  destruct (character_prefix _ _ _ _ _ _ A A' H) as (<- & <- & E). split; [reflexivity|].
  injection E as E. rewrite (decimal_fun _ _ N _ N') in E. apply app_inv_head in E. injection E as E. exact E.
Qed.
Lemma byte_text_inj c d t : byte_text c t -> byte_text d t -> c = d.
Proof. intros A B. apply (byte_text_prefix _ _ _ _ [] [] A B eq_refl). Qed.
Lemma byte_text_cons c t : byte_text c t -> exists u, t = "'"%char :: u.
Proof. intros []. eexists. reflexivity. Qed.

Lemma message_string e : message e (perror_string e).
Proof. destruct e; cbn [perror_string]; constructor; try apply charCode_text. apply dec_Z_integer. Qed.

Lemma message_fun e t u : message e t -> message e u -> t = u.
Proof.
  intros A B. destruct A; inversion B; subst; try reflexivity;
    repeat match goal with H : byte_text ?c ?a, H' : byte_text ?c ?b |- _ =>
      pose proof (byte_text_fun _ _ _ H H'); subst; clear H' end; try reflexivity.
  f_equal. eapply integer_fun; eassumption.
Qed.

Lemma message_inj e e' t : (forall m, e <> EReader m) -> (forall m, e' <> EReader m) ->
  message e t -> message e' t -> e = e'.
Proof.
  enough (X : forall t', message e t -> message e' t' -> (forall m, e <> EReader m) -> (forall m, e' <> EReader m) ->
    t = t' -> e = e') by (intros R R' A B; exact (X t A B R R' eq_refl)).
  intros t' A B R R' E. destruct A, B; try reflexivity;
    try (exfalso; eapply R; reflexivity); try (exfalso; eapply R'; reflexivity);
    try (exfalso; discriminate);
    try (exfalso; match goal with H : byte_text _ _ |- _ => destruct (byte_text_cons _ _ H) as (? & ->); discriminate end).
  all: apply app_inv_head in E.
  all: try match type of E with ?a ++ _ = ?b ++ _ =>
    match goal with A : byte_text ?c a, B : byte_text ?d b |- _ =>
      destruct (byte_text_prefix _ _ _ _ _ _ A B E) as (-> & E') end end.
  - congruence.
  - apply app_inv_head in E'. apply app_inv_tail in E'. congruence.
  - discriminate.
  - discriminate.
  - reflexivity.
  - subst. f_equal. eapply integer_inj; eassumption.
  - subst. f_equal. eapply byte_text_inj; eassumption.
  - apply app_inv_head in E'. subst. f_equal. eapply byte_text_inj; eassumption.
Qed.

(** The line printed by FromGrammar. *)
Lemma operand_shown op : operand_text op (show_op op).
Proof. destruct op as [| | | | | |[]]; constructor; first [apply dec_Z_integer|apply dec_N_decimal]. Qed.

Lemma operands_shown ops : Forall (fun op => op_public op = true) ops -> operands_text ops (spaced (map show_op ops)).
Proof.
  induction 1 as [|op ops H Hs IH]; [constructor|]. destruct ops as [|op' ops].
  - cbn. constructor. apply operand_shown.
  - change (spaced (map show_op (op :: op' :: ops))) with (show_op op ++ s2b " " ++ spaced (map show_op (op' :: ops))).
    constructor; [discriminate|apply operand_shown|exact IH].
Qed.
Lemma println_line ops : Forall (fun op => op_public op = true) ops -> line_of ops (println_ops ops).
Proof. intros H. unfold println_ops. apply li. apply operands_shown, H. Qed.

Lemma operand_text_fun op t u : operand_text op t -> operand_text op u -> t = u.
Proof.
  intros A B. destruct A; inversion B; subst; try reflexivity;
    repeat match goal with
    | A : integer ?n ?x, B : integer ?n ?y |- _ =>
        rewrite <- (integer_fun _ _ _ A B); clear B
    | A : decimal ?n ?x, B : decimal ?n ?y |- _ =>
        rewrite <- (decimal_fun _ _ A _ B); clear B
    end; reflexivity.
Qed.
Lemma operands_text_fun ops t : operands_text ops t -> forall u, operands_text ops u -> t = u.
Proof.
  induction 1 as [|op t H|op t ops r N H _ IH]; intros u B; inversion B; subst; try contradiction.
  - reflexivity.
  - eapply operand_text_fun; eassumption.
  - f_equal; [eapply operand_text_fun; eassumption|]. f_equal. apply IH. assumption.
Qed.
Lemma line_fun ops t u : line_of ops t -> line_of ops u -> t = u.
Proof.
  intros [o x A] B. inversion B as [o' y B']; subst. rewrite (operands_text_fun _ _ A _ B'). reflexivity.
Qed.
