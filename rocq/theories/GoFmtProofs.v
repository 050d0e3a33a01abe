(** * GoFmtProofs: the printed texts can be read back. *)
From Verif Require Import Base Cst Parser FromCst ByteSetProofs GoFmt Spec_Messages MessagesProofs TGFirsts.
Local Open Scope N_scope.

(** ** Hexadecimal numbers *)
Definition unhex (c : ascii) : option N :=
  if between 48 57 c then Some (code c - 48) else if between 97 102 c then Some (code c - 87) else None.
Fixpoint read_hex (k : nat) (s : bytes) (acc : N) : option (N * bytes) :=
  match k with
  | O => Some (acc, s)
  | S k' => match s with
            | [] => None
            | c :: s' => match unhex c with Some d => read_hex k' s' (acc * 16 + d) | None => None end
            end
  end.

Lemma unhex_lowerhex n : n < 16 -> unhex (lowerhex n) = Some n.
Proof.
  intros L. unfold unhex, lowerhex, between. destruct (N.ltb_spec n 10) as [H|H]; rewrite code_b8 by lia.
  - destruct (N.leb_spec 48 (48 + n)); [|lia]. destruct (N.leb_spec (48 + n) 57); [|lia]. cbn [andb]. f_equal. lia.
  - destruct (N.leb_spec (87 + n) 57); [lia|]. rewrite andb_false_r.
    destruct (N.leb_spec 97 (87 + n)); [|lia]. destruct (N.leb_spec (87 + n) 102); [|lia]. cbn [andb]. f_equal. lia.
Qed.

Lemma read_hex_add a b s acc :
  read_hex (a + b) s acc = match read_hex a s acc with Some (n, s') => read_hex b s' n | None => None end.
Proof.
  revert s acc. induction a as [|a IH]; intros s acc; [reflexivity|]. cbn.
  destruct s as [|c s]; [reflexivity|]. destruct (unhex c); [apply IH|reflexivity].
Qed.

Lemma read_hexdigits k : forall n x acc, n < 16 ^ N.of_nat k ->
  read_hex k (hexdigits k n ++ x) acc = Some (acc * 16 ^ N.of_nat k + n, x).
Proof.
  induction k as [|k IH]; intros n x acc L.
  - cbn in *. do 2 f_equal. lia.
  - replace (S k) with (k + 1)%nat at 1 by lia. rewrite read_hex_add. cbn [hexdigits]. rewrite <- app_assoc.
    rewrite Nat2N.inj_succ, N.pow_succ_r' in *.
    rewrite IH by (apply N.div_lt_upper_bound; lia). cbn [app read_hex].
    rewrite unhex_lowerhex by (apply N.mod_lt; lia). do 2 f_equal.
    pose proof (N.div_mod' n 16). lia.
Qed.

(** ** Quoted strings *)
Definition qwf (u : qunit) : Prop :=
  match u with
  | QByte b => code b < 128
  | QBad b => 128 <= code b
  | QRune2 b0 b1 => valid2 b0 b1 = true
  | QRune3 b0 b1 b2 => valid3 b0 b1 b2 = true
  | QRune4 b0 b1 b2 b3 => valid4 b0 b1 b2 b3 = true
  end.
Definition qbad (u : qunit) : bool := match u with QBad _ => true | _ => false end.

Lemma qunits_spec n : forall s, (length s <= n)%nat -> Forall qwf (qunits s) /\ flat_map qbytes (qunits s) = s.
Proof.
  induction n as [|n IH]; intros [|b0 s1] L; cbn in L; try lia; try (split; [constructor|reflexivity]).
  assert (X : forall s u, (length s <= n)%nat -> qwf u ->
            Forall qwf (u :: qunits s) /\ flat_map qbytes (u :: qunits s) = qbytes u ++ s).
  { intros s u Ls W. destruct (IH s Ls) as [F E]. split; [constructor; assumption|]. cbn. rewrite E. reflexivity. }
  cbn [qunits]. destruct (N.ltb_spec (code b0) 0x80) as [H|H]; [apply (X s1 (QByte b0)); [lia|exact H]|].
  destruct s1 as [|b1 s2]; [split; [repeat constructor; exact H|reflexivity]|]. cbn in L.
  assert (B : Forall qwf (QBad b0 :: qunits (b1 :: s2)) /\ flat_map qbytes (QBad b0 :: qunits (b1 :: s2)) = b0 :: b1 :: s2)
    by (apply (X (b1 :: s2) (QBad b0)); [cbn; lia|exact H]).
  destruct (valid2 b0 b1) eqn:V2; [apply (X s2 (QRune2 b0 b1)); [lia|exact V2]|].
  destruct s2 as [|b2 s3]; [exact B|]. cbn in L.
  destruct (valid3 b0 b1 b2) eqn:V3; [apply (X s3 (QRune3 b0 b1 b2)); [lia|exact V3]|].
  destruct s3 as [|b3 s4]; [exact B|]. cbn in L.
  destruct (valid4 b0 b1 b2 b3) eqn:V4; [apply (X s4 (QRune4 b0 b1 b2 b3)); [lia|exact V4]|exact B].
Qed.

Definition read_unit (s : bytes) : option (bool * N * bytes) :=
  match s with
  | [] => None
  | c :: s1 =>
      if code c =? 34 then None
      else if code c =? 92 then
        match s1 with
        | [] => None
        | d :: s2 =>
            match code d with
            | 34 => Some (false, 34, s2)
            | 92 => Some (false, 92, s2)
            | 97 => Some (false, 7, s2)
            | 98 => Some (false, 8, s2)
            | 102 => Some (false, 12, s2)
            | 110 => Some (false, 10, s2)
            | 114 => Some (false, 13, s2)
            | 116 => Some (false, 9, s2)
            | 118 => Some (false, 11, s2)
            | 120 => match read_hex 2 s2 0 with Some (n, s3) => Some (128 <=? n, n, s3) | None => None end
            | 117 => match read_hex 4 s2 0 with Some (n, s3) => Some (false, n, s3) | None => None end
            | 85 => match read_hex 8 s2 0 with Some (n, s3) => Some (false, n, s3) | None => None end
            | _ => None
            end
        end
      else if code c <? 128 then Some (false, code c, s1)
      else if code c <? 0xE0 then
        match s1 with b1 :: s2 => Some (false, qcode (QRune2 c b1), s2) | _ => None end
      else if code c <? 0xF0 then
        match s1 with b1 :: b2 :: s3 => Some (false, qcode (QRune3 c b1 b2), s3) | _ => None end
      else
        match s1 with b1 :: b2 :: b3 :: s4 => Some (false, qcode (QRune4 c b1 b2 b3), s4) | _ => None end
  end.

Lemma between_spec lo hi c : between lo hi c = true <-> lo <= code c <= hi.
Proof. unfold between. rewrite andb_true_iff, !N.leb_le. tauto. Qed.

Lemma valid2_spec b0 b1 : valid2 b0 b1 = true -> 0xC2 <= code b0 <= 0xDF /\ 0x80 <= code b1 <= 0xBF.
Proof. unfold valid2, trail. rewrite andb_true_iff, !between_spec. tauto. Qed.
Lemma valid3_spec b0 b1 b2 : valid3 b0 b1 b2 = true ->
  0xE0 <= code b0 <= 0xEF /\ 0x80 <= code b1 <= 0xBF /\ 0x80 <= code b2 <= 0xBF /\
  (code b0 = 0xE0 -> 0xA0 <= code b1).
Proof.
  unfold valid3, trail. rewrite !andb_true_iff, !between_spec. intros [[A B] C].
  destruct (N.eqb_spec (code b0) 0xE0), (N.eqb_spec (code b0) 0xED); lia.
Qed.
Lemma valid4_spec b0 b1 b2 b3 : valid4 b0 b1 b2 b3 = true ->
  0xF0 <= code b0 <= 0xF4 /\ 0x80 <= code b1 <= 0xBF /\ 0x80 <= code b2 <= 0xBF /\ 0x80 <= code b3 <= 0xBF /\
  (code b0 = 0xF0 -> 0x90 <= code b1) /\ (code b0 = 0xF4 -> code b1 <= 0x8F).
Proof.
  unfold valid4, trail. rewrite !andb_true_iff, !between_spec. intros [[[A B] C] D].
  destruct (N.eqb_spec (code b0) 0xF0), (N.eqb_spec (code b0) 0xF4); lia.
Qed.

Lemma qcode2_range b0 b1 : valid2 b0 b1 = true -> 0x80 <= qcode (QRune2 b0 b1) < 0x800.
Proof. intros H%valid2_spec. cbn [qcode]. lia. Qed.
Lemma qcode3_range b0 b1 b2 : valid3 b0 b1 b2 = true -> 0x800 <= qcode (QRune3 b0 b1 b2) < 0x10000.
Proof. intros H%valid3_spec. cbn [qcode]. destruct (N.eq_dec (code b0) 0xE0); lia. Qed.
Lemma qcode4_range b0 b1 b2 b3 : valid4 b0 b1 b2 b3 = true -> 0x10000 <= qcode (QRune4 b0 b1 b2 b3) < 0x200000.
Proof. intros H%valid4_spec. cbn [qcode]. destruct (N.eq_dec (code b0) 0xF0); lia. Qed.

Lemma qcode_inj u u' : qwf u -> qwf u' -> qbad u = qbad u' -> qcode u = qcode u' -> u = u'.
Proof.
  intros W W' B E.
  destruct u as [b|b|b0 b1|b0 b1 b2|b0 b1 b2 b3], u' as [c|c|c0 c1|c0 c1 c2|c0 c1 c2 c3]; try discriminate B; clear B;
    cbn [qwf] in W, W';
    try (pose proof (qcode2_range _ _ W)); try (pose proof (qcode3_range _ _ _ W)); try (pose proof (qcode4_range _ _ _ _ W));
    try (pose proof (qcode2_range _ _ W')); try (pose proof (qcode3_range _ _ _ W')); try (pose proof (qcode4_range _ _ _ _ W'));
    try (exfalso; cbn [qcode] in *; lia).
  - f_equal. apply code_inj, E.
  - f_equal. apply code_inj, E.
  - apply valid2_spec in W. apply valid2_spec in W'. cbn [qcode] in E. f_equal; apply code_inj; lia.
  - apply valid3_spec in W. apply valid3_spec in W'. cbn [qcode] in E. f_equal; apply code_inj; lia.
  - apply valid4_spec in W. apply valid4_spec in W'. cbn [qcode] in E. f_equal; apply code_inj; lia.
Qed.

Lemma read_escape isprint del_u u x : qwf u ->
  read_unit (qescape isprint del_u u ++ x) = Some (qbad u, qcode u, x).
Proof.
  assert (Bs : forall d y, read_unit (s2b "\u" ++ hexdigits 4 d ++ y) = match read_hex 4 (hexdigits 4 d ++ y) 0 with Some (n, s3) => Some (false, n, s3) | None => None end) by reflexivity.
  assert (Bl : forall d y, read_unit (s2b "\U" ++ hexdigits 8 d ++ y) = match read_hex 8 (hexdigits 8 d ++ y) 0 with Some (n, s3) => Some (false, n, s3) | None => None end) by reflexivity.
  intros W. destruct u as [b|b|b0 b1|b0 b1 b2|b0 b1 b2 b3]; cbn [qwf] in W.
  - destruct b as [[] [] [] [] [] [] [] []]; try (exfalso; vm_compute in W; discriminate W);
      destruct del_u; vm_compute; reflexivity.
  - destruct b as [[] [] [] [] [] [] [] []]; try (exfalso; vm_compute in W; congruence); vm_compute; reflexivity.
  - pose proof (qcode2_range _ _ W) as R. apply valid2_spec in W. cbn [qescape].
    destruct (isprint _).
    + cbn [qbytes app read_unit].
      destruct (N.eqb_spec (code b0) 34); [lia|]. destruct (N.eqb_spec (code b0) 92); [lia|].
      destruct (N.ltb_spec (code b0) 128); [lia|]. destruct (N.ltb_spec (code b0) 0xE0); [reflexivity|lia].
    + destruct (N.ltb_spec (qcode (QRune2 b0 b1)) 0x10000); [|lia].
      rewrite <- app_assoc, Bs, read_hexdigits by (cbn; lia). reflexivity.
  - pose proof (qcode3_range _ _ _ W) as R. apply valid3_spec in W. cbn [qescape].
    destruct (isprint _).
    + cbn [qbytes app read_unit].
      destruct (N.eqb_spec (code b0) 34); [lia|]. destruct (N.eqb_spec (code b0) 92); [lia|].
      destruct (N.ltb_spec (code b0) 128); [lia|]. destruct (N.ltb_spec (code b0) 0xE0); [lia|].
      destruct (N.ltb_spec (code b0) 0xF0); [reflexivity|lia].
    + destruct (N.ltb_spec (qcode (QRune3 b0 b1 b2)) 0x10000); [|lia].
      rewrite <- app_assoc, Bs, read_hexdigits by (cbn; lia). reflexivity.
  - pose proof (qcode4_range _ _ _ _ W) as R. apply valid4_spec in W. cbn [qescape].
    destruct (isprint _).
    + cbn [qbytes app read_unit].
      destruct (N.eqb_spec (code b0) 34); [lia|]. destruct (N.eqb_spec (code b0) 92); [lia|].
      destruct (N.ltb_spec (code b0) 128); [lia|]. destruct (N.ltb_spec (code b0) 0xE0); [lia|].
      destruct (N.ltb_spec (code b0) 0xF0); [lia|reflexivity].
    + destruct (N.ltb_spec (qcode (QRune4 b0 b1 b2 b3)) 0x10000); [lia|].
      rewrite <- app_assoc, Bl, read_hexdigits by (cbn; lia). reflexivity.
Qed.

Lemma units_read isprint del_u us : forall us' x x',
  Forall qwf us -> Forall qwf us' ->
  flat_map (qescape isprint del_u) us ++ DQ :: x = flat_map (qescape isprint del_u) us' ++ DQ :: x' ->
  us = us' /\ x = x'.
Proof.
  induction us as [|u us IH]; intros [|u' us'] x x' F F' E; cbn [flat_map] in E.
  - injection E as ->. auto.
  - inversion F' as [|? ? W _]; subst. apply (f_equal read_unit) in E. rewrite <- app_assoc, read_escape in E by exact W.
    discriminate E.
  - inversion F as [|? ? W _]; subst. apply (f_equal read_unit) in E. rewrite <- app_assoc, read_escape in E by exact W.
    discriminate E.
  - inversion F as [|? ? W F1]; inversion F' as [|? ? W' F1']; subst.
    apply (f_equal read_unit) in E. rewrite <- !app_assoc, !read_escape in E by assumption.
    injection E as B C R. destruct (IH us' x x' F1 F1' R) as [-> ->].
    rewrite (qcode_inj u u' W W' B C). auto.
Qed.

Lemma Quote_prefix isprint del_u s s' x x' :
  Quote isprint del_u s ++ x = Quote isprint del_u s' ++ x' -> s = s' /\ x = x'.
Proof.
  unfold Quote. cbn [app]. rewrite <- !app_assoc. cbn [app]. intros E. injection E as E.
  destruct (qunits_spec (length s) s ltac:(lia)) as [F B]. destruct (qunits_spec (length s') s' ltac:(lia)) as [F' B'].
  destruct (units_read _ _ _ _ _ _ F F' E) as [U ->]. split; [|reflexivity]. congruence.
Qed.

(** ** Numbers *)
Local Close Scope N_scope.
Definition digit (c : ascii) : Prop := exists d, d < 10 /\ c = b8 (48 + N.of_nat d).
Lemma decimal_digits n t : decimal n t -> Forall digit t.
Proof.
  induction 1 as [d c H|n text d c L D IH H]; apply digits_at in H as [Ld ->].
  - repeat constructor. exists d. auto.
  - apply Forall_app. split; [exact IH|]. repeat constructor. exists d. auto.
Qed.
Definition no_digit (c : ascii) : Prop := ~ digit c.
Lemma digit_code c : digit c -> (48 <= code c <= 57)%N.
Proof. intros (d & L & ->). rewrite code_b8; lia. Qed.

Lemma digits_prefix t : forall t' c c' x x', Forall digit t -> Forall digit t' -> no_digit c -> no_digit c' ->
  t ++ c :: x = t' ++ c' :: x' -> t = t' /\ c :: x = c' :: x'.
Proof.
  induction t as [|a t IH]; intros [|a' t'] c c' x x' F F' N N' E; cbn [app] in E.
  - auto.
  - injection E as -> _. inversion F'; subst. contradiction.
  - injection E as <- _. inversion F; subst. contradiction.
  - injection E as -> E. inversion F; inversion F'; subst.
    destruct (IH t' c c' x x') as [-> ->]; auto.
Qed.

Lemma dec_Z_prefix z z' c c' x x' : no_digit c -> no_digit c' ->
  dec_Z z ++ c :: x = dec_Z z' ++ c' :: x' -> z = z' /\ c :: x = c' :: x'.
Proof.
  intros N N' E.
  assert (M : ~ digit "-"%char) by (intros H%digit_code; vm_compute in H; intuition congruence).
  pose proof (dec_Z_integer z) as I. pose proof (dec_Z_integer z') as I'. revert I I' E.
  generalize (dec_Z z) (dec_Z z'). intros t t' I I' E.
  enough (X : t = t' /\ c :: x = c' :: x').
  { destruct X as [-> X]. split; [exact (integer_inj _ _ _ I I')|exact X]. }
  destruct I as [n t D|n t P D], I' as [n' t' D'|n' t' P' D'];
    pose proof (decimal_digits _ _ D) as F; pose proof (decimal_digits _ _ D') as F'.
  - apply digits_prefix; assumption.
  - exfalso. destruct t as [|a t]; [destruct (decimal_cons _ _ D) as (? & ? & X & _); discriminate X|].
    cbn [app] in E. injection E as -> _. inversion F; subst. contradiction.
  - exfalso. destruct t' as [|a t']; [destruct (decimal_cons _ _ D') as (? & ? & X & _); discriminate X|].
    cbn [app] in E. injection E as <- _. inversion F'; subst. contradiction.
  - cbn [app] in E. injection E as E. destruct (digits_prefix _ _ _ _ _ _ F F' N N' E) as [-> ->]. auto.
Qed.

Definition read_0x (s : bytes) : option (N * bytes) :=
  match s with
  | _ :: _ :: c :: d :: s' =>
      match unhex c, unhex d with
      | Some n, Some m => Some ((n * 16 + m)%N, s')
      | Some n, None => Some (n, d :: s')
      | _, _ => None
      end
  | _ => None
  end.
Lemma fmt0x_prefix c c' x x' a a' : unhex a = None -> unhex a' = None ->
  fmt0x c ++ a :: x = fmt0x c' ++ a' :: x' -> c = c' /\ a :: x = a' :: x'.
Proof.
  assert (R : forall c a x, unhex a = None -> read_0x (fmt0x c ++ a :: x) = Some (code c, a :: x)).
  { clear. intros c a x H.
    destruct c as [[] [] [] [] [] [] [] []]; cbn -[unhex]; cbn [read_0x]; rewrite ?H; reflexivity. }
  intros H H' E. apply (f_equal read_0x) in E. rewrite !R in E by assumption.
  injection E as E -> ->. split; [apply code_inj, E|reflexivity].
Qed.
