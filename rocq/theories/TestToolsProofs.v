(** * TestToolsProofs: proofs about the test helpers (C60 - C62). *)
From Verif Require Import Base Cst FromCst WalkProofs TestTools Spec_Parse Spec_Tree Spec_TestTools TGFirsts.
From Coq Require Import Permutation.

(** ** Printing *)

Section NodeInd.
  Variable P : node -> Prop.
  Hypothesis H : forall ty p q l, Forall P l -> P (Node ty p q l).
  Fixpoint node_ind_list (n : node) : P n :=
    match n with
    | Node ty p q l => H ty p q l ((fix each (l : list node) : Forall P l :=
        match l with [] => Forall_nil _ | c :: l' => Forall_cons _ (node_ind_list c) (each l') end) l)
    end.
End NodeInd.

Lemma inside_node src ty p q l : inside src (Node ty p q l) <->
  ((0 <= p <= q)%Z /\ (q <= Z.of_nat (length src))%Z) /\ Forall (inside src) l.
Proof.
  split.
  - intros H. split; [exact (H _ (sub_here _))|]. apply Forall_forall. intros c Hc n Hn. apply H. econstructor; eassumption.
  - intros [H1 H2] n Hn. inversion Hn; subst; [exact H1|]. rewrite Forall_forall in H2. eapply H2; eassumption.
Qed.

Lemma slice_ok str lo hi : (0 <= lo <= hi)%Z -> (hi <= Z.of_nat (length str))%Z ->
  slice str lo hi = Ok (text_of str lo hi).
Proof.
  intros A B. unfold slice.
  replace (_ && _ && _) with true; [reflexivity|]. symmetry. rewrite !andb_true_iff, !Z.leb_le. lia.
Qed.
Lemma slice_bad str lo hi : ~ ((0 <= lo <= hi)%Z /\ (hi <= Z.of_nat (length str))%Z) ->
  slice str lo hi = Panic PanicSlice.
Proof.
  intros A. unfold slice. destruct ((0 <=? lo) && (lo <=? hi) && (hi <=? Z.of_nat (length str)))%Z eqn:E; [|reflexivity].
  rewrite !andb_true_iff, !Z.leb_le in E. lia.
Qed.

Lemma print_ok names src t : forall d sb, inside src t ->
  walk (namedVisit names src) d sb t = Ok (sb ++ printout names src d t).
Proof.
  induction t as [ty p q l IH] using node_ind_list. intros d sb Hi.
  apply inside_node in Hi. destruct Hi as [[A B] Hl].
  rewrite walk_eq. unfold namedVisit at 1. cbn [n_pos n_end n_type n_childs].
  rewrite (slice_ok _ _ _ A B). cbn [gobind printout]. unfold node_line at 1. cbn [n_pos n_end n_type].
  change (nodeTypeToName names ty) with (type_name names ty).
  generalize (concat (repeat (s2b "  ") d) ++ type_name names ty ++ s2b ": string(" ++ text_of src p q ++ s2b ")" ++ [LF]).
  intros ln. rewrite app_assoc. generalize (sb ++ ln). clear sb ln A B.
  induction l as [|c l IHl]; intros sb; cbn [walk_each flat_map]; [rewrite app_nil_r; reflexivity|].
  inversion IH; subst. inversion Hl; subst.
  match goal with H : forall d sb, _ |- _ => rewrite H by assumption end.
  rewrite IHl by assumption. rewrite app_assoc. reflexivity.
Qed.

Lemma inside_dec src t : inside src t \/ ~ inside src t.
Proof.
  induction t as [ty p q l IH] using node_ind_list. rewrite inside_node.
  assert (L : Forall (inside src) l \/ ~ Forall (inside src) l).
  { induction IH as [|c l Hc _ IHl]; [left; constructor|].
    destruct Hc as [Hc|Hc]; [|right; intros X; inversion X; contradiction].
    destruct IHl as [Hl|Hl]; [left; constructor; assumption|right; intros X; inversion X; contradiction]. }
  assert (D : ((0 <= p <= q)%Z /\ (q <= Z.of_nat (length src))%Z) \/ ~ ((0 <= p <= q)%Z /\ (q <= Z.of_nat (length src))%Z)) by lia.
  tauto.
Qed.

Lemma print_bad names src t : forall d sb, ~ inside src t ->
  walk (namedVisit names src) d sb t = Panic PanicSlice.
Proof.
  induction t as [ty p q l IH] using node_ind_list. intros d sb Hi. rewrite inside_node in Hi.
  rewrite walk_eq. unfold namedVisit at 1. cbn [n_pos n_end n_type n_childs].
  assert (D : ((0 <= p <= q)%Z /\ (q <= Z.of_nat (length src))%Z) \/ ~ ((0 <= p <= q)%Z /\ (q <= Z.of_nat (length src))%Z)) by lia.
  destruct D as [D|D]; [|rewrite (slice_bad _ _ _ D); reflexivity].
  rewrite (slice_ok _ _ _ (proj1 D) (proj2 D)). cbn [gobind].
  assert (Hl : ~ Forall (inside src) l) by tauto. clear Hi D.
  match goal with |- walk_each _ _ ?s _ = _ => generalize s end. clear sb.
  induction l as [|c l IHl]; intros sb; [destruct Hl; constructor|]. inversion IH; subst. cbn [walk_each].
  destruct (inside_dec src c) as [Hc|Hc].
  - rewrite (print_ok names src c _ _ Hc). apply IHl; [assumption|]. intros X. apply Hl. constructor; assumption.
  - match goal with H : forall d sb, _ |- _ => rewrite H by exact Hc end. reflexivity.
Qed.

(** ** Comparing maps *)

Section MapLemmas.
  Context {V : Type}.
  Lemma get_set k k' (v : V) m : map_get Z.eqb k (map_set Z.eqb k' v m) = if (k =? k')%Z then Some v else map_get Z.eqb k m.
  Proof.
    induction m as [|[a b] m IH]; cbn; [reflexivity|].
    destruct (Z.eqb_spec k' a) as [->|N]; cbn.
    - destruct (k =? a)%Z; reflexivity.
    - destruct (Z.eqb_spec k a) as [->|N2]; [|exact IH].
      destruct (Z.eqb_spec a k') as [->|]; [congruence|reflexivity].
  Qed.
  Lemma get_del k k' (m : list (Z * V)) : map_get Z.eqb k (map_del k' m) = if (k =? k')%Z then None else map_get Z.eqb k m.
  Proof.
    unfold map_del.
    induction m as [|[a b] m IH]; cbn; [destruct (k =? k')%Z; reflexivity|].
    destruct (Z.eqb_spec k' a) as [->|N]; cbn.
    - rewrite IH. destruct (Z.eqb_spec k a); reflexivity.
    - rewrite IH. destruct (Z.eqb_spec k a) as [->|N2]; [|reflexivity].
      destruct (Z.eqb_spec a k') as [->|]; [congruence|reflexivity].
  Qed.
  Lemma get_none k (m : list (Z * V)) : map_get Z.eqb k m = None <-> ~ In k (map fst m).
  Proof.
    induction m as [|[a b] m IH]; cbn; [tauto|].
    destruct (Z.eqb_spec k a) as [->|N]; [split; [discriminate|tauto]|].
    rewrite IH. split; [intros A [B|B]; [congruence|tauto]|tauto].
  Qed.
  Lemma get_empty (m : list (Z * V)) : (forall k, map_get Z.eqb k m = None) <-> length m = 0.
  Proof.
    destruct m as [|[a b] m]; [tauto|]. split; [|discriminate].
    intros H. specialize (H a). cbn in H. rewrite Z.eqb_refl in H. discriminate.
  Qed.
End MapLemmas.

Lemma copy_get order m : (forall l, Permutation (order l) l) -> same_map (copy_map order m) m.
Proof.
  intros O k. unfold copy_map.
  assert (G : forall ks acc, map_get Z.eqb k (fold_left (fun acc k => match map_get Z.eqb k m with
                          | Some v => map_set Z.eqb k v acc | None => acc end) ks acc) =
     if existsb (Z.eqb k) ks then match map_get Z.eqb k m with Some v => Some v | None => map_get Z.eqb k acc end
     else map_get Z.eqb k acc).
  { induction ks as [|x ks IH]; intros acc; [reflexivity|]. cbn [fold_left existsb]. rewrite IH.
    destruct (Z.eqb_spec k x) as [->|N]; cbn [orb].
    - destruct (map_get Z.eqb x m) as [v|] eqn:E; [|destruct (existsb _ ks); reflexivity].
      rewrite get_set, Z.eqb_refl. destruct (existsb _ ks); reflexivity.
    - destruct (map_get Z.eqb x m) as [v|]; [|reflexivity]. rewrite get_set.
      destruct (Z.eqb_spec k x); [contradiction|reflexivity]. }
  rewrite G. cbn [map_get]. destruct (existsb (Z.eqb k) (order (map fst m))) eqn:E; [destruct (map_get Z.eqb k m); reflexivity|].
  symmetry. apply get_none. intros Hin. apply (Permutation_in _ (Permutation_sym (O _))) in Hin.
  assert (X : existsb (Z.eqb k) (order (map fst m)) = true) by (apply existsb_exists; exists k; split; [exact Hin|apply Z.eqb_refl]).
  congruence.
Qed.

Definition dstate := (list (Z * bytes) * list (Z * bytes) * list (Z * (bytes * bytes)))%type.
Lemma rounds_get k ks : forall (st : dstate),
  let st' := fold_left (fun st k => diff_round k st) ks st in
  let '(a, b, m) := st in let '(a', b', m') := st' in
  (~ In k ks -> map_get Z.eqb k a' = map_get Z.eqb k a /\ map_get Z.eqb k b' = map_get Z.eqb k b /\
                map_get Z.eqb k m' = map_get Z.eqb k m) /\
  (In k ks -> match map_get Z.eqb k a, map_get Z.eqb k b with
     | Some x, Some y => map_get Z.eqb k a' = None /\ map_get Z.eqb k b' = None /\
          map_get Z.eqb k m' = (if bytes_eqb x y then map_get Z.eqb k m else Some (x, y))
     | _, _ => map_get Z.eqb k a' = map_get Z.eqb k a /\ map_get Z.eqb k b' = map_get Z.eqb k b /\
                map_get Z.eqb k m' = map_get Z.eqb k m
     end).
Proof.
  induction ks as [|x ks IH]; intros [[a b] m]; cbn [fold_left]; [split; [auto|intros []]|].
  destruct (diff_round x (a, b, m)) as [[a1 b1] m1] eqn:E. specialize (IH (a1, b1, m1)). cbv zeta in IH.
  destruct (fold_left (fun st k => diff_round k st) ks (a1, b1, m1)) as [[a2 b2] m2].
  destruct IH as [I1 I2].
  assert (S : (k <> x -> map_get Z.eqb k a1 = map_get Z.eqb k a /\ map_get Z.eqb k b1 = map_get Z.eqb k b /\
                map_get Z.eqb k m1 = map_get Z.eqb k m) /\
     (k = x -> match map_get Z.eqb k a, map_get Z.eqb k b with
     | Some x, Some y => map_get Z.eqb k a1 = None /\ map_get Z.eqb k b1 = None /\
          map_get Z.eqb k m1 = (if bytes_eqb x y then map_get Z.eqb k m else Some (x, y))
     | _, _ => map_get Z.eqb k a1 = map_get Z.eqb k a /\ map_get Z.eqb k b1 = map_get Z.eqb k b /\
                map_get Z.eqb k m1 = map_get Z.eqb k m
     end)).
  { unfold diff_round in E. destruct (map_get Z.eqb x a) as [va|] eqn:Ea.
    2:{ injection E as <- <- <-. split; [auto|]. intros ->. rewrite Ea. auto. }
    destruct (map_get Z.eqb x b) as [vb|] eqn:Eb.
    2:{ injection E as <- <- <-. split; [auto|]. intros ->. rewrite Ea, Eb. auto. }
    injection E as <- <- <-. split.
    - intros N. rewrite !get_del. destruct (Z.eqb_spec k x); [contradiction|].
      split; [reflexivity|]. split; [reflexivity|]. destruct (bytes_eqb va vb); cbn [negb]; [reflexivity|].
      rewrite get_set. destruct (Z.eqb_spec k x); [contradiction|reflexivity].
    - intros ->. rewrite Ea, Eb, !get_del, Z.eqb_refl. split; [reflexivity|]. split; [reflexivity|].
      destruct (bytes_eqb va vb); cbn [negb]; [reflexivity|]. rewrite get_set, Z.eqb_refl. reflexivity. }
  destruct S as [S1 S2]. split.
  - intros N. cbn in N. 
    destruct (I1 ltac:(tauto)) as (X1 & X2 & X3). destruct (S1 ltac:(intros ->; tauto)) as (Y1 & Y2 & Y3).
    rewrite X1, X2, X3, Y1, Y2, Y3. auto.
  - intros Hin. destruct (Z.eq_dec k x) as [->|N].
    + specialize (S2 eq_refl). destruct (map_get Z.eqb x a) as [va|].
      * destruct (map_get Z.eqb x b) as [vb|].
        -- destruct S2 as (A & B & C). destruct (in_dec Z.eq_dec x ks) as [Hk|Hk].
           ++ specialize (I2 Hk). rewrite A, B, C in I2. exact I2.
           ++ specialize (I1 Hk). rewrite A, B, C in I1. exact I1.
        -- destruct S2 as (A & B & C). destruct (in_dec Z.eq_dec x ks) as [Hk|Hk].
           ++ specialize (I2 Hk). rewrite A, B, C in I2. exact I2.
           ++ specialize (I1 Hk). rewrite A, B, C in I1. exact I1.
      * destruct S2 as (A & B & C). destruct (in_dec Z.eq_dec x ks) as [Hk|Hk].
           ++ specialize (I2 Hk). rewrite A, B, C in I2. exact I2.
           ++ specialize (I1 Hk). rewrite A, B, C in I1. exact I1.
    + destruct Hin as [->|Hin]; [contradiction|]. specialize (I2 Hin).
      destruct (S1 N) as (Y1 & Y2 & Y3). rewrite Y1, Y2, Y3 in I2. exact I2.
Qed.

(** ** Comparing readers *)

Lemma bytes_eqb_spec2 a b : bytes_eqb a b = false <-> a <> b.
Proof. rewrite <- bytes_eqb_eq. destruct (bytes_eqb a b); split; congruence. Qed.

Section Readers.
  Variable N : nat.
  Hypothesis Npos : 0 < N.

  Definition plain (l : list bytes) : reader := map (fun c => (c, None)) l.

  (** The condition, for buffers that hold [P]. *)
  Definition ext (P short long : bytes) : Prop :=
    length short <= length long /\
    blocks N (length short) = blocks N (length long) /\
    firstn (length short) long = short /\
    forall i, length short <= i < length long ->
      nth i long NUL = if i <? N then nth i P NUL else nth (i - N) long NUL.

  Lemma blocks_0 : blocks N 0 = 0.
  Proof. unfold blocks. apply Nat.div_small. lia. Qed.
  Lemma blocks_step n : blocks N (N + n) = S (blocks N n).
  Proof.
    unfold blocks. replace (N + n + (N - 1)) with (n + (N - 1) + 1 * N) by lia. rewrite Nat.div_add by lia. lia.
  Qed.
  Lemma blocks_1 n : 0 < n <= N -> blocks N n = 1.
  Proof. intros H. unfold blocks. symmetry. apply (Nat.div_unique _ N 1 (n - 1)); lia. Qed.
  Lemma blocks_pos n : 0 < n -> 0 < blocks N n.
  Proof.
    intros H. unfold blocks. apply Nat.div_str_pos. lia.
  Qed.

  Lemma fill_nth P c i : i < length c + length (skipn (length c) P) ->
    nth i (fill P c) NUL = if i <? length c then nth i c NUL else nth i P NUL.
  Proof.
    intros _. unfold fill. destruct (Nat.ltb_spec i (length c)) as [H|H]; [apply app_nth1, H|].
    rewrite app_nth2 by exact H.
    rewrite <- (firstn_skipn (length c) P) at 2.
    destruct (le_lt_dec (length P) (length c)) as [L|L].
    - rewrite skipn_all2 by exact L. rewrite app_nil_r. rewrite firstn_all2 by exact L.
      rewrite !nth_overflow; [reflexivity|lia|cbn; lia].
    - rewrite app_nth2; rewrite firstn_length_le by lia; [reflexivity|exact H].
  Qed.
  Lemma fill_length P c : length P = N -> length c <= N -> length (fill P c) = N.
  Proof. intros H L. unfold fill. rewrite app_length, skipn_length. lia. Qed.
  Lemma fill_full P c : length P = N -> length c = N -> fill P c = c.
  Proof. intros H L. unfold fill. rewrite skipn_all2 by lia. apply app_nil_r. Qed.

  Lemma fill_eq P c c' : length P = N -> length c <= length c' -> length c' <= N ->
    (fill P c = fill P c' <->
     firstn (length c) c' = c /\ forall i, length c <= i < length c' -> nth i c' NUL = nth i P NUL).
  Proof.
    intros HP L L'. pose proof (fill_length P c HP ltac:(lia)) as A. pose proof (fill_length P c' HP L') as B.
    assert (X : forall (d : bytes) i, length d <= N -> i < N -> i < length d + length (skipn (length d) P))
      by (intros d i; rewrite skipn_length; lia).
    split.
    - intros E.
      assert (Hn : forall i, i < N -> (if i <? length c then nth i c NUL else nth i P NUL) =
                                      (if i <? length c' then nth i c' NUL else nth i P NUL)).
      { intros i Hi. rewrite <- !fill_nth by (apply X; lia). rewrite E. reflexivity. }
      split.
      + apply (nth_ext _ _ NUL NUL); [rewrite firstn_length; lia|].
        intros i Hi. rewrite firstn_length in Hi. specialize (Hn i ltac:(lia)).
        destruct (Nat.ltb_spec i (length c)); [|lia]. destruct (Nat.ltb_spec i (length c')); [|lia].
        rewrite Hn. rewrite <- (firstn_skipn (length c) c') at 2. rewrite app_nth1 by (rewrite firstn_length; lia). reflexivity.
      + intros i Hi. specialize (Hn i ltac:(lia)).
        destruct (Nat.ltb_spec i (length c)); [lia|]. destruct (Nat.ltb_spec i (length c')); [|lia]. congruence.
    - intros [E1 E2]. apply (nth_ext _ _ NUL NUL); [lia|]. intros i Hi. rewrite A in Hi.
      rewrite !fill_nth by (apply X; lia).
      destruct (Nat.ltb_spec i (length c)); destruct (Nat.ltb_spec i (length c')); try lia; try reflexivity.
      + rewrite <- E1 at 1. rewrite <- (firstn_skipn (length c) c') at 2.
        rewrite app_nth1 by (rewrite firstn_length; lia). reflexivity.
      + symmetry. apply E2. lia.
  Qed.

  Lemma loop_sym fuel : forall ref res P Q, compare_loop fuel ref res P Q = compare_loop fuel res ref Q P.
  Proof.
    assert (Bs : forall x y, bytes_eqb x y = bytes_eqb y x).
    { intros x y. destruct (bytes_eqb y x) eqn:E; [apply bytes_eqb_eq in E; subst; apply bytes_eqb_refl|].
      apply bytes_eqb_spec2 in E. apply bytes_eqb_spec2. congruence. }
    induction fuel as [|fuel IH]; intros ref res P Q; cbn [compare_loop];
      destruct (Read ref P) as [[e1 b1] r1]; destruct (Read res Q) as [[e2 b2] r2];
      rewrite (Bs b1 b2); destruct e1 as [[]|], e2 as [[]|]; try reflexivity.
    destruct (bytes_eqb b2 b1); [apply IH|reflexivity].
  Qed.

  Lemma skipn_shorter (s : bytes) : s <> [] -> length (skipn N s) < length s.
  Proof. intros H. rewrite skipn_length. destruct s; [congruence|cbn [length]; lia]. Qed.

  Lemma loop_ext fuel : forall s s' l l' P, length P = N -> length s <= length s' ->
    read_in_blocks N s l -> read_in_blocks N s' l' -> length l < fuel ->
    (compare_loop fuel (plain l) (plain l') P P = true <-> ext P s s').
  Proof.
    induction fuel as [|fuel IH]; intros s s' l l' P HP L R R' Hf; [lia|].
    destruct R as [|s l Hs R]; destruct R' as [|s' l' Hs' R'].
    - cbn. split; [intros _|reflexivity]. split; [lia|]. split; [reflexivity|]. split; [reflexivity|cbn; lia].
    - cbn. split; [discriminate|]. intros (_ & B & _). cbn in B. rewrite blocks_0 in B.
      pose proof (blocks_pos (length s')). destruct s'; [congruence|cbn [length] in *; lia].
    - destruct s; [congruence|cbn in L; lia].
    - cbn [plain map compare_loop Read]. fold (plain l) (plain l').
      destruct (le_lt_dec N (length s)) as [Big|Small].
      + assert (C : length (firstn N s) = N) by (rewrite firstn_length; lia).
        assert (C' : length (firstn N s') = N) by (rewrite firstn_length; lia).
        rewrite !fill_full by assumption.
        destruct (bytes_eqb (firstn N s) (firstn N s')) eqn:E.
        * apply bytes_eqb_eq in E. rewrite <- E.
          rewrite (IH (skipn N s) (skipn N s')) by (rewrite ?skipn_length; try assumption; cbn [length] in Hf; lia).
          unfold ext. rewrite !skipn_length.
          assert (Bs : blocks N (length s) = S (blocks N (length s - N)))
            by (rewrite <- blocks_step; f_equal; lia).
          assert (Bs' : blocks N (length s') = S (blocks N (length s' - N)))
            by (rewrite <- blocks_step; f_equal; lia).
          rewrite Bs, Bs'.
          assert (F : firstn (length s) s' = s <-> firstn (length s - N) (skipn N s') = skipn N s).
          { rewrite <- (firstn_skipn N s') at 1. rewrite <- E.
            replace (length s) with (length (firstn N s) + (length s - N)) at 1 by lia.
            rewrite firstn_app_2. split.
            - intros X. rewrite <- (firstn_skipn N s) in X at 3. apply app_inv_head in X. exact X.
            - intros ->. apply firstn_skipn. }
          rewrite <- F.
          assert (G : (forall i, length s - N <= i < length s' - N ->
               nth i (skipn N s') NUL = if i <? N then nth i (firstn N s) NUL else nth (i - N) (skipn N s') NUL) <->
             (forall i, length s <= i < length s' ->
               nth i s' NUL = if i <? N then nth i P NUL else nth (i - N) s' NUL)).
          { assert (Sk : forall i, nth i (skipn N s') NUL = nth (N + i) s' NUL).
            { intros i. rewrite <- (firstn_skipn N s') at 2. rewrite app_nth2 by lia. f_equal. lia. }
            assert (Fi : forall i, i < N -> nth i (firstn N s) NUL = nth i s' NUL).
            { intros i Hi. rewrite E. rewrite <- (firstn_skipn N s') at 2. rewrite app_nth1 by lia. reflexivity. }
            split; intros H i Hi.
            - specialize (H (i - N) ltac:(lia)). rewrite Sk in H. replace (N + (i - N)) with i in H by lia. rewrite H.
              destruct (Nat.ltb_spec i N); [lia|].
              destruct (Nat.ltb_spec (i - N) N); [apply Fi; assumption|]. rewrite Sk. f_equal. lia.
            - rewrite Sk. rewrite H by lia. destruct (Nat.ltb_spec (N + i) N); [lia|].
              replace (N + i - N) with i by lia.
              destruct (Nat.ltb_spec i N); [symmetry; apply Fi; assumption|]. rewrite Sk. f_equal. lia. }
          rewrite G. split; intros (X1 & X2 & X3 & X4); (split; [lia|]; split; [lia|]; split; [exact X3|exact X4]).
        * split; [discriminate|]. intros (_ & _ & X & _). apply bytes_eqb_spec2 in E. destruct E.
          rewrite <- X. rewrite firstn_firstn. f_equal. lia.
      + assert (C : firstn N s = s) by (apply firstn_all2; lia). rewrite C.
        assert (R0 : skipn N s = []) by (apply skipn_all2; lia). rewrite R0 in R. inversion R; subst; [|congruence].
        assert (Lp : 0 < length s) by (destruct s; [congruence|cbn; lia]).
        cbn [plain map].
        destruct (le_lt_dec (length s') N) as [L1|L1].
        * assert (C' : firstn N s' = s') by (apply firstn_all2; lia). rewrite C'.
          assert (R0' : skipn N s' = []) by (apply skipn_all2; lia). rewrite R0' in R'. inversion R'; subst; [|congruence].
          pose proof (fill_eq P s s' HP L L1) as FE.
          destruct (bytes_eqb (fill P s) (fill P s')) eqn:E.
          -- apply bytes_eqb_eq in E. apply FE in E. destruct E as [E1 E2].
             split.
             ++ intros _. split; [exact L|]. split; [rewrite !blocks_1 by lia; reflexivity|]. split; [exact E1|].
                intros i Hi. destruct (Nat.ltb_spec i N); [apply E2, Hi|lia].
             ++ intros _. destruct fuel; [cbn [length] in Hf; lia|reflexivity].
          -- split; [discriminate|]. intros (_ & _ & X & Y). apply bytes_eqb_spec2 in E. destruct E. apply FE.
             split; [exact X|]. intros i Hi. rewrite (Y i Hi). destruct (Nat.ltb_spec i N); [reflexivity|lia].
        * assert (X : ~ ext P s s').
          { intros (_ & B & _). rewrite (blocks_1 (length s)) in B by lia.
            replace (length s') with (N + (length s' - N)) in B by lia. rewrite blocks_step in B.
            pose proof (blocks_pos (length s' - N) ltac:(lia)). lia. }
          split; [|tauto]. destruct (bytes_eqb (fill P s) (fill P (firstn N s'))); [|discriminate].
          destruct fuel; [cbn [length] in Hf; lia|].
          inversion R' as [E|? ? Hne R2 E]; subst.
          -- symmetry in E. apply (f_equal (@length _)) in E. rewrite skipn_length in E. cbn in E. lia.
          -- cbn. discriminate.
  Qed.

  Lemma ext_refl P s : ext P s s.
  Proof. split; [lia|]. split; [reflexivity|]. split; [apply firstn_all|lia]. Qed.
  Lemma ext_same_length P s s' : length s = length s' -> ext P s s' -> s = s'.
  Proof. intros E (_ & _ & F & _). rewrite <- F, E. apply firstn_all. Qed.

  Lemma blocks_exist s : exists l, read_in_blocks N s l.
  Proof.
    remember (length s) as n eqn:E. revert s E. induction n as [n IH] using lt_wf_ind. intros s ->.
    destruct s as [|c s]; [exists []; constructor|].
    destruct (IH (length (skipn N (c :: s))) (skipn_shorter (c :: s) ltac:(discriminate)) _ eq_refl) as (l & Hl).
    exists (firstn N (c :: s) :: l). constructor; [discriminate|exact Hl].
  Qed.
End Readers.
