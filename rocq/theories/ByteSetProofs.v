(** * Proofs about the ByteSet model *)
From Verif Require Import Base ByteSet.
From Coq Require Import Sorted Permutation.
Require Import ZifyBool ZifyNat ZifyN.
Ltac Zify.zify_post_hook ::= Z.div_mod_to_equations.

Lemma two64_pow : two64 = (2 ^ 64)%N.
Proof. reflexivity. Qed.

Lemma code_lt (c : ascii) : (code c < 256)%N.
Proof. apply N_ascii_bounded. Qed.

Lemma code_b8 n : (n < 256)%N -> code (b8 n) = n.
Proof. apply N_ascii_embedding. Qed.

Lemma b8_code c : b8 (code c) = c.
Proof. apply ascii_N_embedding. Qed.

Lemma code_inj a b : code a = code b -> a = b.
Proof. intros H. rewrite <- (b8_code a), <- (b8_code b), H. reflexivity. Qed.

(** ** Words *)

Lemma u64_shl_1 k : (k < 64)%N -> u64_shl 1 k = (2 ^ k)%N.
Proof.
  intros Hk. unfold u64_shl. rewrite N.shiftl_1_l, two64_pow.
  apply N.mod_small. apply N.pow_lt_mono_r; lia.
Qed.

Lemma land_1_testbit x : (N.land x 1 =? 1)%N = N.testbit x 0.
Proof.
  change 1%N with (N.ones 1) at 1. rewrite N.land_ones. rewrite N.bit0_odd.
  change (2 ^ 1)%N with 2%N.
  rewrite <- N.bit0_mod, N.bit0_odd. destruct (N.odd x); reflexivity.
Qed.

Lemma u64_not_testbit w k :
  (k < 64)%N -> N.testbit (u64_not w) k = negb (N.testbit w k).
Proof.
  intros Hk. unfold u64_not. rewrite N.lxor_spec.
  change ones64 with (N.ones 64). rewrite N.ones_spec_low by lia.
  destruct (N.testbit w k); reflexivity.
Qed.

Lemma bits_above w k : (w < two64)%N -> (64 <= k)%N -> N.testbit w k = false.
Proof.
  intros Hw Hk. destruct (N.eq_dec w 0) as [->|Hn]; [apply N.bits_0|].
  apply N.bits_above_log2. rewrite two64_pow in Hw.
  assert (N.log2 w < 64)%N by (apply N.log2_lt_pow2; lia). lia.
Qed.

Lemma lt_two64_bits w : (forall k, (64 <= k)%N -> N.testbit w k = false) -> (w < two64)%N.
Proof.
  intros H. destruct (N.eq_dec w 0) as [->|Hn]; [reflexivity|].
  rewrite two64_pow. apply N.log2_lt_pow2; [lia|].
  destruct (N.lt_ge_cases (N.log2 w) 64) as [Hl|Hl]; [exact Hl|].
  specialize (H _ Hl). rewrite N.bit_log2 in H by exact Hn. discriminate.
Qed.

Lemma lor_lt a b : (a < two64 -> b < two64 -> N.lor a b < two64)%N.
Proof.
  intros Ha Hb. apply lt_two64_bits. intros k Hk.
  rewrite N.lor_spec, (bits_above a k), (bits_above b k) by assumption. reflexivity.
Qed.

Lemma land_lt a b : (a < two64 -> N.land a b < two64)%N.
Proof.
  intros Ha. apply lt_two64_bits. intros k Hk.
  rewrite N.land_spec, (bits_above a k) by assumption. reflexivity.
Qed.

(** ** get / put *)

Lemma get_put s i j w :
  (i < 4)%N -> (j < 4)%N ->
  bs_get (bs_put s i w) j = if (i =? j)%N then w else bs_get s j.
Proof.
  intros Hi Hj.
  assert (Ci : i = 0%N \/ i = 1%N \/ i = 2%N \/ i = 3%N) by lia.
  assert (Cj : j = 0%N \/ j = 1%N \/ j = 2%N \/ j = 3%N) by lia.
  destruct Ci as [->|[->|[->| ->]]]; destruct Cj as [->|[->|[->| ->]]]; reflexivity.
Qed.

Lemma get_wf s i : bs_wf s -> (bs_get s i < two64)%N.
Proof.
  intros (H0 & H1 & H2 & H3).
  destruct i as [|[p|p|]]; simpl; try assumption; destruct p; assumption.
Qed.

Lemma put_wf s i w : bs_wf s -> (w < two64)%N -> bs_wf (bs_put s i w).
Proof.
  intros (H0 & H1 & H2 & H3) Hw. unfold bs_wf.
  destruct i as [|[p|p|]]; simpl; try (repeat split; assumption);
  destruct p; simpl; repeat split; assumption.
Qed.

(** ** Membership *)

Lemma contains_testbit s c :
  bs_contains s c = N.testbit (bs_get s (code c / 64)) (code c mod 64).
Proof.
  unfold bs_contains. rewrite land_1_testbit, N.shiftr_spec by lia. f_equal. 
Qed.

Lemma idx_lt c : (code c / 64 < 4)%N.
Proof. pose proof (code_lt c). lia. Qed.

Lemma off_lt c : (code c mod 64 < 64)%N.
Proof. lia. Qed.

Lemma same_cell a b :
  (code a / 64 =? code b / 64)%N && (code a mod 64 =? code b mod 64)%N = Ascii.eqb a b.
Proof.
  destruct (Ascii.eqb_spec a b) as [->|Hn].
  - rewrite !N.eqb_refl. reflexivity.
  - apply andb_false_iff.
    destruct (N.eqb_spec (code a / 64) (code b / 64)) as [H1|]; [right|left; reflexivity].
    apply N.eqb_neq. intros H2. apply Hn, code_inj. lia.
Qed.

Lemma contains_add s v c :
  bs_contains (bs_add s v) c = Ascii.eqb c v || bs_contains s c.
Proof.
  rewrite !contains_testbit. unfold bs_add.
  rewrite get_put by apply idx_lt. rewrite u64_shl_1 by apply off_lt.
  rewrite <- same_cell.
  destruct (N.eqb_spec (code v / 64) (code c / 64)) as [E|E].
  - rewrite N.lor_spec, N.pow2_bits_eqb, E, N.eqb_refl, orb_comm.
    simpl. rewrite N.eqb_sym. reflexivity.
  - rewrite (proj2 (N.eqb_neq (code c / 64) (code v / 64))) by congruence. reflexivity.
Qed.

Lemma contains_remove s v c :
  bs_contains (bs_remove s v) c = negb (Ascii.eqb c v) && bs_contains s c.
Proof.
  rewrite !contains_testbit. unfold bs_remove.
  rewrite get_put by apply idx_lt. rewrite u64_shl_1 by apply off_lt.
  rewrite <- same_cell.
  destruct (N.eqb_spec (code v / 64) (code c / 64)) as [E|E].
  - rewrite N.land_spec, u64_not_testbit by apply off_lt.
    rewrite N.pow2_bits_eqb, E, N.eqb_refl, andb_comm.
    simpl. rewrite N.eqb_sym. reflexivity.
  - rewrite (proj2 (N.eqb_neq (code c / 64) (code v / 64))) by congruence. reflexivity.
Qed.

Lemma empty_wf : bs_wf bs_empty.
Proof. repeat split; reflexivity. Qed.

Lemma add_wf s v : bs_wf s -> bs_wf (bs_add s v).
Proof.
  intros H. apply put_wf; [exact H|]. apply lor_lt; [apply get_wf; exact H|].
  unfold u64_shl. apply N.mod_lt. discriminate.
Qed.

Lemma remove_wf s v : bs_wf s -> bs_wf (bs_remove s v).
Proof.
  intros H. apply put_wf; [exact H|]. apply land_lt, get_wf, H.
Qed.

Lemma contains_empty c : bs_contains bs_empty c = false.
Proof.
  rewrite contains_testbit. unfold bs_get, bs_empty; simpl.
  destruct (code c / 64)%N as [|[p|p|]]; try apply N.bits_0; destruct p; apply N.bits_0.
Qed.

Lemma new_spec values :
  bs_wf (bs_new values) /\
  forall c, bs_contains (bs_new values) c = existsb (Ascii.eqb c) values.
Proof.
  unfold bs_new.
  assert (G : forall s, bs_wf s ->
    bs_wf (fold_left bs_add values s) /\
    forall c, bs_contains (fold_left bs_add values s) c
              = existsb (Ascii.eqb c) values || bs_contains s c).
  { induction values as [|v vs IH]; intros s Hs; simpl.
    - split; [exact Hs|]. reflexivity.
    - destruct (IH (bs_add s v) (add_wf s v Hs)) as [H1 H2].
      split; [exact H1|]. intros c. rewrite H2, contains_add.
      destruct (Ascii.eqb c v), (existsb (Ascii.eqb c) vs), (bs_contains s c); reflexivity. }
  destruct (G bs_empty empty_wf) as [H1 H2]. split; [exact H1|].
  intros c. rewrite H2, contains_empty, orb_false_r. reflexivity.
Qed.

Lemma new_wf values : bs_wf (bs_new values).
Proof. apply new_spec. Qed.

Lemma contains_new values c :
  bs_contains (bs_new values) c = existsb (Ascii.eqb c) values.
Proof. apply new_spec. Qed.

Lemma get_union s o i : bs_get (bs_union s o) i = N.lor (bs_get s i) (bs_get o i).
Proof. destruct i as [|[p|p|]]; try reflexivity; destruct p; reflexivity. Qed.

Lemma contains_union s o c :
  bs_contains (bs_union s o) c = bs_contains s c || bs_contains o c.
Proof. rewrite !contains_testbit, get_union, N.lor_spec. reflexivity. Qed.

Lemma union_wf s o : bs_wf s -> bs_wf o -> bs_wf (bs_union s o).
Proof.
  intros (?&?&?&?) (?&?&?&?). repeat split; simpl; apply lor_lt; assumption.
Qed.

(** A byte sitting at bit [k] of word [i]. *)
Definition at_bit (i k : N) : ascii := b8 (64 * i + k).

Lemma at_bit_code i k : (i < 4)%N -> (k < 64)%N -> code (at_bit i k) = (64 * i + k)%N.
Proof. intros. apply code_b8. lia. Qed.

Lemma contains_at_bit s i k :
  (i < 4)%N -> (k < 64)%N -> bs_contains s (at_bit i k) = N.testbit (bs_get s i) k.
Proof.
  intros Hi Hk. rewrite contains_testbit, at_bit_code by assumption.
  replace ((64 * i + k) / 64)%N with i by lia.
  replace ((64 * i + k) mod 64)%N with k by lia. reflexivity.
Qed.

Lemma words_ext s o i :
  bs_wf s -> bs_wf o -> (i < 4)%N ->
  (forall c, bs_contains s c = bs_contains o c) -> bs_get s i = bs_get o i.
Proof.
  intros Hs Ho Hi H. apply N.bits_inj. intros k.
  destruct (N.lt_ge_cases k 64) as [Hk|Hk].
  - rewrite <- !contains_at_bit by assumption. apply H.
  - rewrite !bits_above; try assumption; try reflexivity; apply get_wf; assumption.
Qed.

Lemma bs_ext s o :
  bs_wf s -> bs_wf o -> (forall c, bs_contains s c = bs_contains o c) -> s = o.
Proof.
  intros Hs Ho H. destruct s as [a0 a1 a2 a3], o as [b0 b1 b2 b3].
  pose proof (words_ext _ _ 0 Hs Ho eq_refl H) as E0.
  pose proof (words_ext _ _ 1 Hs Ho eq_refl H) as E1.
  pose proof (words_ext _ _ 2 Hs Ho eq_refl H) as E2.
  pose proof (words_ext _ _ 3 Hs Ho eq_refl H) as E3.
  simpl in E0, E1, E2, E3. subst. reflexivity.
Qed.

Lemma equal_eq s o : bs_equal s o = true <-> s = o.
Proof.
  destruct s as [a0 a1 a2 a3], o as [b0 b1 b2 b3]. unfold bs_equal; simpl.
  rewrite !andb_true_iff, !N.eqb_eq. split.
  - intros [[[-> ->] ->] ->]. reflexivity.
  - intros H. inversion H. auto.
Qed.

Lemma equal_spec s o :
  bs_wf s -> bs_wf o ->
  (bs_equal s o = true <-> forall c, bs_contains s c = bs_contains o c).
Proof.
  intros Hs Ho. rewrite equal_eq. split; [intros ->; reflexivity|apply bs_ext; assumption].
Qed.

Lemma land_subset a b :
  N.land a b = a <-> forall k, N.testbit a k = true -> N.testbit b k = true.
Proof.
  split.
  - intros H k Hk. rewrite <- H, N.land_spec in Hk.
    apply andb_prop in Hk. tauto.
  - intros H. apply N.bits_inj. intros k. rewrite N.land_spec.
    specialize (H k). destruct (N.testbit a k); [rewrite H by reflexivity|]; reflexivity.
Qed.

Lemma subset_words s o :
  bs_is_subset s o = true <->
  forall i, (i < 4)%N -> N.land (bs_get s i) (bs_get o i) = bs_get s i.
Proof.
  unfold bs_is_subset. rewrite !andb_true_iff, !N.eqb_eq. split.
  - intros [[[H0 H1] H2] H3] i Hi.
    assert (C : i = 0%N \/ i = 1%N \/ i = 2%N \/ i = 3%N) by lia.
    destruct C as [->|[->|[->| ->]]]; assumption.
  - intros H. repeat split.
    + exact (H 0%N eq_refl).
    + exact (H 1%N eq_refl).
    + exact (H 2%N eq_refl).
    + exact (H 3%N eq_refl).
Qed.

Lemma subset_spec s o :
  bs_wf s ->
  (bs_is_subset s o = true <-> forall c, bs_contains s c = true -> bs_contains o c = true).
Proof.
  intros Hs. rewrite subset_words. split.
  - intros H c. rewrite !contains_testbit. apply land_subset, H, idx_lt.
  - intros H i Hi. apply land_subset. intros k Hk.
    destruct (N.lt_ge_cases k 64) as [Hlt|Hge].
    + rewrite <- contains_at_bit by assumption. apply H.
      rewrite contains_at_bit by assumption. exact Hk.
    + rewrite bits_above in Hk; [discriminate|apply get_wf; exact Hs|exact Hge].
Qed.

Lemma superset_spec s o :
  bs_wf o ->
  (bs_is_superset s o = true <-> forall c, bs_contains o c = true -> bs_contains s c = true).
Proof. intros Ho. apply subset_spec. exact Ho. Qed.

(** ** Enumeration: the "clear the lowest set bit" loop *)

(** The set bits of [v] among k, k+1, ..., k+n-1. *)
Definition bits_from (v : N) (k n : nat) : list nat :=
  filter (fun j => N.testbit v (N.of_nat j)) (seq k n).

Lemma low_bits_mod v k :
  (forall j, (j < k)%N -> N.testbit v j = false) -> (v mod 2 ^ k = 0)%N.
Proof.
  intros H. apply N.bits_inj_0. intros j.
  destruct (N.lt_ge_cases j k) as [Hj|Hj].
  - rewrite N.mod_pow2_bits_low by exact Hj. apply H, Hj.
  - apply N.mod_pow2_bits_high. exact Hj.
Qed.

Lemma testbit_div a j : N.testbit a j = N.odd (a / 2 ^ j).
Proof. rewrite N.testbit_odd, N.shiftr_div_pow2. reflexivity. Qed.

(** Clearing the lowest set bit [k]. *)
Lemma clear_lowest v k :
  (forall j, (j < k)%N -> N.testbit v j = false) ->
  N.testbit v k = true ->
  (2 ^ k <= v)%N /\ N.land v (v - 1) = (v - 2 ^ k)%N /\
  forall j, N.testbit (v - 2 ^ k) j = N.testbit v j && negb (j =? k)%N.
Proof.
  intros Hlow Hk.
  assert (P : (0 < 2 ^ k)%N) by (pose proof (N.pow_nonzero 2 k); lia).
  pose proof (low_bits_mod v k Hlow) as Hm.
  rewrite testbit_div in Hk.
  destruct (N.odd_spec (v / 2 ^ k)) as [Hodd _]. destruct (Hodd Hk) as [m Hq].
  assert (Hv : (v = 2 ^ k * (2 * m + 1))%N).
  { rewrite <- Hq. pose proof (N.div_mod v (2 ^ k)). lia. }
  assert (Hc : (v - 2 ^ k = 2 ^ k * (2 * m))%N) by lia.
  assert (Hp : (v - 1 = 2 ^ k * (2 * m) + (2 ^ k - 1))%N) by lia.
  assert (B : forall j, N.testbit (v - 2 ^ k) j = N.testbit v j && negb (j =? k)%N).
  { intros j. rewrite Hc. destruct (N.lt_trichotomy j k) as [Hj|[->|Hj]].
    - rewrite (Hlow j Hj). rewrite N.mul_comm. apply N.mul_pow2_bits_low. exact Hj.
    - rewrite N.eqb_refl, andb_false_r. rewrite testbit_div.
      rewrite N.mul_comm, N.div_mul by lia. rewrite N.odd_mul. reflexivity.
    - rewrite (proj2 (N.eqb_neq j k)) by lia. rewrite andb_true_r.
      rewrite Hv. rewrite !(N.mul_comm (2 ^ k)).
      replace j with ((j - k) + k)%N by lia. rewrite !N.mul_pow2_bits_add.
      replace (j - k)%N with (N.succ (j - k - 1)) by lia.
      rewrite N.testbit_odd_succ, N.testbit_even_succ by lia. reflexivity. }
  split; [lia|]. split; [|exact B].
  apply N.bits_inj. intros j. rewrite N.land_spec, B.
  destruct (N.lt_trichotomy j k) as [Hj|[->|Hj]].
  - rewrite (Hlow j Hj). reflexivity.
  - rewrite N.eqb_refl, andb_false_r.
    rewrite (testbit_div (v - 1)), Hp.
    rewrite (N.mul_comm (2 ^ k)), N.div_add_l by lia.
    rewrite (N.div_small (2 ^ k - 1)) by lia.
    rewrite N.add_0_r, N.odd_mul. apply andb_false_r.
  - rewrite (proj2 (N.eqb_neq j k)) by lia. rewrite andb_true_r.
    assert (E : N.testbit (v - 1) j = N.testbit v j).
    { rewrite !testbit_div.
      replace j with (k + (1 + (j - k - 1)))%N by lia.
      assert (D : forall a e, (a / 2 ^ (k + (1 + e)) = a / 2 ^ k / 2 ^ 1 / 2 ^ e)%N).
      { intros a e. rewrite !N.pow_add_r.
        rewrite !N.div_div by (try apply N.pow_nonzero; try apply N.neq_mul_0; try split;
                               try apply N.pow_nonzero; lia). reflexivity. }
      rewrite !D.
      f_equal. f_equal. change (2 ^ 1)%N with 2%N.
      rewrite Hp. rewrite (N.mul_comm (2 ^ k) (2 * m)), N.div_add_l by lia.
      rewrite (N.div_small (2 ^ k - 1)) by lia. rewrite Hq.
      replace (2 * m + 0)%N with (m * 2)%N by lia. rewrite N.div_mul by lia.
      replace (2 * m + 1)%N with (m * 2 + 1)%N by lia. rewrite N.div_add_l by lia.
      rewrite (N.div_small 1 2) by lia; lia. }
    rewrite E, andb_diag. reflexivity.
Qed.

Lemma u64_sub_1 v : (0 < v)%N -> (v < two64)%N -> u64_sub v 1 = (v - 1)%N.
Proof.
  intros H1 H2. unfold u64_sub.
  replace (v + two64 - 1)%N with ((v - 1) + 1 * two64)%N by lia.
  rewrite N.mod_add by discriminate. apply N.mod_small. lia.
Qed.

Lemma u64_sub_small a b : (b <= a)%N -> (a < two64)%N -> u64_sub a b = (a - b)%N.
Proof.
  intros H1 H2. unfold u64_sub.
  replace (a + two64 - b)%N with ((a - b) + 1 * two64)%N by lia.
  rewrite N.mod_add by discriminate. apply N.mod_small. lia.
Qed.

(** One round of the loop on a word whose lowest set bit is [k]. *)
Lemma round_lowest v k :
  (v < two64)%N ->
  (forall j, (j < k)%N -> N.testbit v j = false) ->
  N.testbit v k = true ->
  (v =? 0)%N = false /\
  N.land v (u64_sub v 1) = (v - 2 ^ k)%N /\
  u64_sub v (v - 2 ^ k) = (2 ^ k)%N /\
  (v - 2 ^ k < two64)%N /\
  forall j, N.testbit (v - 2 ^ k) j = N.testbit v j && negb (j =? k)%N.
Proof.
  intros Hv Hlow Hk. destruct (clear_lowest v k Hlow Hk) as (Hle & Hland & Hbits).
  assert (P : (0 < 2 ^ k)%N) by (pose proof (N.pow_nonzero 2 k); lia).
  split; [apply N.eqb_neq; lia|].
  split; [rewrite u64_sub_1 by lia; exact Hland|].
  split; [rewrite u64_sub_small by lia; lia|].
  split; [lia|exact Hbits].
Qed.

Lemma no_bits_zero v : (forall k, N.testbit v k = false) -> v = 0%N.
Proof. intros H. apply N.bits_inj_0. exact H. Qed.

Lemma log2pow2n_pow k : (k < 64)%nat -> log2pow2n (2 ^ N.of_nat k) = Some (N.of_nat k).
Proof.
  intros Hk.
  assert (S : forallb (fun k => match log2pow2n (2 ^ N.of_nat k) with
                                | Some l => (l =? N.of_nat k)%N | None => false end)
                      (seq 0 64) = true) by (vm_compute; reflexivity).
  rewrite forallb_forall in S. specialize (S k).
  destruct (log2pow2n (2 ^ N.of_nat k)) as [l|].
  - rewrite (proj1 (N.eqb_eq l (N.of_nat k))); [reflexivity|].
    apply S, in_seq. lia.
  - discriminate S. apply in_seq. lia.
Qed.

Lemma bits_from_step_false v k n :
  N.testbit v (N.of_nat k) = false -> bits_from v k (S n) = bits_from v (S k) n.
Proof. intros H. unfold bits_from. simpl. rewrite H. reflexivity. Qed.

Lemma bits_from_step_true v v' k n :
  N.testbit v (N.of_nat k) = true ->
  (forall j, N.testbit v' j = N.testbit v j && negb (j =? N.of_nat k)%N) ->
  bits_from v k (S n) = k :: bits_from v' (S k) n.
Proof.
  intros H B. unfold bits_from. simpl. rewrite H. f_equal.
  apply filter_ext_in. intros j Hj. apply in_seq in Hj. rewrite B.
  rewrite (proj2 (N.eqb_neq _ _)) by lia. rewrite andb_true_r. reflexivity.
Qed.

Lemma realBytes_spec n : forall k v fuel o acc,
  (k + n = 64)%nat -> (n <= fuel)%nat -> (v < two64)%N ->
  (forall j, (j < N.of_nat k)%N -> N.testbit v j = false) ->
  realBytes fuel v o acc =
  Some (acc ++ map (fun j => b8 ((o + N.of_nat j) mod 256)) (bits_from v k n)).
Proof.
  induction n as [|n IH]; intros k v fuel o acc Hkn Hf Hv Hlow.
  - assert (v = 0)%N as ->.
    { apply no_bits_zero. intros j. destruct (N.lt_ge_cases j 64) as [Hj|Hj].
      - apply Hlow. lia.
      - apply bits_above; assumption. }
    destruct fuel; simpl; rewrite app_nil_r; reflexivity.
  - destruct (N.testbit v (N.of_nat k)) eqn:Hk.
    + destruct (round_lowest v (N.of_nat k) Hv Hlow Hk) as (Hz & Hl & Hi & Hv' & Hb).
      destruct fuel as [|fuel]; [lia|]. cbn [realBytes]. rewrite Hz, Hl, Hi.
      rewrite log2pow2n_pow by lia.
      rewrite (bits_from_step_true v (v - 2 ^ N.of_nat k)%N k n Hk Hb).
      rewrite (IH (S k)) with (v := (v - 2 ^ N.of_nat k)%N); try lia.
      * rewrite <- app_assoc. reflexivity.
      * intros j Hj. rewrite Hb.
        destruct (N.eqb_spec j (N.of_nat k)) as [->|Hne]; [apply andb_false_r|].
        rewrite Hlow by lia. reflexivity.
    + rewrite bits_from_step_false by exact Hk.
      apply (IH (S k)); try lia. intros j Hj.
      destruct (N.eq_dec j (N.of_nat k)) as [->|Hne]; [exact Hk|apply Hlow; lia].
Qed.

Lemma popCount_loop_spec n : forall k v fuel c,
  (k + n = 64)%nat -> (n <= fuel)%nat -> (v < two64)%N ->
  (forall j, (j < N.of_nat k)%N -> N.testbit v j = false) ->
  popCount_loop fuel v c = Some (c + length (bits_from v k n)).
Proof.
  induction n as [|n IH]; intros k v fuel c Hkn Hf Hv Hlow.
  - assert (v = 0)%N as ->.
    { apply no_bits_zero. intros j. destruct (N.lt_ge_cases j 64) as [Hj|Hj].
      - apply Hlow. lia.
      - apply bits_above; assumption. }
    destruct fuel; simpl; rewrite Nat.add_0_r; reflexivity.
  - destruct (N.testbit v (N.of_nat k)) eqn:Hk.
    + destruct (round_lowest v (N.of_nat k) Hv Hlow Hk) as (Hz & Hl & Hi & Hv' & Hb).
      destruct fuel as [|fuel]; [lia|]. cbn [popCount_loop]. rewrite Hz, Hl.
      rewrite (bits_from_step_true v (v - 2 ^ N.of_nat k)%N k n Hk Hb).
      rewrite (IH (S k)) with (v := (v - 2 ^ N.of_nat k)%N); try lia.
      * simpl length. f_equal. lia.
      * intros j Hj. rewrite Hb.
        destruct (N.eqb_spec j (N.of_nat k)) as [->|Hne]; [apply andb_false_r|].
        rewrite Hlow by lia. reflexivity.
    + rewrite bits_from_step_false by exact Hk.
      apply (IH (S k)); try lia. intros j Hj.
      destruct (N.eq_dec j (N.of_nat k)) as [->|Hne]; [exact Hk|apply Hlow; lia].
Qed.

Opaque realBytes popCount_loop.
(** The members of word [i], in increasing order. *)
Definition word_bytes (s : ByteSet) (i : N) : list ascii :=
  map (fun j => at_bit i (N.of_nat j)) (bits_from (bs_get s i) 0 64).

Lemma realBytes_full v o acc :
  (v < two64)%N ->
  realBytes 64 v o acc =
  Some (acc ++ map (fun j => b8 ((o + N.of_nat j) mod 256)) (bits_from v 0 64)).
Proof.
  intros Hv. apply (realBytes_spec 64 0 v 64 o acc eq_refl (le_n _) Hv).
  intros j Hj. destruct (N.nlt_0_r _ Hj).
Qed.

Lemma popCount_full v :
  (v < two64)%N -> popCount v = Some (length (bits_from v 0 64)).
Proof.
  intros Hv. unfold popCount.
  rewrite (popCount_loop_spec 64 0 v 64 0 eq_refl (le_n _) Hv); [reflexivity|].
  intros j Hj. destruct (N.nlt_0_r _ Hj).
Qed.

Lemma in_bits_from v n j :
  In j (bits_from v 0 n) <-> (j < n)%nat /\ N.testbit v (N.of_nat j) = true.
Proof. unfold bits_from. rewrite filter_In, in_seq. intuition lia. Qed.

Lemma bits_from_lt v n j : In j (bits_from v 0 n) -> (j < n)%nat.
Proof. intros H. apply in_bits_from in H. tauto. Qed.

Lemma bits_from_sorted v n : StronglySorted lt (bits_from v 0 n).
Proof.
  unfold bits_from. generalize 0. induction n as [|n IH]; intros k; simpl; [constructor|].
  destruct (N.testbit v (N.of_nat k)); [|apply IH]. constructor; [apply IH|].
  apply Forall_forall. intros x Hx. apply filter_In in Hx. destruct Hx as [Hx _].
  apply in_seq in Hx. lia.
Qed.

Lemma map_bits i l :
  (i < 4)%N -> (forall j, In j l -> (j < 64)%nat) ->
  map (fun j => b8 ((64 * i + N.of_nat j) mod 256)) l = map (fun j => at_bit i (N.of_nat j)) l.
Proof.
  intros Hi Hl. apply map_ext_in. intros j Hj. specialize (Hl j Hj).
  unfold at_bit. f_equal. lia.
Qed.

Lemma realBytes_word s i acc :
  bs_wf s -> (i < 4)%N ->
  realBytes 64 (bs_get s i) (64 * i) acc = Some (acc ++ word_bytes s i).
Proof.
  intros Hs Hi. rewrite realBytes_full by (apply get_wf, Hs).
  unfold word_bytes.
  pose proof (map_bits i (bits_from (bs_get s i) 0 64) Hi
                (fun j Hj => bits_from_lt _ _ _ Hj)) as E.
  rewrite E. reflexivity.
Qed.

Lemma bytes_words s :
  bs_wf s ->
  bs_bytes s = Some (((word_bytes s 0 ++ word_bytes s 1) ++ word_bytes s 2) ++ word_bytes s 3).
Proof.
  intros Hs. unfold bs_bytes.
  pose proof (realBytes_word s 0 [] Hs eq_refl) as H0.
  pose proof (fun acc => realBytes_word s 1 acc Hs eq_refl) as H1.
  pose proof (fun acc => realBytes_word s 2 acc Hs eq_refl) as H2.
  pose proof (fun acc => realBytes_word s 3 acc Hs eq_refl) as H3.
  change (bs_get s 0) with (data0 s) in H0. change (bs_get s 1) with (data1 s) in H1.
  change (bs_get s 2) with (data2 s) in H2. change (bs_get s 3) with (data3 s) in H3.
  change (64 * 0)%N with 0%N in H0. change (64 * 1)%N with 64%N in H1.
  change (64 * 2)%N with 128%N in H2. change (64 * 3)%N with 192%N in H3.
  rewrite H0. simpl app at 1. rewrite H1, H2, H3. reflexivity.
Qed.

Definition byte_lt (a b : ascii) : Prop := (code a < code b)%N.

Lemma ssorted_app {A} (R : A -> A -> Prop) l1 l2 :
  StronglySorted R l1 -> StronglySorted R l2 ->
  (forall x y, In x l1 -> In y l2 -> R x y) -> StronglySorted R (l1 ++ l2).
Proof.
  induction l1 as [|a l1 IH]; intros H1 H2 H; simpl; [exact H2|].
  inversion H1 as [|? ? Hs Hf]; subst. constructor.
  - apply IH; [exact Hs|exact H2|]. intros x y Hx Hy. apply H; [right; exact Hx|exact Hy].
  - apply Forall_app. split; [exact Hf|]. apply Forall_forall. intros y Hy.
    apply H; [left; reflexivity|exact Hy].
Qed.

Lemma ssorted_map {A B} (R : A -> A -> Prop) (Q : B -> B -> Prop) (f : A -> B) l :
  StronglySorted R l -> (forall x y, In x l -> In y l -> R x y -> Q (f x) (f y)) ->
  StronglySorted Q (map f l).
Proof.
  induction 1 as [|a l Hs IH Hf]; intros H; simpl; constructor.
  - apply IH. intros x y Hx Hy. apply H; right; assumption.
  - apply Forall_forall. intros y Hy. apply in_map_iff in Hy.
    destruct Hy as (x & <- & Hx). apply H; [left; reflexivity|right; exact Hx|].
    rewrite Forall_forall in Hf. apply Hf, Hx.
Qed.

Lemma in_word_bytes s i c :
  (i < 4)%N ->
  In c (word_bytes s i) <-> (code c / 64 = i)%N /\ bs_contains s c = true.
Proof.
  intros Hi. unfold word_bytes. rewrite in_map_iff. split.
  - intros (j & <- & Hj). apply in_bits_from in Hj. destruct Hj as [Hj Hb].
    rewrite at_bit_code by lia. split; [lia|].
    rewrite contains_at_bit by lia. exact Hb.
  - intros [Hd Hc]. exists (N.to_nat (code c mod 64)). rewrite contains_testbit, Hd in Hc.
    split.
    + apply code_inj. rewrite at_bit_code by lia. lia.
    + apply in_bits_from. rewrite N2Nat.id. split; [lia|exact Hc].
Qed.

Lemma word_bytes_sorted s i : (i < 4)%N -> StronglySorted byte_lt (word_bytes s i).
Proof.
  intros Hi. unfold word_bytes.
  apply ssorted_map with (R := lt); [apply bits_from_sorted|].
  intros x y Hx Hy Hxy. apply bits_from_lt in Hx, Hy.
  unfold byte_lt. rewrite !at_bit_code by lia. lia.
Qed.

Lemma bytes_spec s :
  bs_wf s ->
  exists l, bs_bytes s = Some l /\ StronglySorted byte_lt l /\
            forall c, In c l <-> bs_contains s c = true.
Proof.
  intros Hs. eexists. split; [apply bytes_words; exact Hs|]. split.
  - assert (L : forall i j, (i < 4)%N -> (j < 4)%N -> (i < j)%N ->
              forall x y, In x (word_bytes s i) -> In y (word_bytes s j) -> byte_lt x y).
    { intros i j Hi Hj Hij x y Hx Hy.
      apply in_word_bytes in Hx; [|exact Hi]. apply in_word_bytes in Hy; [|exact Hj].
      unfold byte_lt. lia. }
    repeat apply ssorted_app; try (apply word_bytes_sorted; reflexivity).
    + intros x y Hx Hy. eapply L; [| | |exact Hx|exact Hy]; reflexivity.
    + intros x y Hx Hy. apply in_app_or in Hx. destruct Hx as [Hx|Hx];
        (eapply L; [| | |exact Hx|exact Hy]; reflexivity).
    + intros x y Hx Hy. apply in_app_or in Hx. destruct Hx as [Hx|Hx];
        [apply in_app_or in Hx; destruct Hx as [Hx|Hx]|];
        (eapply L; [| | |exact Hx|exact Hy]; reflexivity).
  - intros c. rewrite !in_app_iff, !in_word_bytes by reflexivity.
    pose proof (idx_lt c).
    assert (C : (code c / 64 = 0 \/ code c / 64 = 1 \/ code c / 64 = 2 \/ code c / 64 = 3)%N)
      by lia.
    tauto.
Qed.

Lemma popCount_word s i :
  bs_wf s -> popCount (bs_get s i) = Some (length (word_bytes s i)).
Proof.
  intros Hs. rewrite popCount_full by (apply get_wf, Hs).
  unfold word_bytes. rewrite map_length. reflexivity.
Qed.

Lemma len_bytes s l : bs_wf s -> bs_bytes s = Some l -> bs_len s = Some (length l).
Proof.
  intros Hs Hl. rewrite bytes_words in Hl by exact Hs. injection Hl as <-.
  unfold bs_len.
  pose proof (popCount_word s 0 Hs) as H0. pose proof (popCount_word s 1 Hs) as H1.
  pose proof (popCount_word s 2 Hs) as H2. pose proof (popCount_word s 3 Hs) as H3.
  change (bs_get s 0) with (data0 s) in H0. change (bs_get s 1) with (data1 s) in H1.
  change (bs_get s 2) with (data2 s) in H2. change (bs_get s 3) with (data3 s) in H3.
  rewrite H0, H1, H2, H3.
  rewrite !app_length. f_equal.
Qed.

Lemma ssorted_nodup l : StronglySorted byte_lt l -> NoDup l.
Proof.
  induction 1 as [|a l Hs IH Hf]; constructor; [|exact IH].
  intros Hin. rewrite Forall_forall in Hf. specialize (Hf a Hin). unfold byte_lt in Hf. lia.
Qed.

(** A strictly increasing list is determined by its elements. *)
Lemma ssorted_unique l1 : forall l2,
  StronglySorted byte_lt l1 -> StronglySorted byte_lt l2 ->
  (forall c, In c l1 <-> In c l2) -> l1 = l2.
Proof.
  induction l1 as [|a l1 IH]; intros l2 H1 H2 H.
  - destruct l2 as [|b l2]; [reflexivity|]. destruct (proj2 (H b)). left. reflexivity.
  - destruct l2 as [|b l2]; [destruct (proj1 (H a)); left; reflexivity|].
    inversion H1 as [|? ? S1 F1]; inversion H2 as [|? ? S2 F2]; subst.
    rewrite Forall_forall in F1, F2.
    assert (a = b) as ->.
    { destruct (proj1 (H a)) as [E|E]; [left; reflexivity|congruence|].
      destruct (proj2 (H b)) as [E'|E']; [left; reflexivity|congruence|].
      specialize (F1 _ E'). specialize (F2 _ E). unfold byte_lt in *. lia. }
    f_equal. apply IH; try assumption. intros c. split; intros Hc.
    + destruct (proj1 (H c)) as [E|E]; [right; exact Hc| |exact E]. subst.
      specialize (F1 _ Hc). unfold byte_lt in F1. lia.
    + destruct (proj2 (H c)) as [E|E]; [right; exact Hc| |exact E]. subst.
      specialize (F2 _ Hc). unfold byte_lt in F2. lia.
Qed.

(** ** String *)

Lemma fold_sb l : forall sb,
  fold_left (fun sb b => sb ++ hex2 b ++ s2b " ") l sb
  = sb ++ flat_map (fun b => hex2 b ++ s2b " ") l.
Proof.
  induction l as [|b l IH]; intros sb; simpl fold_left; simpl flat_map.
  - rewrite app_nil_r. reflexivity.
  - rewrite IH. rewrite <- !app_assoc. reflexivity.
Qed.

Lemma fold_cnt l : forall c,
  fold_left (fun c b => c + length (hex2 b ++ s2b " ")) l c = c + 3 * length l.
Proof.
  induction l as [|b l IH]; intros c.
  - simpl. lia.
  - change (fold_left (fun c b => c + length (hex2 b ++ s2b " ")) (b :: l) c)
      with (fold_left (fun c b => c + length (hex2 b ++ s2b " ")) l (c + 3)).
    rewrite IH. simpl length. lia.
Qed.

Lemma set_last_app l a c : set_last (l ++ [a]) c = l ++ [c].
Proof.
  induction l as [|x l IH]; [reflexivity|].
  simpl app. destruct (l ++ [a]) as [|y r] eqn:E; [destruct l; discriminate|].
  change (set_last (x :: y :: r) c) with (x :: set_last (y :: r) c).
  rewrite <- E in *. rewrite IH. reflexivity.
Qed.

From Verif Require Import Spec_ByteSet.

(** ** Connection with the specification *)

Lemma hex2_pair b : hex2 b = hex_pair b.
Proof.
  destruct b as [b0 b1 b2 b3 b4 b5 b6 b7];
  destruct b0, b1, b2, b3, b4, b5, b6, b7; reflexivity.
Qed.

Lemma flat_join l :
  l <> [] ->
  flat_map (fun b => hex2 b ++ s2b " ") l = join (s2b " ") (map hex_pair l) ++ s2b " ".
Proof.
  induction l as [|b l IH]; intros Hn; [congruence|].
  change (flat_map (fun b => hex2 b ++ s2b " ") (b :: l))
    with ((hex2 b ++ s2b " ") ++ flat_map (fun b => hex2 b ++ s2b " ") l).
  rewrite hex2_pair. destruct l as [|c l].
  - change (flat_map (fun b => hex2 b ++ s2b " ") []) with (@nil ascii).
    rewrite app_nil_r. reflexivity.
  - rewrite IH by discriminate. simpl map.
    change (join (s2b " ") (hex_pair b :: hex_pair c :: map hex_pair l))
      with (hex_pair b ++ s2b " " ++ join (s2b " ") (hex_pair c :: map hex_pair l)).
    rewrite <- !app_assoc. reflexivity.
Qed.

Lemma string_spec s :
  bs_wf s ->
  exists l, increasing l /\ (forall c, In c l <-> bs_contains s c = true) /\
            bs_string s = Some (set_text l).
Proof.
  intros Hs. destruct (bytes_spec s Hs) as (l & Hl & Hsort & Hin).
  exists l. split; [exact Hsort|]. split; [exact Hin|].
  unfold bs_string. rewrite Hl, fold_sb, fold_cnt.
  destruct l as [|b l]; [reflexivity|].
  assert (Nat.eqb (0 + 3 * length (b :: l)) 0 = false) as -> by reflexivity.
  rewrite flat_join by discriminate.
  f_equal. unfold set_text. 
  change (s2b " ") with [" "%char] at 2.
  rewrite app_assoc, set_last_app, <- app_assoc. reflexivity.
Qed.

(** What the calls of a history do to a set. *)
Definition bs_call (s : ByteSet) (c : set_call) : ByteSet :=
  match c with CallAdd b => bs_add s b | CallRemove b => bs_remove s b end.

Lemma history_spec history : forall s M,
  bs_wf s -> (forall b, bs_contains s b = true <-> M b) ->
  bs_wf (fold_left bs_call history s) /\
  forall b, bs_contains (fold_left bs_call history s) b = true <->
            fold_left set_after_call history M b.
Proof.
  induction history as [|c h IH]; intros s M Hs HM; simpl; [split; assumption|].
  apply IH.
  - destruct c; [apply add_wf|apply remove_wf]; exact Hs.
  - intros b. destruct c as [v|v]; simpl.
    + rewrite contains_add, orb_true_iff, HM, Ascii.eqb_eq. reflexivity.
    + rewrite contains_remove, andb_true_iff, HM, negb_true_iff, Ascii.eqb_neq. reflexivity.
Qed.

Lemma history_new values history :
  bs_wf (fold_left bs_call history (bs_new values)) /\
  forall b, bs_contains (fold_left bs_call history (bs_new values)) b = true <->
            set_after values history b.
Proof.
  apply history_spec; [apply new_wf|]. intros b. rewrite contains_new, existsb_exists.
  split; [intros (x & Hx & E); apply Ascii.eqb_eq in E; subst; exact Hx|].
  intros H. exists b. split; [exact H|apply Ascii.eqb_refl].
Qed.

Lemma all_bytes_length (l : list ascii) : NoDup l -> length l <= 256.
Proof.
  intros H.
  assert (I : incl (map code l) (map N.of_nat (seq 0 256))).
  { intros x Hx. apply in_map_iff in Hx. destruct Hx as (c & <- & _).
    apply in_map_iff. exists (N.to_nat (code c)). rewrite N2Nat.id. split; [reflexivity|].
    apply in_seq. pose proof (code_lt c). lia. }
  apply NoDup_incl_length in I.
  - rewrite !map_length, seq_length in I. exact I.
  - apply FinFun.Injective_map_NoDup; [intros a b; apply code_inj|exact H].
Qed.

Lemma len_spec s :
  bs_wf s ->
  exists l, NoDup l /\ (forall c, In c l <-> bs_contains s c = true) /\
            bs_len s = Some (length l) /\ length l <= 256.
Proof.
  intros Hs. destruct (bytes_spec s Hs) as (l & Hl & Hsort & Hin).
  exists l. pose proof (ssorted_nodup _ Hsort) as Hnd.
  split; [exact Hnd|]. split; [exact Hin|]. split; [apply len_bytes; assumption|].
  apply all_bytes_length, Hnd.
Qed.

Lemma bytes_len_new_roundtrip s l : bs_wf s -> bs_bytes s = Some l -> bs_new l = s.
Proof.
  intros Hs Hl. destruct (bytes_spec s Hs) as (l' & Hl' & _ & Hin).
  rewrite Hl in Hl'. injection Hl' as <-.
  apply bs_ext; [apply new_wf|exact Hs|]. intros c. rewrite contains_new.
  apply eq_true_iff_eq. rewrite existsb_exists, <- Hin. split.
  - intros (x & Hx & E). apply Ascii.eqb_eq in E. subst. exact Hx.
  - intros H. exists c. split; [exact H|apply Ascii.eqb_refl].
Qed.

Lemma no_interference s v b :
  b <> v ->
  bs_contains (bs_add s v) b = bs_contains s b /\
  bs_contains (bs_remove s v) b = bs_contains s b /\
  bs_contains (bs_add s v) v = true /\
  bs_contains (bs_remove s v) v = false.
Proof.
  intros H. rewrite !contains_add, !contains_remove, Ascii.eqb_refl.
  apply Ascii.eqb_neq in H. rewrite H. repeat split.
Qed.

Lemma algebra_spec s o :
  bs_wf s -> bs_wf o ->
  bs_wf (bs_union s o) /\
  (forall b, bs_contains (bs_union s o) b = true <->
             bs_contains s b = true \/ bs_contains o b = true) /\
  (bs_equal s o = true <-> forall b, bs_contains s b = true <-> bs_contains o b = true) /\
  (bs_is_subset s o = true <-> forall b, bs_contains s b = true -> bs_contains o b = true) /\
  (bs_is_superset s o = true <-> forall b, bs_contains o b = true -> bs_contains s b = true).
Proof.
  intros Hs Ho. split; [apply union_wf; assumption|]. split.
  { intros b. rewrite contains_union, orb_true_iff. reflexivity. }
  split.
  { rewrite equal_spec by assumption. split; intros H b; specialize (H b).
    - rewrite H. reflexivity.
    - apply eq_true_iff_eq. exact H. }
  split; [apply subset_spec; exact Hs|]. apply superset_spec. exact Ho.
Qed.
