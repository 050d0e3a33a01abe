(** * ByteSetTime: number of rounds of the loops of ByteSet (proofs of C83) *)
From Verif Require Import Base ByteSet Spec_ByteSet ByteSetProofs.

Transparent realBytes popCount_loop.

Lemma popCount_rounds n : forall k v c,
  (k + n = 64)%nat -> (v < two64)%N ->
  (forall j, (j < N.of_nat k)%N -> N.testbit v j = false) ->
  forall fuel, popCount_loop fuel v c <> None <-> (length (bits_from v k n) <= fuel)%nat.
Proof.
  induction n as [|n IH]; intros k v c Hkn Hv Hlow fuel.
  - assert (v = 0)%N as ->.
    { apply no_bits_zero. intros j. destruct (N.lt_ge_cases j 64) as [Hj|Hj].
      - apply Hlow. lia.
      - apply bits_above; assumption. }
    destruct fuel; simpl; split; intros; try lia; discriminate.
  - destruct (N.testbit v (N.of_nat k)) eqn:Hk.
    + destruct (round_lowest v (N.of_nat k) Hv Hlow Hk) as (Hz & Hl & Hi & Hv' & Hb).
      rewrite (bits_from_step_true v (v - 2 ^ N.of_nat k)%N k n Hk Hb).
      destruct fuel as [|fuel].
      { cbn [popCount_loop]. rewrite Hz. simpl length. split; [congruence|lia]. }
      cbn [popCount_loop]. rewrite Hz, Hl.
      rewrite (IH (S k)) with (v := (v - 2 ^ N.of_nat k)%N); try lia.
      * simpl length. lia.
      * intros j Hj. rewrite Hb.
        destruct (N.eqb_spec j (N.of_nat k)) as [->|Hne]; [apply andb_false_r|].
        rewrite Hlow by lia. reflexivity.
    + rewrite bits_from_step_false by exact Hk.
      apply (IH (S k)); try lia. intros j Hj.
      destruct (N.eq_dec j (N.of_nat k)) as [->|Hne]; [exact Hk|apply Hlow; lia].
Qed.

Lemma realBytes_rounds n : forall k v o acc,
  (k + n = 64)%nat -> (v < two64)%N ->
  (forall j, (j < N.of_nat k)%N -> N.testbit v j = false) ->
  forall fuel, realBytes fuel v o acc <> None <-> (length (bits_from v k n) <= fuel)%nat.
Proof.
  induction n as [|n IH]; intros k v o acc Hkn Hv Hlow fuel.
  - assert (v = 0)%N as ->.
    { apply no_bits_zero. intros j. destruct (N.lt_ge_cases j 64) as [Hj|Hj].
      - apply Hlow. lia.
      - apply bits_above; assumption. }
    destruct fuel; simpl; split; intros; try lia; discriminate.
  - destruct (N.testbit v (N.of_nat k)) eqn:Hk.
    + destruct (round_lowest v (N.of_nat k) Hv Hlow Hk) as (Hz & Hl & Hi & Hv' & Hb).
      rewrite (bits_from_step_true v (v - 2 ^ N.of_nat k)%N k n Hk Hb).
      destruct fuel as [|fuel].
      { cbn [realBytes]. rewrite Hz. simpl length. split; [congruence|lia]. }
      cbn [realBytes]. rewrite Hz, Hl, Hi. rewrite log2pow2n_pow by lia.
      rewrite (IH (S k)) with (v := (v - 2 ^ N.of_nat k)%N); try lia.
      * simpl length. lia.
      * intros j Hj. rewrite Hb.
        destruct (N.eqb_spec j (N.of_nat k)) as [->|Hne]; [apply andb_false_r|].
        rewrite Hlow by lia. reflexivity.
    + rewrite bits_from_step_false by exact Hk.
      apply (IH (S k)); try lia. intros j Hj.
      destruct (N.eq_dec j (N.of_nat k)) as [->|Hne]; [exact Hk|apply Hlow; lia].
Qed.

Opaque realBytes popCount_loop.

Lemma word_length s i : length (word_bytes s i) = length (bits_from (bs_get s i) 0 64).
Proof. unfold word_bytes. apply map_length. Qed.

Lemma popCount_word_rounds s i : bs_wf s ->
  rounds (fun k => popCount_loop k (bs_get s i) 0) (length (word_bytes s i)).
Proof.
  intros Hs k. rewrite word_length.
  apply (popCount_rounds 64 0); [reflexivity|apply get_wf, Hs|].
  intros j Hj. destruct (N.nlt_0_r _ Hj).
Qed.

Lemma realBytes_word_rounds s i o acc : bs_wf s ->
  rounds (fun k => realBytes k (bs_get s i) o acc) (length (word_bytes s i)).
Proof.
  intros Hs k. rewrite word_length.
  apply (realBytes_rounds 64 0); [reflexivity|apply get_wf, Hs|].
  intros j Hj. destruct (N.nlt_0_r _ Hj).
Qed.

Lemma word_counts s l : bs_wf s -> bs_bytes s = Some l ->
  length (word_bytes s 0) + length (word_bytes s 1) + length (word_bytes s 2)
  + length (word_bytes s 3) = length l.
Proof.
  intros Hs Hl. rewrite bytes_words in Hl by exact Hs. injection Hl as <-.
  rewrite !app_length. reflexivity.
Qed.

Lemma len_rounds s : bs_wf s ->
  exists members n0 n1 n2 n3,
    increasing members /\ (forall b, In b members <-> bs_contains s b = true) /\
    rounds (fun k => popCount_loop k (data0 s) 0) n0 /\
    rounds (fun k => popCount_loop k (data1 s) 0) n1 /\
    rounds (fun k => popCount_loop k (data2 s) 0) n2 /\
    rounds (fun k => popCount_loop k (data3 s) 0) n3 /\
    n0 + n1 + n2 + n3 = length members.
Proof.
  intros Hs. destruct (bytes_spec s Hs) as (l & Hl & Hi & Hm).
  exists l, (length (word_bytes s 0)), (length (word_bytes s 1)),
    (length (word_bytes s 2)), (length (word_bytes s 3)).
  split; [exact Hi|]. split; [exact Hm|].
  split; [exact (popCount_word_rounds s 0 Hs)|].
  split; [exact (popCount_word_rounds s 1 Hs)|].
  split; [exact (popCount_word_rounds s 2 Hs)|].
  split; [exact (popCount_word_rounds s 3 Hs)|].
  apply word_counts; assumption.
Qed.

Lemma bytes_rounds s : bs_wf s ->
  exists l r0 r1 r2 n0 n1 n2 n3,
    bs_bytes s = Some l /\
    realBytes 64 (data0 s) 0 [] = Some r0 /\
    realBytes 64 (data1 s) 64 r0 = Some r1 /\
    realBytes 64 (data2 s) 128 r1 = Some r2 /\
    realBytes 64 (data3 s) 192 r2 = Some l /\
    rounds (fun k => realBytes k (data0 s) 0 []) n0 /\
    rounds (fun k => realBytes k (data1 s) 64 r0) n1 /\
    rounds (fun k => realBytes k (data2 s) 128 r1) n2 /\
    rounds (fun k => realBytes k (data3 s) 192 r2) n3 /\
    n0 + n1 + n2 + n3 = length l.
Proof.
  intros Hs. destruct (bytes_spec s Hs) as (l & Hl & _ & _).
  pose proof Hl as Hl'. unfold bs_bytes in Hl'.
  destruct (realBytes 64 (data0 s) 0 []) as [r0|] eqn:E0; [|discriminate].
  destruct (realBytes 64 (data1 s) 64 r0) as [r1|] eqn:E1; [|discriminate].
  destruct (realBytes 64 (data2 s) 128 r1) as [r2|] eqn:E2; [|discriminate].
  exists l, r0, r1, r2, (length (word_bytes s 0)), (length (word_bytes s 1)),
    (length (word_bytes s 2)), (length (word_bytes s 3)).
  repeat split; try assumption.
  - apply (realBytes_word_rounds s 0 0 [] Hs k).
  - apply (realBytes_word_rounds s 0 0 [] Hs k).
  - apply (realBytes_word_rounds s 1 64 r0 Hs k).
  - apply (realBytes_word_rounds s 1 64 r0 Hs k).
  - apply (realBytes_word_rounds s 2 128 r1 Hs k).
  - apply (realBytes_word_rounds s 2 128 r1 Hs k).
  - apply (realBytes_word_rounds s 3 192 r2 Hs k).
  - apply (realBytes_word_rounds s 3 192 r2 Hs k).
  - apply word_counts; assumption.
Qed.
