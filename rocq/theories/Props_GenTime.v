(** * Props_GenTime: property C97, the running time of FromGrammar. *)
From Verif Require Import Base ByteSet Ast Cst Parser TableGen TableGenTime FromCstTime SelfGrammar Spec_Parse Spec_Grammar Spec_GenTime Spec_Bnf
  TGMain Props_TableGen GenTime GenTimeLow.
From Coq Require Import Permutation.

(** The counted FromGrammar is FromGrammar. *)
Theorem C97_same_result :
  forall order fuel g, snd (FromGrammar_t order fuel g) = FromGrammar_order order fuel g.
Proof. exact FromGrammar_snd. Qed.
Print Assumptions C97_same_result.

(** Every call on a grammar of [n] rules and size [m] (rules, alternatives and
    symbols together) makes at most 2 (256 n + 1) (n + 1) (m + 1) + 1031 m
    rounds of loops, whether it succeeds, fails or panics, and however long it
    is allowed to run. *)
Theorem C97_rounds :
  forall order fuel g,
    (forall l, Permutation (order l) l) ->
    let n := length g in
    let m := grammar_size g in
    fst (FromGrammar_t order fuel g) <= 2 * (256 * n + 1) * (n + 1) * (m + 1) + 1031 * m.
Proof. intros order fuel g O. exact (FromGrammar_rounds order fuel g O). Qed.
Print Assumptions C97_rounds.

(** A call that succeeds makes at least [n * n] rounds. *)
Theorem C97_at_least :
  forall order fuel g tbl names,
    FromGrammar_order order fuel g = Ok (tbl, names) -> length g * length g <= fst (FromGrammar_t order fuel g).
Proof. intros order fuel g tbl names H. exact (FromGrammar_at_least order fuel g _ H). Qed.
Print Assumptions C97_at_least.

(** The power three is needed: there are accepted grammars of [k + 1] rules and
    size [3 (k + 1)] for which it makes at least [k (k + 1) (k + 1)] rounds. *)
Theorem C97_cubic :
  forall k order fuel,
    1 <= k -> 256 * (k + 1) + 1 <= fuel ->
    length (slow k) = k + 1 /\ grammar_size (slow k) = 3 * (k + 1) /\
    (exists tbl names, FromGrammar_order order fuel (slow k) = Ok (tbl, names)) /\
    k * (k + 1) * (k + 1) <= fst (FromGrammar_t order fuel (slow k)).
Proof.
  intros [|k] order fuel Hk Hf; [lia|]. pose proof (slow_length k) as L.
  assert (F : 256 * length (slow (S k)) + 1 <= fuel) by lia.
  destruct (slow_accepted k order fuel F) as (tbl & names & E).
  split; [lia|]. split.
  - unfold grammar_size, slow. cbn [map]. change (list_sum (?a :: ?b)) with (a + list_sum b). rewrite map_map.
    assert (X : forall f l, (forall i : nat, f i = 3) -> list_sum (map f l) = 3 * length l).
    { intros f l H. induction l as [|i l IH]; [reflexivity|]. cbn [map length]. change (list_sum (?a :: ?b)) with (a + list_sum b). rewrite H, IH. lia. }
    rewrite X by reflexivity. rewrite seq_length. change (S (alternatives_size _)) with 3. lia.
  - split; [exists tbl, names; exact E|]. pose proof (slow_cubic k order fuel _ E) as X. rewrite L in X.
    replace (S k + 1) with (S (S k)) by lia. rewrite <- Nat.mul_assoc. exact X.
Qed.
Print Assumptions C97_cubic.

(** In terms of the text a grammar is read from: the grammar is no larger than
    the text, so that generating its table takes at most cubic time in the
    number of bytes. *)
Theorem C97_from_text :
  forall order fuel text g,
    (forall l, Permutation (order l) l) -> bnf_text text g ->
    let N := length text in
    8 * length g <= N /\ grammar_size g <= N /\
    fst (FromGrammar_t order fuel g) <= 2 * (32 * N + 1) * (N + 1) * (N + 1) + 1031 * N.
Proof.
  intros order fuel text g O H N. destruct (text_bytes _ _ H) as (H1 & H2). split; [exact H2|]. split; [exact H1|].
  exact (text_rounds order fuel text g O H).
Qed.
Print Assumptions C97_from_text.

(** The demo grammar, the grammar of BNF and the tenth slow grammar. *)
Example C97_case :
  grammar_size demo = 12 /\ fst (FromGrammar_t (fun l => l) 600 demo) = 121 /\
  length SelfGrammar = 26 /\ grammar_size SelfGrammar = 331 /\
  N.of_nat (fst (FromGrammar_t (fun l => l) (256 * 26 + 1) SelfGrammar)) = 21685%N /\
  N.of_nat (fst (FromGrammar_t (fun l => l) (256 * 10 + 1) (slow 9))) = 3223%N.
Proof. vm_compute. repeat split. Qed.
