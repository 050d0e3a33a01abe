(** * Props_ByteSet: properties C01 - C05 of byteset.ByteSet.

    [bs_wf] says that the four words are in the range of Go's uint64, i.e. that
    the value can exist in Go at all; [C01] shows that the operations preserve
    it.  The results of [bs_len], [bs_bytes], [bs_string] are options because
    their loops run on fuel in the model: [Some] says that the loop ended. *)
From Verif Require Import Base ByteSet Spec_ByteSet ByteSetProofs ByteSetTime.

(** C01: over every history of Add/Remove the set behaves as a mathematical set. *)
Theorem C01_byteset_is_a_set :
  forall (values : list ascii) (history : list set_call),
    let s := fold_left (fun s c => match c with
                                   | CallAdd b => bs_add s b
                                   | CallRemove b => bs_remove s b
                                   end) history (bs_new values) in
    bs_wf s /\ forall b : ascii, bs_contains s b = true <-> set_after values history b.
Proof. exact history_new. Qed.
Print Assumptions C01_byteset_is_a_set.

(** C01, no interference: a single call changes at most the membership of its
    own argument (also for sets not made by New). *)
Theorem C01_no_interference :
  forall (s : ByteSet) (v b : ascii),
    b <> v ->
    bs_contains (bs_add s v) b = bs_contains s b /\
    bs_contains (bs_remove s v) b = bs_contains s b /\
    bs_contains (bs_add s v) v = true /\
    bs_contains (bs_remove s v) v = false.
Proof. exact no_interference. Qed.
Print Assumptions C01_no_interference.

Example C01_case :
  set_after (s2b "ab") [CallAdd "z"; CallRemove "a"; CallAdd NUL]%char "z"%char
  /\ ~ set_after (s2b "ab") [CallAdd "z"; CallRemove "a"; CallAdd NUL]%char "a"%char.
Proof.
  cbv. split; [right; split; [discriminate|left; reflexivity]|].
  intros [H|[H _]]; [discriminate|apply H; reflexivity].
Qed.

(** C02: Len is the number of distinct members. *)
Theorem C02_len_is_cardinality :
  forall s : ByteSet, bs_wf s ->
    exists members : list ascii,
      NoDup members /\ (forall b, In b members <-> bs_contains s b = true) /\
      bs_len s = Some (length members) /\ length members <= 256.
Proof. exact len_spec. Qed.
Print Assumptions C02_len_is_cardinality.

(** C03: Bytes terminates, is strictly increasing and lists exactly the members. *)
Theorem C03_bytes_enumerates :
  forall s : ByteSet, bs_wf s ->
    exists l : list ascii,
      bs_bytes s = Some l /\ increasing l /\ forall b, In b l <-> bs_contains s b = true.
Proof. exact bytes_spec. Qed.
Print Assumptions C03_bytes_enumerates.

(** C03: New(s.Bytes()...) is s again. *)
Theorem C03_bytes_new_roundtrip :
  forall (s : ByteSet) (l : list ascii), bs_wf s -> bs_bytes s = Some l -> bs_new l = s.
Proof. exact bytes_len_new_roundtrip. Qed.
Print Assumptions C03_bytes_new_roundtrip.

(** C04: the algebra is extensional. *)
Theorem C04_algebra :
  forall s o : ByteSet, bs_wf s -> bs_wf o ->
    bs_wf (bs_union s o) /\
    (forall b, bs_contains (bs_union s o) b = true <->
               bs_contains s b = true \/ bs_contains o b = true) /\
    (bs_equal s o = true <-> forall b, bs_contains s b = true <-> bs_contains o b = true) /\
    (bs_is_subset s o = true <-> forall b, bs_contains s b = true -> bs_contains o b = true) /\
    (bs_is_superset s o = true <-> forall b, bs_contains o b = true -> bs_contains s b = true).
Proof. exact algebra_spec. Qed.
Print Assumptions C04_algebra.

(** C05: the text of a set. *)
Theorem C05_string :
  forall s : ByteSet, bs_wf s ->
    exists members : list ascii,
      increasing members /\ (forall b, In b members <-> bs_contains s b = true) /\
      bs_string s = Some (set_text members).
Proof. exact string_spec. Qed.
Print Assumptions C05_string.

(** Non-vacuity: a set with a member in each word, including 0 and 255. *)
Example ByteSet_case :
  let s := bs_new (map b8 [0; 10; 64; 127; 128; 191; 192; 255]%N) in
  bs_wf s /\ bs_len s = Some 8 /\
  bs_bytes s = Some (map b8 [0; 10; 64; 127; 128; 191; 192; 255]%N) /\
  bs_string s = Some (s2b "[00 0A 40 7F 80 BF C0 FF]").
Proof. split; [apply new_wf|]. repeat split; vm_compute; reflexivity. Qed.
Example ByteSet_empty_text : set_text [] = s2b "[]".
Proof. reflexivity. Qed.

(** C83: Len makes exactly one round of its loop per member of the set, all four
    words together (byteset.go:4-6 and 62-64 promise this). *)
Theorem C83_len_rounds :
  forall s : ByteSet, bs_wf s ->
    exists members n0 n1 n2 n3,
      increasing members /\ (forall b, In b members <-> bs_contains s b = true) /\
      rounds (fun k => popCount_loop k (data0 s) 0) n0 /\
      rounds (fun k => popCount_loop k (data1 s) 0) n1 /\
      rounds (fun k => popCount_loop k (data2 s) 0) n2 /\
      rounds (fun k => popCount_loop k (data3 s) 0) n3 /\
      n0 + n1 + n2 + n3 = length members.
Proof. exact len_rounds. Qed.
Print Assumptions C83_len_rounds.

(** C83: Bytes (and String, which uses the same loop) makes exactly one round
    per byte it returns; [r0], [r1], [r2] are what has been collected when the
    loop of the next word starts. *)
Theorem C83_bytes_rounds :
  forall s : ByteSet, bs_wf s ->
    exists l r0 r1 r2 n0 n1 n2 n3,
      bs_bytes s = Some l /\
      realBytes 64 (data0 s) 0 [] = Some r0 /\
      realBytes 64 (data1 s) 64 r0 = Some r1 /\
      realBytes 64 (data2 s) 128 r1 = Some r2 /\
      realBytes 64 (data3 s) 192 r2 = Some l /\
      rounds (fun k => realBytes k (data0 s) 0 []) n0 /\
      rounds (fun k => realBytes k (data1 s) 64 r0) n1 /\
      rounds (fun k => realBytes k (data2 s) 128 r1) n2 /\
      rounds (fun k => realBytes k (data3 s) 192 r2) n3 /\
      n0 + n1 + n2 + n3 = length l.
Proof. exact bytes_rounds. Qed.
Print Assumptions C83_bytes_rounds.

(** Non-vacuity: the loop on a word with the bits 0, 10 and 63 makes three rounds. *)
Example C83_case :
  let w := data0 (bs_new (map b8 [0; 10; 63; 64]%N)) in
  popCount_loop 2 w 0 = None /\ popCount_loop 3 w 0 = Some 3.
Proof. vm_compute. split; reflexivity. Qed.
