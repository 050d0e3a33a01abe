(** * Props_SetVars: property C108, ByteSet variables are independent values.

    [sm_run p (sm_vars n)] runs a program over [n] variables of type ByteSet,
    each an object of four words in memory; every call copies, reads and writes
    words as Go does (ByteSetMem.v). *)
From Verif Require Import Base ByteSet Spec_ByteSet Spec_SetVars ByteSetMem ByteSetMemProofs.

(** Whatever a program does with its set variables, it does not panic and prints
    what it would print if each variable held a mathematical set of its own. *)
Theorem C108_values :
  forall (n : nat) (p : list set_stmt),
    declared n p ->
    exists m : smem, sm_run p (sm_vars n) = Some (set_output no_sets p, m).
Proof. exact program_ok. Qed.
Print Assumptions C108_values.

(** After every program, the next statement [c] leaves all four words of each
    variable it does not assign, add to or remove from as they were: Union,
    Equal, IsSubSet, IsSuperSet, Contains, Len, Bytes and String change nothing
    the caller has, and a set and its copy never change together. *)
Theorem C108_operands_kept :
  forall (n : nat) (p : list set_stmt) (c : set_stmt),
    declared n (p ++ [c]) ->
    exists out m m' a,
      sm_run p (sm_vars n) = Some (out, m) /\ sm_stmt c m = Some (a, m') /\
      forall x, x < n -> changes c x = false -> nth_error m' x = nth_error m x /\ x < length m.
Proof. exact program_frame. Qed.
Print Assumptions C108_operands_kept.

(** Non-vacuity: a copy, a union and the original, changed separately. *)
Definition C108_program : list set_stmt :=
  [SNew 0 (s2b "ab"); SCopy 1 0; SAdd 0 "z"%char; SUnion 2 0 1; SRemove 1 "a"%char;
   SString 0; SString 1; SString 2; SEqual 0 2; SSubSet 1 0; SSuperSet 1 0; SLen 2;
   SUnion 2 2 2; SBytes 2; SContains 1 "a"%char].
Example C108_case :
  declared 3 C108_program /\
  set_output no_sets C108_program
  = [ABytes (s2b "[61 62 7A]"); ABytes (s2b "[62]"); ABytes (s2b "[61 62 7A]"); ABool true;
     ABool true; ABool false; ANum 3; ABytes (s2b "abz"); ABool false] /\
  changes (SUnion 2 0 1) 0 = false /\ changes (SUnion 2 0 1) 2 = true.
Proof.
  split; [|vm_compute; auto].
  intros c x Hc Hx. unfold C108_program in Hc.
  repeat (destruct Hc as [<-|Hc]; [simpl in Hx; intuition lia|]). destruct Hc.
Qed.
