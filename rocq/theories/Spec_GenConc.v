(** * Spec_GenConc: races between calls of FromGrammar. *)
From Verif Require Import Base ByteSet Ast Parser SliceMem ParserMem TableGenMem TableGenConc.

(** The memory holds four kinds of arrays that a call accesses. *)
Inductive kind := KRules | KSeqs | KSyms | KSets | KOps.

(** The array the next step of a call accesses, and whether it writes. An index
    out of range is found before any access; [make] accesses a new array, and
    so does [append] without room, which besides reads the old one. *)
Definition gaccess {A} (p : prog A) : option (kind * nat * bool) :=
  match p with
  | PRet _ => None
  | PRule s i _ => if Nat.ltb i (sl_len s) then Some (KRules, sl_arr s, false) else None
  | PSeq s i _ => if Nat.ltb i (sl_len s) then Some (KSeqs, sl_arr s, false) else None
  | PSym s i _ => if Nat.ltb i (sl_len s) then Some (KSyms, sl_arr s, false) else None
  | PSet s i _ => if Nat.ltb i (sl_len s) then Some (KSets, sl_arr s, false) else None
  | PWrite s i _ _ => if Nat.ltb i (sl_len s) then Some (KSets, sl_arr s, true) else None
  | PMake _ _ => None
  | PAppend _ s _ _ =>
      if Nat.ltb (sl_len s) (sl_cap s) then Some (KOps, sl_arr s, true)
      else if Nat.ltb 0 (sl_len s) then Some (KOps, sl_arr s, false) else None
  end.

(** Two calls are about to access the same array, and one of them writes. *)
Definition grace (c : gconfig) : Prop :=
  exists i k p q kd a b,
    i <> k /\ nth_error (gc_calls c) i = Some p /\ nth_error (gc_calls c) k = Some q /\
    gaccess p = Some (kd, a, true) /\ gaccess q = Some (kd, a, b).

(** How often call [i] takes a turn. *)
Definition gturns (i : nat) (sched : list nat) : nat := count_occ Nat.eq_dec sched i.

Definition gdone (p : gcall) : Prop := exists r, p = PRet r.
