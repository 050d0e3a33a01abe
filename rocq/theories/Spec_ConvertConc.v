(** * Spec_ConvertConc: races between calls of ToAST. *)
From Verif Require Import Base Cst Ast FromCst SliceMem ParserMem TableGenMem FromCstMem ConvertConc.

(** The memory holds three kinds of arrays: of symbols, alternatives, rules. *)
Inductive rkind := RKSyms | RKSeqs | RKRules.

(** The array the next step of a call accesses, and whether it writes. An
    [append] with room writes the array of its slice; without room it makes a
    new one, which nobody else has, and reads the old one. *)
Definition rappend_access (kd : rkind) (s : slice) : option (rkind * nat * bool) :=
  if Nat.ltb (sl_len s) (sl_cap s) then Some (kd, sl_arr s, true)
  else if Nat.ltb 0 (sl_len s) then Some (kd, sl_arr s, false) else None.
Definition raccess {A} (p : rprog A) : option (rkind * nat * bool) :=
  match p with
  | RRet _ => None
  | RSym _ s _ _ => rappend_access RKSyms s
  | RSeq _ s _ _ => rappend_access RKSeqs s
  | RRule _ s _ _ => rappend_access RKRules s
  end.

(** Two calls are about to access the same array, and one of them writes. *)
Definition rrace (c : rconfig) : Prop :=
  exists i k p q kd a b,
    i <> k /\ nth_error (rc_calls c) i = Some p /\ nth_error (rc_calls c) k = Some q /\
    raccess p = Some (kd, a, true) /\ raccess q = Some (kd, a, b).

(** How often call [i] takes a turn. *)
Definition rturns (i : nat) (sched : list nat) : nat := count_occ Nat.eq_dec sched i.

(** The number of nodes of a tree. *)
Fixpoint nodes_of (n : node) : nat :=
  match n with
  | Node _ _ _ childs => S (list_sum (map nodes_of childs))
  end.
