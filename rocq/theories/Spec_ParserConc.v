(** * Spec_ParserConc: races between calls of Parse. *)
From Verif Require Import Base Cst Parser SliceMem ParserMem ParserConc Spec_Mem.

(** The memory holds three kinds of arrays: of operands, of nodes, of bytes. *)
Inductive qkind := QKOps | QKNodes | QKBytes.

(** The array the next step of a call accesses, and whether it writes. An index
    out of range is found before any access; a new array is accessed by its
    maker only, and so is the one made by [append] without room, which besides
    reads the old one. *)
Definition qread_access (kd : qkind) (s : slice) (i : nat) (w : bool) : option (qkind * nat * bool) :=
  if Nat.ltb i (sl_len s) then Some (kd, sl_arr s, w) else None.
Definition qappend_access (kd : qkind) (s : slice) : option (qkind * nat * bool) :=
  if Nat.ltb (sl_len s) (sl_cap s) then Some (kd, sl_arr s, true)
  else if Nat.ltb 0 (sl_len s) then Some (kd, sl_arr s, false) else None.
Definition qaccess {A} (p : qprog A) : option (qkind * nat * bool) :=
  match p with
  | QRet _ => None
  | QOp s i _ => qread_access QKOps s i false
  | QByte s i _ => qread_access QKBytes s i false
  | QNode s i _ => qread_access QKNodes s i false
  | QAppOp _ s _ _ => qappend_access QKOps s
  | QAppNode _ s _ _ => qappend_access QKNodes s
  | QSetNode s i _ _ => qread_access QKNodes s i true
  | QNodes _ _ => None
  | QBytes _ _ => None
  end.

(** Two calls are about to access the same array, and one of them writes. *)
Definition qrace (c : qconfig) : Prop :=
  exists i k p q kd a b,
    i <> k /\ nth_error (qc_calls c) i = Some p /\ nth_error (qc_calls c) k = Some q /\
    qaccess p = Some (kd, a, true) /\ qaccess q = Some (kd, a, b).

(** How often call [i] takes a turn. *)
Definition qturns (i : nat) (sched : list nat) : nat := count_occ Nat.eq_dec sched i.

(** What the calls are given stands in memory; apart from that tables and
    sources may share arrays in any way, also between calls. *)
Definition jobs_in (m : mem) (jobs : list qjob) : Prop :=
  Forall (fun j => exists t s, table_in m (q_table j) t /\ source_in m (q_source j) s) jobs.
