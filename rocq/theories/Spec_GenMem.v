(** * Spec_GenMem: what a grammar and a table in memory are.

    Relations between the memory of TableGenMem.v and plain values, on top of
    Spec_Mem.v. *)
From Verif Require Import Base ByteSet Ast Parser SliceMem ParserMem TableGenMem Spec_Mem.

(** A rule in memory: its head, and a slice of slices of symbols. *)
Definition rule_in (m : gmem) (mr : mrule) (r : rule) : Prop :=
  fst mr = r_head r /\
  exists seqs, holds (gm_seqs m) (snd mr) seqs /\
    Forall2 (fun s syms => holds (gm_syms m) s syms) seqs (r_tail r).

(** The slice [mg] of rules denotes the grammar [g]. Slices may share arrays in
    any way. *)
Definition grammar_in (m : gmem) (mg : slice) (g : grammar) : Prop :=
  exists mrs, holds (gm_rules m) mg mrs /\ Forall2 (rule_in m) mrs g.

(** Every array of [h] is still there in [h'], with the same contents. *)
Definition kept {T} (h h' : heap T) : Prop :=
  forall a arr, nth_error h a = Some arr -> nth_error h' a = Some arr.

(** Every array of [m] is still there in [m'], with the same contents. *)
Definition all_kept (m m' : gmem) : Prop :=
  untouched (gm_mem m) (gm_mem m') /\ kept (gm_syms m) (gm_syms m') /\
  kept (gm_seqs m) (gm_seqs m') /\ kept (gm_rules m) (gm_rules m') /\
  kept (gm_sets m) (gm_sets m').

(** The cells of a table, row by row. *)
Definition cells (mt : mtable) : list slice := flat_map (fun r => map snd (snd r)) mt.

(** The table owns its cells: each cell that has room for elements has an array
    that did not exist before (address [base] or above), and no two cells have
    the same array. *)
Definition own_cells (base : nat) (l : list slice) : Prop :=
  Forall (fun s => sl_cap s = 0 \/ base <= sl_arr s) l /\
  NoDup (map sl_arr (filter (fun s => negb (Nat.eqb (sl_cap s) 0)) l)).

(** The grammar in memory owns its parts: its rules, the alternatives of its
    rules and the symbols of its alternatives lie in arrays that did not exist
    before (in memory [m]), each rule's alternatives and each alternative's
    symbols in an array of their own. *)
Definition rules_of (m : gmem) (mg : slice) : list mrule := slice_elems (gm_rules m) mg.
Definition alternatives_of (m : gmem) (mg : slice) : list slice :=
  flat_map (fun r => slice_elems (gm_seqs m) (snd r)) (rules_of m mg).
Definition own_grammar (m m' : gmem) (mg : slice) : Prop :=
  own_cells (length (gm_rules m)) [mg] /\
  own_cells (length (gm_seqs m)) (map snd (rules_of m' mg)) /\
  own_cells (length (gm_syms m)) (alternatives_of m' mg).
