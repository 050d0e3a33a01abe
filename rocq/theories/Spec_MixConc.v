(** * Spec_MixConc: races between goroutines that convert, build and parse. *)
From Verif Require Import Base Cst Ast FromCst SliceMem ParserMem TableGenMem FromCstMem
  TableGen TableGenConc ParserConc PipeConc ConvertConc MixConc
  Spec_Mem Spec_GenMem Spec_GenConc Spec_ParserConc Spec_PipeConc Spec_ConvertConc.

(** What is left to do of goroutine [t]. *)
Inductive ycall := YBuild (c : xcall) | YConv (p : rcall).
Definition ycall_of (c : yconfig) (t : nat + nat) : option ycall :=
  match t with
  | inl i => option_map YBuild (nth_error (y_calls c) i)
  | inr i => option_map YConv (nth_error (y_convs c) i)
  end.

(** The array its next step accesses, and whether it writes. *)
Definition rkind_of (k : rkind) : xkind :=
  match k with RKSyms => XK KSyms | RKSeqs => XK KSeqs | RKRules => XK KRules end.
Definition yaccess (c : ycall) : option (xkind * nat * bool) :=
  match c with
  | YBuild c => xaccess c
  | YConv p => match raccess p with Some (k, a, w) => Some (rkind_of k, a, w) | None => None end
  end.

(** Two goroutines are about to access the same array, and one of them writes. *)
Definition yrace (c : yconfig) : Prop :=
  exists t u p q kd a b,
    t <> u /\ ycall_of c t = Some p /\ ycall_of c u = Some q /\
    yaccess p = Some (kd, a, true) /\ yaccess q = Some (kd, a, b).

(** How often goroutine [t] takes a turn. *)
Definition same_turn (t u : nat + nat) : bool :=
  match t, u with
  | inl i, inl k => Nat.eqb i k
  | inr i, inr k => Nat.eqb i k
  | _, _ => false
  end.
Definition yturns (t : nat + nat) (sched : list (nat + nat)) : nat :=
  length (filter (same_turn t) sched).

(** The grammars that tables are built of stand in memory. *)
Definition grammar_job (m : gmem) (j : xjob) : Prop :=
  match j with
  | XBuild j | XBoth j _ => exists g, grammar_in m (g_rules j) g
  | XParse _ => True
  end.
Definition yjobs_in (m : gmem) (xjobs : list xjob) : Prop :=
  xjobs_in m xjobs /\ Forall (grammar_job m) xjobs.

(** The number of arrays of a kind. *)
Definition arrays (kd : xkind) (m : gmem) : nat :=
  match kd with
  | XK KRules => length (gm_rules m)
  | XK KSeqs => length (gm_seqs m)
  | XK KSyms => length (gm_syms m)
  | XK KSets => length (gm_sets m)
  | XK KOps => length (m_ops (gm_mem m))
  | XNodes => length (m_nodes (gm_mem m))
  | XBytes => length (m_bytes (gm_mem m))
  end.

(** ** The turns of the builders, and those of the converters *)
Definition builders_turns (sched : list (nat + nat)) : list nat :=
  flat_map (fun t => match t with inl i => [i] | inr _ => [] end) sched.
Definition converters_turns (sched : list (nat + nat)) : list nat :=
  flat_map (fun t => match t with inl _ => [] | inr i => [i] end) sched.

(** The memory in which the builders have done what they did in [mx], and the
    converters what they did in [mr]: operands, nodes, bytes and sets are as in
    [mx], grammars as in [mr]. *)
Definition mix (mx mr : gmem) : gmem :=
  mkGM (gm_mem mx) (gm_syms mr) (gm_seqs mr) (gm_rules mr) (gm_sets mx).
