(** * Spec_PipeConc: what goroutines that build parsers and parse end with, and
    races between them. *)
From Verif Require Import Base ByteSet Ast Parser SliceMem ParserMem TableGen TableGenMem TableGenConc ParserConc
  PipeConc Spec_Mem Spec_GenMem Spec_GenConc Spec_ParserConc.

(** ** Races *)

(** The kinds of arrays: those of [FromGrammar], which include operands, those
    of nodes and of bytes. *)
Inductive xkind := XK (k : kind) | XNodes | XBytes.
Definition qkind_of (k : qkind) : xkind :=
  match k with QKOps => XK KOps | QKNodes => XNodes | QKBytes => XBytes end.

(** The array the next step accesses, and whether it writes. *)
Definition xaccess (c : xcall) : option (xkind * nat * bool) :=
  match c with
  | XG p _ => match gaccess p with Some (k, a, w) => Some (XK k, a, w) | None => None end
  | XQ p => match qaccess p with Some (k, a, w) => Some (qkind_of k, a, w) | None => None end
  end.

(** Two goroutines are about to access the same array, and one of them writes. *)
Definition xrace (c : xconfig) : Prop :=
  exists i k p q kd a b,
    i <> k /\ nth_error (xc_calls c) i = Some p /\ nth_error (xc_calls c) k = Some q /\
    xaccess p = Some (kd, a, true) /\ xaccess q = Some (kd, a, b).

Definition xturns (i : nat) (sched : list nat) : nat := count_occ Nat.eq_dec sched i.

(** What the goroutines parse with and parse stands in memory. *)
Definition xjob_in (m : gmem) (j : xjob) : Prop :=
  match j with
  | XBuild _ => True
  | XParse j => exists t s, table_in (gm_mem m) (q_table j) t /\ source_in (gm_mem m) (q_source j) s
  | XBoth _ nx => exists s, source_in (gm_mem m) (xn_source nx) s
  end.
Definition xjobs_in (m : gmem) (jobs : list xjob) : Prop := Forall (xjob_in m) jobs.

(** ** Outcomes *)

(** The outcome of a call of [Parse] in memory [m], started in [m0], is that one. *)
Definition tree_like (m0 m : gmem) (o : qout) (p : parse_out) : Prop :=
  same_result (length (m_nodes (gm_mem m0))) (m_nodes (gm_mem m)) (qo_result o) (po_result p) /\
  qo_names o = po_names p /\ source_in (gm_mem m) (qo_source o) (po_source p).

(** What the goroutine would have got with plain values, all by itself. *)
Definition as_alone (m0 m : gmem) (j : xjob) (out : xout) : Prop :=
  match j with
  | XBuild j => exists r, out = XTable r /\
      forall g, grammar_in m0 (g_rules j) g ->
      match r, FromGrammar_order (g_order j) (g_fuel j) g with
      | Ok (mt, names), Ok (t, names') => table_in (gm_mem m) mt t /\ names = names'
      | Err e, Err e' => e = e'
      | Panic p, Panic p' => p = p'
      | NoFuel, NoFuel => True
      | _, _ => False
      end
  | XParse j => exists o, out = XTree o /\
      forall t s, table_in (gm_mem m0) (q_table j) t -> source_in (gm_mem m0) (q_source j) s ->
      tree_like m0 m o (Parse (q_fuel j) (NewLL1Parser t (q_names j)) s)
  | XBoth j nx =>
      forall g s, grammar_in m0 (g_rules j) g -> source_in (gm_mem m0) (xn_source nx) s ->
      match FromGrammar_order (g_order j) (g_fuel j) g with
      | Ok (t, names) => exists o, out = XTree o /\
          tree_like m0 m o (Parse (xn_fuel nx) (NewLL1Parser t (Some names)) s)
      | Err e => out = XTable (Err e)
      | Panic p => out = XTable (Panic p)
      | NoFuel => out = XTable NoFuel
      end
  end.
