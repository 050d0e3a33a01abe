(** * Spec_Lookup: what of its two maps a parser looks at. *)
From Verif Require Import Base Cst Parser.

(** Non-terminals that parsing can get to from non-terminal 0 with this table. *)
Inductive reached (tbl : table) : Z -> Prop :=
| rc_start : reached tbl 0
| rc_cell n rw b ops m :
    reached tbl n -> (0 <= n)%Z -> table_get n tbl = Some rw -> row_get b rw = Some ops ->
    In (OpNonTerminal m) ops -> reached tbl m.

(** Two rows with the same cells; either may be absent. *)
Definition same_row (r1 r2 : option row) : Prop :=
  match r1, r2 with
  | Some a, Some b => forall c, row_get c a = row_get c b
  | None, None => True
  | _, _ => False
  end.

(** Two naming maps with the same entries (or both nil). *)
Definition same_names (m1 m2 : names_map) : Prop :=
  (m1 = None <-> m2 = None) /\ forall n, names_get n m1 = names_get n m2.

(** Two returns with the same tree, the same error and the same naming. *)
Definition same_return (r1 r2 : preturn) : Prop :=
  r_tree r1 = r_tree r2 /\ r_err r1 = r_err r2 /\
  match r_names r1, r_names r2 with
  | Some m1, Some m2 => same_names m1 m2
  | None, None => True
  | _, _ => False
  end.
Definition same_outcome (o1 o2 : parse_out) : Prop :=
  match po_result o1, po_result o2 with
  | Ok r1, Ok r2 => same_return r1 r2
  | Panic p1, Panic p2 => p1 = p2
  | NoFuel, NoFuel => True
  | _, _ => False
  end /\ same_names (po_names o1) (po_names o2) /\ po_source o1 = po_source o2.
