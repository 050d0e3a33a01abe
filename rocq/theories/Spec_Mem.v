(** * Spec_Mem: what it means for a value to stand in memory.

    Relations between the memory of SliceMem.v / ParserMem.v and plain values:
    a slice holds a list of elements, a table in memory denotes a table, a node
    in memory is the root of a tree. *)
From Verif Require Import Base Cst Parser SliceMem ParserMem.

(** A slice that Go could have made: it lies within its array. *)
Definition valid_slice {T} (h : heap T) (s : slice) : Prop :=
  sl_len s <= sl_cap s /\
  (sl_cap s = 0 \/
   exists arr, nth_error h (sl_arr s) = Some arr /\ sl_off s + sl_cap s <= length arr).

(** [s] holds exactly the elements [xs]. *)
Definition holds {T} (h : heap T) (s : slice) (xs : list T) : Prop :=
  valid_slice h s /\ sl_len s = length xs /\
  forall i x, nth_error xs i = Some x -> slice_get h s i = Some x.

(** A table in memory denotes a table: the same keys in the same order, and
    each cell holds its operands. Cells may share arrays in any way. *)
Definition row_in (m : mem) (mr : mrow) (r : row) : Prop :=
  Forall2 (fun mc c => fst mc = fst c /\ holds (m_ops m) (snd mc) (snd c)) mr r.
Definition table_in (m : mem) (mt : mtable) (t : table) : Prop :=
  Forall2 (fun mr r => fst mr = fst r /\ row_in m (snd mr) (snd r)) mt t.

Definition source_in (m : mem) (ms : msource) (s : source) : Prop :=
  match ms, s with
  | MSrcNil, SrcNil => True
  | MSrcString x, SrcString y => x = y
  | MSrcBytes x, SrcBytes y => holds (m_bytes m) x y
  | MSrcBuffer (Some x), SrcBuffer (Some y) => holds (m_bytes m) x y
  | MSrcBuffer None, SrcBuffer None => True
  | MSrcReader x, SrcReader y => x = y
  | MSrcOther, SrcOther => True
  | _, _ => False
  end.

(** [tree_in h mn n A]: the node [mn] in memory is the root of the tree [n], and
    [A] lists the arrays its child slices view, one entry per inner node. *)
Inductive tree_in (h : heap (option mnode)) : mnode -> node -> list nat -> Prop :=
| ti_leaf t p q s : sl_len s = 0 -> tree_in h (MNode t p q s) (Node t p q []) []
| ti_node t p q s ms ns A :
    ms <> [] -> holds h s (map Some ms) -> forest_in h ms ns A ->
    tree_in h (MNode t p q s) (Node t p q ns) (sl_arr s :: A)
with forest_in (h : heap (option mnode)) : list mnode -> list node -> list nat -> Prop :=
| fi_nil : forest_in h [] [] []
| fi_cons m n A ms ns B :
    tree_in h m n A -> forest_in h ms ns B -> forest_in h (m :: ms) (n :: ns) (A ++ B).

(** Every array of [m] is still there in [m'], with the same contents. *)
Definition untouched (m m' : mem) : Prop :=
  (forall a arr, nth_error (m_ops m) a = Some arr -> nth_error (m_ops m') a = Some arr) /\
  (forall a arr, nth_error (m_nodes m) a = Some arr -> nth_error (m_nodes m') a = Some arr) /\
  (forall a arr, nth_error (m_bytes m) a = Some arr -> nth_error (m_bytes m') a = Some arr).

(** The result of a call in memory is that result: the same error, or a node
    in memory that is the root of that tree. The tree is made of arrays that
    did not exist before the call (the addresses from [base] on), and no two of
    its nodes share one. *)
Definition fresh_tree (base : nat) (h : heap (option mnode)) (mn : mnode) (n : node) : Prop :=
  exists A, tree_in h mn n A /\ NoDup A /\ Forall (fun a => base <= a < length h) A.

Definition same_return (base : nat) (h : heap (option mnode)) (mr : mreturn) (r : preturn) : Prop :=
  mr_names mr = r_names r /\ mr_err mr = r_err r /\
  match mr_tree mr, r_tree r with
  | None, None => True
  | Some mn, Some n => fresh_tree base h mn n
  | _, _ => False
  end.

Definition same_result (base : nat) (h : heap (option mnode))
    (a : gores Empty_set mreturn) (b : gores Empty_set preturn) : Prop :=
  match a, b with
  | Ok x, Ok y => same_return base h x y
  | Panic p, Panic q => p = q
  | NoFuel, NoFuel => True
  | _, _ => False
  end.
