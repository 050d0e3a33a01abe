(** * Spec_TestTools: what the test helpers are for. *)
From Verif Require Import Base Cst Spec_Parse Spec_Tree.

(** The name of a node type. *)
Definition type_name (names : list (Z * bytes)) (ty : Z) : bytes :=
  match map_get Z.eqb ty names with Some s => s | None => s2b "Unknown_" ++ dec_Z ty end.

(** The printout of a tree: one line per node, parents before children, children
    from left to right; [depth] times two blanks, the name, the text. *)
Definition node_line (names : list (Z * bytes)) (src : bytes) (depth : nat) (n : node) : bytes :=
  concat (repeat (s2b "  ") depth) ++ type_name names (n_type n) ++
  s2b ": string(" ++ text_of src (n_pos n) (n_end n) ++ s2b ")" ++ [LF].
Fixpoint printout (names : list (Z * bytes)) (src : bytes) (depth : nat) (n : node) : bytes :=
  match n with
  | Node _ _ _ childs =>
      node_line names src depth n ++ flat_map (printout names src (S depth)) childs
  end.

(** Every node stands for a part of the text. *)
Definition inside (src : bytes) (t : node) : Prop :=
  forall n, subnode n t -> (0 <= n_pos n <= n_end n)%Z /\ (n_end n <= Z.of_nat (length src))%Z.

(** Two maps with the same entries. *)
Definition same_map (a b : list (Z * bytes)) : Prop := forall k, map_get Z.eqb k a = map_get Z.eqb k b.

(** What a file or a bytes.Buffer with contents [s] answers to calls of Read
    with a buffer of [size] bytes: full blocks, then the rest, then io.EOF. *)
Inductive read_in_blocks (size : nat) : bytes -> list bytes -> Prop :=
| rb_end : read_in_blocks size [] []
| rb_block s l :
    s <> [] -> read_in_blocks size (skipn size s) l -> read_in_blocks size s (firstn size s :: l).

(** The number of blocks. *)
Definition blocks (size n : nat) : nat := (n + (size - 1)) / size.

(** [long] is [short] and some bytes more in the last block of [short], every
    one of them what the block before holds at its place (or 0 in the first block). *)
Definition stale_extension (size : nat) (short long : bytes) : Prop :=
  length short <= length long /\
  blocks size (length short) = blocks size (length long) /\
  firstn (length short) long = short /\
  forall i, length short <= i < length long ->
    nth i long NUL = if i <? size then NUL else nth (i - size) long NUL.
