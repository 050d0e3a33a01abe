(** * Spec_Tree: what is said about the trees returned by Parse. *)
From Verif Require Import Base Cst Parser Spec_Parse.

(** [subnode n t]: [n] occurs in [t]. *)
Inductive subnode (n : node) : node -> Prop :=
| sub_here : subnode n n
| sub_child ty p q childs c : In c childs -> subnode n c -> subnode n (Node ty p q childs).

(** The nodes of [l] follow each other without gap or overlap from [p] to [q]. *)
Fixpoint adjacent (p : Z) (l : list node) (q : Z) : Prop :=
  match l with
  | [] => p = q
  | c :: l' => n_pos c = p /\ adjacent (n_end c) l' q
  end.

(** Geometry of one node: ordered bounds; children, if any, tile it; a node
    without children is matched text (type -1, not empty) or "nothing" (type
    -2, empty). *)
Definition well_placed (n : node) : Prop :=
  (n_pos n <= n_end n)%Z /\
  (n_childs n <> [] -> adjacent (n_pos n) (n_childs n) (n_end n)) /\
  (n_childs n = [] ->
     (n_type n = -1 /\ n_pos n < n_end n)%Z \/ (n_type n = -2 /\ n_pos n = n_end n)%Z).

(** Slice [src[p:q]]. *)
Definition text_of (src : bytes) (p q : Z) : bytes :=
  firstn (Z.to_nat (q - p)) (skipn (Z.to_nat p) src).

(** The '_literal' nodes of a tree from left to right. *)
Fixpoint literals (t : node) : list node :=
  match t with
  | Node ty p q childs =>
      if (ty =? -1)%Z then [t] else flat_map literals childs
  end.

(** The tree [t] is built from operand [op] with cells of the table, and its
    terminals from left to right are [ts]. *)
Inductive built (tbl : table) : ParserOp -> node -> list bytes -> Prop :=
| b_terminal t p q childs : built tbl (OpTerminal t) (Node (-1) p q childs) [t]
| b_nonterminal n c ops p q childs ts :
    (0 <= n)%Z -> cell tbl n c ops -> ops <> [] -> built_all tbl ops childs ts ->
    built tbl (OpNonTerminal n) (Node n p q childs) ts
| b_empty n c p q r s :
    (0 <= n)%Z -> cell tbl n c [] ->
    built tbl (OpNonTerminal n) (Node n p q [Node (-2) r s []]) []
| b_eol_lf p q a : built tbl (OpNonTerminal (-2)) (Node (-2) p q [a]) [[LF]]
| b_eol_crlf p q a b : built tbl (OpNonTerminal (-2)) (Node (-2) p q [a; b]) [[CR]; [LF]]
with built_all (tbl : table) : list ParserOp -> list node -> list bytes -> Prop :=
| b_nil : built_all tbl [] [] []
| b_cons op ops t l ts1 ts2 :
    built tbl op t ts1 -> built_all tbl ops l ts2 ->
    built_all tbl (op :: ops) (t :: l) (ts1 ++ ts2).

(** No terminal of the table contains the byte 0. *)
Definition table_nulfree (tbl : table) : Prop :=
  forall n r c ops t, In (n, r) tbl -> In (c, ops) r -> In (OpTerminal t) ops -> ~ In NUL t.

(** Context-free rewriting with the cells of the table, ignoring prediction. *)
Inductive generates (tbl : table) : list item -> list item -> Prop :=
| g_refl f : generates tbl f f
| g_row f u n c ops v :
    (0 <= n)%Z -> cell tbl n c ops ->
    generates tbl f (u ++ Row n :: v) -> generates tbl f (u ++ items ops ++ v)
| g_lf f u v :
    generates tbl f (u ++ Row (-2) :: v) -> generates tbl f (u ++ Byte LF :: v)
| g_crlf f u v :
    generates tbl f (u ++ Row (-2) :: v) -> generates tbl f (u ++ Byte CR :: Byte LF :: v).
