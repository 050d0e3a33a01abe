(** * Spec_Reorder: the same grammar written down differently. *)
From Verif Require Import Base Ast Cst Parser Spec_Grammar.
From Coq Require Import Permutation.

(** Non-terminals renamed by [f]. *)
Definition rename_symbol (f : bytes -> bytes) (x : symbol) : symbol :=
  match x with SNonTerminal n => SNonTerminal (f n) | _ => x end.
Definition rename_rule (f : bytes -> bytes) (r : rule) : rule :=
  mkRule (f (r_head r)) (map (map (rename_symbol f)) (r_tail r)).
Definition rename (f : bytes -> bytes) (g : grammar) : grammar := map (rename_rule f) g.

(** The same rules in any order, each with the same alternatives in any order;
    the first rule is still the first one. *)
Definition reordered (g g' : grammar) : Prop :=
  start g = start g' /\
  exists l, Permutation g l /\
    Forall2 (fun r r' => r_head r = r_head r' /\ Permutation (r_tail r) (r_tail r')) l g'.

(** [f] gives different non-terminals different names ([h] undoes it). *)
Definition renaming (f h : bytes -> bytes) : Prop :=
  (forall n, h (f n) = n) /\ (forall n, f (h n) = n).

(** [g'] is [g] with renamed non-terminals, in another order. *)
Definition rewritten (f : bytes -> bytes) (g g' : grammar) : Prop := reordered (rename f g) g'.

(** Two trees agree node by node: same positions, and types that the two naming
    maps give names corresponding under [f]; negative types are built-in ones,
    which are the same. *)
Inductive same_tree (f : bytes -> bytes) (names names' : list (Z * bytes)) : node -> node -> Prop :=
| same_node ty ty' p q l l' :
    ((ty < 0)%Z /\ ty = ty' \/
     exists n, (0 <= ty)%Z /\ (0 <= ty')%Z /\
       map_get Z.eqb ty names = Some n /\ map_get Z.eqb ty' names' = Some (f n)) ->
    same_trees f names names' l l' ->
    same_tree f names names' (Node ty p q l) (Node ty' p q l')
with same_trees (f : bytes -> bytes) (names names' : list (Z * bytes)) : list node -> list node -> Prop :=
| same_nil : same_trees f names names' [] []
| same_cons t t' l l' :
    same_tree f names names' t t' -> same_trees f names names' l l' ->
    same_trees f names names' (t :: l) (t' :: l').

(** Errors name non-terminals. *)
Definition rename_error (f : bytes -> bytes) (e : perror) : perror :=
  match e with
  | ENoRulesForByte c n => ENoRulesForByte c (f n)
  | ENoRulesForNonTerminal n => ENoRulesForNonTerminal (f n)
  | _ => e
  end.
