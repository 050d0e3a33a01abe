(** * Spec_Renumber: the same tree and the same bindings with other type numbers. *)
From Verif Require Import Base Cst Ast Parser FromCst Spec_Grammar Spec_Reorder.

(** Two trees of the same shape with the same positions, types related by [R]. *)
Inductive alike (R : Z -> Z -> Prop) : node -> node -> Prop :=
| alike_node ty ty' p q l l' : R ty ty' -> Forall2 (alike R) l l' -> alike R (Node ty p q l) (Node ty' p q l').

(** Among related types, exactly [x] on the one side and [x'] on the other play
    a certain role. *)
Definition same_role (R : Z -> Z -> Prop) (x x' : Z) : Prop :=
  forall a a', R a a' -> (a = x <-> a' = x').

(** Bindings that give related types the same roles. *)
Record same_bindings (R : Z -> Z -> Prop) (b b' : bindings) : Prop := {
  sb_ignored : forall a a', R a a' -> (In a (IgnoreNodeTypes b) <-> In a' (IgnoreNodeTypes b'));
  sb_rule : same_role R (RuleType b) (RuleType b');
  sb_head : same_role R (RuleHeadType b) (RuleHeadType b');
  sb_tail : same_role R (RuleTailType b) (RuleTailType b');
  sb_sequences : same_role R (ExpressionSequencesType b) (ExpressionSequencesType b');
  sb_symbol : same_role R (SequencesSymbolType b) (SequencesSymbolType b');
  sb_terminal : Forall2 (same_role R) (SymbolTerminalTypes b) (SymbolTerminalTypes b');
  sb_nonterminal : same_role R (SymbolNonTerminalType b) (SymbolNonTerminalType b');
  sb_escape : same_role R (EscapeCharacterType b) (EscapeCharacterType b');
  sb_mapping : EscapeMapping b = EscapeMapping b' }.

(** Types with corresponding names in two naming maps: the relation of
    [Spec_Reorder.same_tree]. *)
Definition same_type (f : bytes -> bytes) (names names' : list (Z * bytes)) (ty ty' : Z) : Prop :=
  ((ty < 0)%Z /\ ty = ty') \/
  exists n, (0 <= ty)%Z /\ (0 <= ty')%Z /\
    map_get Z.eqb ty names = Some n /\ map_get Z.eqb ty' names' = Some (f n).

(** Bindings whose numbers are those of the same rules. *)
Record bindings_moved (f : bytes -> bytes) (names names' : list (Z * bytes)) (b b' : bindings) : Prop := {
  bm_ignored : Forall2 (same_type f names names') (IgnoreNodeTypes b) (IgnoreNodeTypes b');
  bm_rule : same_type f names names' (RuleType b) (RuleType b');
  bm_head : same_type f names names' (RuleHeadType b) (RuleHeadType b');
  bm_tail : same_type f names names' (RuleTailType b) (RuleTailType b');
  bm_sequences : same_type f names names' (ExpressionSequencesType b) (ExpressionSequencesType b');
  bm_symbol : same_type f names names' (SequencesSymbolType b) (SequencesSymbolType b');
  bm_terminal : Forall2 (same_type f names names') (SymbolTerminalTypes b) (SymbolTerminalTypes b');
  bm_nonterminal : same_type f names names' (SymbolNonTerminalType b) (SymbolNonTerminalType b');
  bm_escape : same_type f names names' (EscapeCharacterType b) (EscapeCharacterType b');
  bm_mapping : EscapeMapping b = EscapeMapping b' }.
