(** * Spec_Reduce: grammars without the rules that nothing leads to. *)
From Verif Require Import Base Ast Spec_Grammar.

(** [g0] is [g] without the rules that no derivation from the first rule can
    use, in the same order. *)
Definition reduced (g g0 : grammar) : Prop :=
  exists keep, g0 = filter keep g /\ forall r, In r g -> (keep r = true <-> reachable g (r_head r)).

(** [names] calls the numbers of the rules by the names of the rules. *)
Definition numbering (g : grammar) (names : list (Z * bytes)) : Prop :=
  forall i, map_get Z.eqb (Z.of_nat i) names = nth_error (heads g) i.
