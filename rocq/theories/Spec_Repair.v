(** * Spec_Repair: the textbook repairs of a grammar that is not LL(1). *)
From Verif Require Import Base Ast Cst Spec_Grammar.

(** An alternative is not empty: nothing is written as the empty symbol. *)
Definition or_nothing (s : sequence) : sequence := match s with [] => [SNothing] | _ => s end.
(** [s] and then [h]. *)
Definition then_h (s : sequence) (h : bytes) : sequence :=
  match s with [SNothing] => [SNonTerminal h] | _ => s ++ [SNonTerminal h] end.

(** Left factoring:  a ::= before | common t1 | common t2 | ... | after
    becomes  a ::= before | common h | after  and  h ::= t1 | t2 | ... *)
Inductive left_factored (g g' : grammar) : Prop :=
| left_factored_by g1 g2 a h before common tails after :
    g = g1 ++ mkRule a (before ++ map (app common) tails ++ after) :: g2 ->
    g' = g1 ++ mkRule a (before ++ [common ++ [SNonTerminal h]] ++ after) :: g2 ++ [mkRule h (map or_nothing tails)] ->
    common <> [] -> common <> [SNothing] -> tails <> [] -> ~ defined g h ->
    left_factored g g'.

(** Removing left recursion:  a ::= a l1 | a l2 | ... | b1 | b2 | ...
    becomes  a ::= b1 h | b2 h | ...  and  h ::= l1 h | l2 h | ... | nothing *)
Inductive left_recursion_removed (g g' : grammar) : Prop :=
| left_recursion_removed_by g1 g2 a h loops bases :
    g = g1 ++ mkRule a (map (cons (SNonTerminal a)) loops ++ bases) :: g2 ->
    g' = g1 ++ mkRule a (map (fun b => then_h b h) bases)
            :: g2 ++ [mkRule h (map (fun l => l ++ [SNonTerminal h]) loops ++ [[SNothing]])] ->
    ~ defined g h ->
    left_recursion_removed g g'.

(** [pre s post], nothing being left out. *)
Definition plug (pre s post : sequence) : sequence :=
  or_nothing (pre ++ match s with [SNothing] => [] | _ => s end ++ post).
(** Unfolding a name: where b ::= s1 | s2 | ... is a rule (possibly a's own),
    a ::= before | pre b post | after  becomes
    a ::= before | pre s1 post | pre s2 post | ... | after *)
Inductive unfolded (g g' : grammar) : Prop :=
| unfolded_by g1 g2 a b before pre post after alts :
    g = g1 ++ mkRule a (before ++ [pre ++ SNonTerminal b :: post] ++ after) :: g2 ->
    In (mkRule b alts) g ->
    g' = g1 ++ mkRule a (before ++ map (fun s => plug pre s post) alts ++ after) :: g2 ->
    unfolded g g'.

(** Any number of these, one after the other. *)
Inductive repaired : grammar -> grammar -> Prop :=
| rp_none g : repaired g g
| rp_factor g g1 g2 : left_factored g g1 -> repaired g1 g2 -> repaired g g2
| rp_recursion g g1 g2 : left_recursion_removed g g1 -> repaired g1 g2 -> repaired g g2
| rp_unfold g g1 g2 : unfolded g g1 -> repaired g1 g2 -> repaired g g2.

(** A tree without its nodes of type [k]: the children of such a node take its
    place, or nothing if it stands for nothing. *)
Fixpoint unfactor (k : Z) (t : node) : list node :=
  match t with
  | Node ty p q childs =>
      let childs' := flat_map (unfactor k) childs in
      if (ty =? k)%Z then filter (fun c => negb (n_type c =? -2)%Z) childs'
      else [Node ty p q childs']
  end.
