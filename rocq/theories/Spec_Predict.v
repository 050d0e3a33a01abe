(** * Spec_Predict: predictive derivations of a grammar. *)
From Verif Require Import Base Ast Cst Parser Spec_Parse Spec_Tree Spec_Grammar Spec_Table.

(** [predicted g F src x p t q]: from offset [p] on, symbol [x] stands for the
    bytes of [src] up to [q], with tree [t], when the next byte alone decides:
    a rule stands for all its alternatives that can start with that byte, one
    behind the other; if there is none, for nothing, provided that one of its
    alternatives can be empty and the byte is in the rule's FOLLOW set, as
    given by [F]. *)
Inductive predicted (g : grammar) (F : bytes -> option ascii -> Prop) (src : bytes) : symbol -> nat -> node -> nat -> Prop :=
| pr_terminal t p :
    t <> [] -> occurs_at src p t ->
    predicted g F src (STerminal t) p (literal_at p (p + length t)) (p + length t)
| pr_terminal_empty p :
    predicted g F src (STerminal []) p (mk (-1) p p [nothing_at p]) p
| pr_rule i r chosen p childs q :
    nth_error g i = Some r -> selected g (byte_at src p) (r_tail r) chosen -> chosen <> [] ->
    predicteds g F src (concat chosen) p childs q ->
    predicted g F src (SNonTerminal (r_head r)) p (mk (Z.of_nat i) p q childs) q
| pr_empty i r p :
    nth_error g i = Some r -> selected g (byte_at src p) (r_tail r) [] ->
    skippable g F r (byte_at src p) ->
    predicted g F src (SNonTerminal (r_head r)) p (mk (Z.of_nat i) p p [nothing_at p]) p
with predicteds (g : grammar) (F : bytes -> option ascii -> Prop) (src : bytes) : sequence -> nat -> list node -> nat -> Prop :=
| prs_nil p : predicteds g F src [] p [] p
| prs_cons x s p t m ts q :
    predicted g F src x p t m -> predicteds g F src s m ts q ->
    predicteds g F src (x :: s) p (t :: ts) q.

(** Wherever a rule derives nothing in tree [t] of [text], the next byte
    ([None]: the end) is in the generator's FOLLOW set of that rule. *)
Definition empty_parts_foreseen (g : grammar) (text : bytes) (t : node) : Prop :=
  forall i n p childs,
    nth_error (heads g) i = Some n ->
    subnode (Node (Z.of_nat i) (Z.of_nat p) (Z.of_nat p) childs) t ->
    follow_code g n (nth_error text p).

(** ** Failures *)

(** One step of the predictive leftmost derivation of a text: the
    configuration is the number of bytes matched and the form still to match. *)
Inductive predicts (g : grammar) (F : bytes -> option ascii -> Prop) (src : bytes) : nat * form -> nat * form -> Prop :=
| pd_byte c k u : byte_at src k = c -> predicts g F src (k, Ch c :: u) (S k, u)
| pd_rule r chosen k u :
    In r g -> selected g (byte_at src k) (r_tail r) chosen ->
    (chosen = [] -> skippable g F r (byte_at src k)) ->
    predicts g F src (k, NT (r_head r) :: u) (k, seq_form (concat chosen) ++ u).
Inductive predicts_star (g : grammar) (F : bytes -> option ascii -> Prop) (src : bytes) : nat * form -> nat * form -> Prop :=
| pds_refl c : predicts_star g F src c c
| pds_step c1 c2 c3 : predicts g F src c1 c2 -> predicts_star g F src c2 c3 -> predicts_star g F src c1 c3.

(** With [k] bytes matched and form [u] left there is no step, and [e] says
    why. The rule of name [n] is called [l] in messages if [label n l]. *)
Inductive no_step (g : grammar) (F : bytes -> option ascii -> Prop) (label : bytes -> bytes -> Prop)
  (src : bytes) (k : nat) : form -> perror -> Prop :=
| ns_byte c u :
    byte_at src k <> c -> no_step g F label src k (Ch c :: u) (EExpectedChar c (byte_at src k))
| ns_rule r l u :
    In r g -> (forall s, In s (r_tail r) -> ~ first g (seq_form s) (byte_at src k)) ->
    ~ skippable g F r (byte_at src k) -> label (r_head r) l ->
    no_step g F label src k (NT (r_head r) :: u) (ENoRulesForByte (byte_at src k) l)
| ns_end : byte_at src k <> NUL -> no_step g F label src k [] (EExpectedEnd (byte_at src k)).

(** The text is refused with error [e] after [k] matched bytes. *)
Definition refused (g : grammar) (F : bytes -> option ascii -> Prop) (label : bytes -> bytes -> Prop)
  (src : bytes) (k : nat) (e : perror) : Prop :=
  exists u, predicts_star g F src (0, [NT (start g)]) (k, u) /\ no_step g F label src k u e.

(** What the naming map [m] calls the row of rule [n]. *)
Definition called (g : grammar) (m : list (Z * bytes)) (n l : bytes) : Prop :=
  exists i, nth_error (heads g) i = Some n /\
    l = match map_get Z.eqb (Z.of_nat i) m with
        | Some s => s
        | None => s2b "Unknown_" ++ dec_Z (Z.of_nat i)
        end.
