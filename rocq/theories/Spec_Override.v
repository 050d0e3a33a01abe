(** * Spec_Override: grammars that define a name more than once.

    Of several rules with the same head, only the last one is what references
    to that name mean; the first rule of the grammar is the start rule, also
    when its name is defined again. *)
From Verif Require Import Base Ast Parser Spec_Grammar.

(** Names occurring in the grammar. *)
Definition mentioned (g : grammar) (n : bytes) : Prop :=
  defined g n \/ exists m s, alternative g m s /\ In (SNonTerminal n) s.

(** Rules whose head is defined again further down get another head. *)
Inductive set_aside (fresh : bytes -> Prop) : grammar -> grammar -> Prop :=
| sa_nil : set_aside fresh [] []
| sa_last r g g' :
    ~ In (r_head r) (heads g) -> set_aside fresh g g' -> set_aside fresh (r :: g) (r :: g')
| sa_earlier r n g g' :
    In (r_head r) (heads g) -> fresh n -> set_aside fresh g g' ->
    set_aside fresh (r :: g) (mkRule n (r_tail r) :: g').

(** [g'] is [g] with every earlier definition set aside under a name of its own
    that nothing refers to. *)
Definition last_definitions (g g' : grammar) : Prop :=
  set_aside (fun n => ~ mentioned g n) g g' /\ NoDup (heads g').

(** The rule of [g'] named [n] has the head [h] in [g]. *)
Definition written (g g' : grammar) (n h : bytes) : Prop :=
  exists i, nth_error (heads g') i = Some n /\ nth_error (heads g) i = Some h.

(** FOLLOW sets: like [follow_code], but what follows a name is given to all
    rules written with that name, also to those set aside. *)
Inductive follow_last (g g' : grammar) : bytes -> option ascii -> Prop :=
| fl_start : g' <> [] -> follow_last g g' (start g') None
| fl_next A a B X b c n :
    alternative g' A (a ++ SNonTerminal B :: X :: b) -> written g g' n B ->
    first g' (sym_form X) c -> follow_last g g' n (Some c)
| fl_end A a B x n :
    alternative g' A (a ++ [SNonTerminal B]) -> written g g' n B ->
    follow_last g g' A x -> follow_last g g' n x
| fl_empty A a B X b x n :
    alternative g' A (a ++ SNonTerminal B :: X :: b) -> written g g' n B ->
    nullable g' (sym_form X) -> follow_last g g' A x -> follow_last g g' n x.
