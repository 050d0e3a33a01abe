(** * Spec_Histories: histories with calls of Parse left out. *)
From Verif Require Import Base Cst Parser Histories.

(** [s] is not a reader: reading it leaves it as it is. *)
Definition rereadable (s : source) : Prop := match s with SrcReader _ => False | _ => True end.

(** [h'] is [h] without some of its calls of Parse; none of the calls left out
    reads source number [s], unless [again] (it can be read again). *)
Inductive thinned (s : nat) (again : Prop) : list call -> list call -> Prop :=
| th_end : thinned s again [] []
| th_keep c h h' : thinned s again h h' -> thinned s again (c :: h) (c :: h')
| th_drop p s' fuel h h' : s' <> s \/ again -> thinned s again h h' ->
    thinned s again (CallParse p s' fuel :: h) h'.

(** The same tree and error, or the same panic, or both are still running. *)
Definition same_answer (a b : gores Empty_set preturn) : Prop :=
  match a, b with
  | Ok r, Ok r' => r_tree r = r_tree r' /\ r_err r = r_err r'
  | Panic p, Panic p' => p = p'
  | NoFuel, NoFuel => True
  | _, _ => False
  end.

(** What the caller made and wrote, whatever Parse did in between: the tables,
    the naming maps, and which maps each parser was made from. *)
Definition given_tables (h : list call) : list table :=
  fold_left (fun l c => match c with MakeTable t => l ++ [t] | WriteTable i t => replace l i t | _ => l end) h [].
Definition given_names (h : list call) : list (list (Z * bytes)) :=
  fold_left (fun l c => match c with MakeNames m => l ++ [m] | WriteNames i m => replace l i m | _ => l end) h [].
Definition made_parsers (h : list call) : list (nat * option nat) :=
  fold_left (fun l c => match c with NewParser t n => l ++ [(t, n)] | _ => l end) h [].

(** Parser number [p] has been made from a table and a naming map whose contents
    the caller set last to [tbl] and [nm] ([None]: nil). *)
Definition made_from (h : list call) (p : nat) (tbl : table) (nm : names_map) : Prop :=
  exists t n, nth_error (made_parsers h) p = Some (t, n) /\ nth_error (given_tables h) t = Some tbl /\
    match n, nm with
    | None, None => True
    | Some j, Some m => nth_error (given_names h) j = Some m
    | _, _ => False
    end.
