(** * Spec_TestFiles: what the tests with reference files are meant to check. *)
From Verif Require Import Base Cst Parser Spec_Parse Spec_Messages Spec_TestTools ParseApi.

(** Two tables with the same rows, and in them the same cells. *)
Definition same_table (t1 t2 : table) : Prop :=
  forall n, match map_get Z.eqb n t1, map_get Z.eqb n t2 with
            | Some r1, Some r2 => forall c, map_get Ascii.eqb c r1 = map_get Ascii.eqb c r2
            | None, None => True
            | _, _ => False
            end.

(** No blank and no closing bracket. *)
Definition simple_name (s : bytes) : Prop := ~ In " "%char s /\ ~ In "]"%char s.
Definition simple_names (m : list (Z * bytes)) : Prop := forall k s, map_get Z.eqb k m = Some s -> simple_name s.

(** What a test case wants: an error with this text, or this tree and these names. *)
Inductive wish : Type :=
| WishError (text : bytes)
| WishTree (t : node) (m : list (Z * bytes)).

(** A fresh parser with table [tbl] and names [m0] does what is wished. *)
Definition granted (fuel : nat) (tbl : table) (m0 : list (Z * bytes)) (input : bytes) (w : wish) : Prop :=
  match w with
  | WishError text => exists e, fails_with fuel tbl (Some m0) (SrcString input) e /\ message e text
  | WishTree t m => exists m', result fuel tbl (Some m0) (SrcString input) = Ok (mkRet (Some t) (Some (Some m')) None) /\
                              same_map m m'
  end.
