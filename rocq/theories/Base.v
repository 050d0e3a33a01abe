(** * Base: the Go values and outcomes used by the whole model.

    Only representation choices live here, no code of the repository:
    - a Go [byte] is an [ascii] (exactly 256 values);
    - a Go [string] / [[]byte] is a [list ascii];
    - a Go [map] is an association list searched from the front, updated in
      place (so a key occurs at most once in every map built by [map_set]);
    - a call may return a value, return an error, panic, or exhaust the fuel of
      a loop that Go bounds by nothing. *)
From Coq Require Export List Arith NArith ZArith Lia Bool Ascii.
From Coq Require String.
Export String.StringSyntax.
Export ListNotations.
Open Scope list_scope.

Definition byte := ascii.
Definition bytes := list ascii.

(** Literals: [s2b "abc"] is the Go string "abc". *)
Definition s2b (s : String.string) : bytes := String.list_ascii_of_string s.
Arguments s2b s%string_scope.

(** The byte 0, used by the code both as a byte and as "end of input". *)
Definition NUL : ascii := Ascii.zero.

(** A byte given by its code. *)
Definition b8 (n : N) : ascii := ascii_of_N n.
Definition code (c : ascii) : N := N_of_ascii c.

Definition TAB : ascii := "009"%char.
Definition LF : ascii := "010"%char.
Definition CR : ascii := "013"%char.
Definition DQ : ascii := "034"%char.   (* double quote *)
Definition SQ : ascii := "039"%char.   (* single quote *)
Definition BSL : ascii := "092"%char.  (* backslash *)

(** Go string equality. *)
Fixpoint bytes_eqb (a b : bytes) : bool :=
  match a, b with
  | [], [] => true
  | x :: a', y :: b' => Ascii.eqb x y && bytes_eqb a' b'
  | _, _ => false
  end.

(** Go maps. *)
Section Maps.
  Context {K V : Type} (eqb : K -> K -> bool).

  Fixpoint map_get (k : K) (m : list (K * V)) : option V :=
    match m with
    | [] => None
    | (k', v) :: m' => if eqb k k' then Some v else map_get k m'
    end.

  Fixpoint map_set (k : K) (v : V) (m : list (K * V)) : list (K * V) :=
    match m with
    | [] => [(k, v)]
    | (k', v') :: m' =>
        if eqb k k' then (k', v) :: m' else (k', v') :: map_set k v m'
    end.
End Maps.

(** Run-time panics that the modelled code can raise, explicitly or through the
    Go runtime. *)
Inductive gopanic : Type :=
| PanicPopEmpty          (* parser.go "trying to pop from empty stack" *)
| PanicCombineNonChars   (* parser.go "Tring to combine chars of terminal from non chars type" *)
| PanicUnreachable       (* parser.go "unreachable" *)
| PanicNilOperand        (* method call on a nil ParserOp interface *)
| PanicCastNonTerminal   (* parser.go:407 "can't cast nonTerminal op to it's type" *)
| PanicCastTerminal      (* parser.go:418 "can't cast terminal op to it's type" *)
| PanicNilNode           (* method call on a nil Node interface *)
| PanicNilMapWrite       (* runtime: assignment to entry in nil map *)
| PanicIndex             (* runtime: index out of range *)
| PanicSlice             (* runtime: slice bounds out of range *)
| PanicNothingInSequence (* tablegen.go "uncreachable" *)
| PanicUnknownSymbol.    (* tablegen.go "symbol of unknown type %T" *)

(** Outcome of a Go call returning [(A, error)]: on a non-nil error the callers
    modelled here never look at the value. [NoFuel]: an unbounded Go loop was
    still running when the fuel of the model ran out. *)
Inductive gores (E A : Type) : Type :=
| Ok (a : A)
| Err (e : E)
| Panic (p : gopanic)
| NoFuel.
Arguments Ok {E A} a.
Arguments Err {E A} e.
Arguments Panic {E A} p.
Arguments NoFuel {E A}.

Definition gobind {E A B} (x : gores E A) (f : A -> gores E B) : gores E B :=
  match x with
  | Ok a => f a
  | Err e => Err e
  | Panic p => Panic p
  | NoFuel => NoFuel
  end.

(** [go x <- e ; k]: Go's "x, err := e; if err != nil { return err }; k". *)
Notation "'go' x <- e ; k" := (gobind e (fun x => k))
  (at level 200, x pattern, e at level 100, k at level 200, right associativity).

(** Decimal rendering of a number (fmt's %d). *)
Fixpoint dec_aux (fuel : nat) (n : N) (acc : bytes) : bytes :=
  match fuel with
  | O => acc
  | S fuel' =>
      let acc' := b8 (48 + n mod 10) :: acc in
      if (n / 10 =? 0)%N then acc' else dec_aux fuel' (n / 10) acc'
  end.
(* [N.size_nat n] decimal digits always suffice (10 > 2). *)
Definition dec_N (n : N) : bytes := dec_aux (S (N.size_nat n)) n [].
Definition dec_Z (z : Z) : bytes :=
  if (z <? 0)%Z then "-"%char :: dec_N (Z.to_N (- z)) else dec_N (Z.to_N z).
