(** * Spec_SetVars: a program with variables of type ByteSet, and what it must
    print when every variable is a mathematical set of its own (C108).

    A mathematical set of bytes is a membership test; nothing in this file
    mentions words, bits or memory. *)
From Verif Require Import Base Spec_ByteSet.

(** What a user's program can do with its set variables (a variable is a number). *)
Inductive set_stmt : Type :=
| SNew (x : nat) (values : list ascii)     (* x = byteset.New(values...) *)
| SCopy (x y : nat)                        (* x = y *)
| SAdd (x : nat) (b : ascii)               (* x.Add(b) *)
| SRemove (x : nat) (b : ascii)            (* x.Remove(b) *)
| SUnion (x y z : nat)                     (* x = y.Union(z) *)
| SContains (x : nat) (b : ascii)          (* print(x.Contains(b)) *)
| SLen (x : nat)                           (* print(x.Len()) *)
| SBytes (x : nat)                         (* print(x.Bytes()) *)
| SString (x : nat)                        (* print(x.String()) *)
| SEqual (x y : nat)                       (* print(x.Equal(y)) *)
| SSubSet (x y : nat)                      (* print(x.IsSubSet(y)) *)
| SSuperSet (x y : nat).                   (* print(x.IsSuperSet(y)) *)

(** What is printed. *)
Inductive answer : Type :=
| ABool (b : bool)
| ANum (n : nat)
| ABytes (l : bytes).

(** The variables a statement mentions. *)
Definition mentions (c : set_stmt) : list nat :=
  match c with
  | SNew x _ | SAdd x _ | SRemove x _ | SContains x _ | SLen x | SBytes x | SString x => [x]
  | SCopy x y | SEqual x y | SSubSet x y | SSuperSet x y => [x; y]
  | SUnion x y z => [x; y; z]
  end.

(** The program only uses its [n] declared variables. *)
Definition declared (n : nat) (p : list set_stmt) : Prop :=
  forall c x, In c p -> In x (mentions c) -> x < n.

(** The variable a statement may change. *)
Definition changes (c : set_stmt) (x : nat) : bool :=
  match c with
  | SNew y _ | SCopy y _ | SAdd y _ | SRemove y _ | SUnion y _ _ => Nat.eqb x y
  | _ => false
  end.

Definition math_set : Type := ascii -> bool.
Definition all_bytes : list ascii := map (fun k => b8 (N.of_nat k)) (seq 0 256).
Definition members (s : math_set) : list ascii := filter s all_bytes.
Definition incl_b (s t : math_set) : bool := forallb (fun b => implb (s b) (t b)) all_bytes.

(** The mathematical sets of all variables. *)
Definition sets : Type := nat -> math_set.
Definition put_set (v : sets) (x : nat) (s : math_set) : sets :=
  fun y => if Nat.eqb y x then s else v y.

(** One statement: the new sets, and what is printed. *)
Definition set_meaning (v : sets) (c : set_stmt) : sets * list answer :=
  match c with
  | SNew x values => (put_set v x (fun b => existsb (Ascii.eqb b) values), [])
  | SCopy x y => (put_set v x (v y), [])
  | SAdd x b => (put_set v x (fun b' => Ascii.eqb b' b || v x b'), [])
  | SRemove x b => (put_set v x (fun b' => negb (Ascii.eqb b' b) && v x b'), [])
  | SUnion x y z => (put_set v x (fun b => v y b || v z b), [])
  | SContains x b => (v, [ABool (v x b)])
  | SLen x => (v, [ANum (length (members (v x)))])
  | SBytes x => (v, [ABytes (members (v x))])
  | SString x => (v, [ABytes (set_text (members (v x)))])
  | SEqual x y => (v, [ABool (incl_b (v x) (v y) && incl_b (v y) (v x))])
  | SSubSet x y => (v, [ABool (incl_b (v x) (v y))])
  | SSuperSet x y => (v, [ABool (incl_b (v y) (v x))])
  end.

(** A program whose variables start as empty sets ([var a, b, ... ByteSet]). *)
Fixpoint set_output (v : sets) (p : list set_stmt) : list answer :=
  match p with
  | [] => []
  | c :: p' => let (v', a) := set_meaning v c in a ++ set_output v' p'
  end.
Definition no_sets : sets := fun _ _ => false.
