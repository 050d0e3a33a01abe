(** * Spec_ByteSet: what a set of bytes is, without reference to the code.

    A mathematical set of bytes is a predicate.  Nothing here mentions words,
    masks or bit counting. *)
From Coq Require Import Sorting.Sorted.
From Verif Require Import Base.

Definition byte_set := ascii -> Prop.

(** A call of one of the two mutating methods. *)
Inductive set_call : Type := CallAdd (b : ascii) | CallRemove (b : ascii).

Definition set_after_call (M : byte_set) (c : set_call) : byte_set :=
  match c with
  | CallAdd b => fun x => x = b \/ M x
  | CallRemove b => fun x => x <> b /\ M x
  end.

(** The set after a history, oldest call first. *)
Definition set_after (values : list ascii) (history : list set_call) : byte_set :=
  fold_left set_after_call history (fun x => In x values).

(** Bytes are ordered by their code. *)
Definition increasing (l : list ascii) : Prop :=
  StronglySorted (fun a b => (code a < code b)%N) l.

(** Two upper-case hexadecimal digits. *)
Definition hex_alphabet : bytes := s2b "0123456789ABCDEF".
Definition hex_pair (b : ascii) : bytes :=
  [nth (N.to_nat (code b / 16)) hex_alphabet NUL;
   nth (N.to_nat (code b mod 16)) hex_alphabet NUL].

(** Joining with a separator. *)
Fixpoint join (sep : bytes) (l : list bytes) : bytes :=
  match l with
  | [] => []
  | [x] => x
  | x :: l' => x ++ sep ++ join sep l'
  end.

Definition set_text (members : list ascii) : bytes :=
  s2b "[" ++ join (s2b " ") (map hex_pair members) ++ s2b "]".

(** A loop run with a bound on its number of rounds ([None]: bound too small)
    makes exactly [n] rounds: [n] are enough and fewer are not. *)
Definition rounds {A} (loop : nat -> option A) (n : nat) : Prop :=
  forall k, loop k <> None <-> n <= k.
