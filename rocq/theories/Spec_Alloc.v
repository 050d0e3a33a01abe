(** * Spec_Alloc: how much memory has been allocated, and how slices grow. *)
From Verif Require Import Base SliceMem ParserMem.

(** All elements of all arrays there are. Nothing is ever taken from a heap, so
    this counts what is garbage as well. *)
Definition cells {T} (h : heap T) : nat := list_sum (map (@length T) h).

(** What a call has allocated that found the heap [h] and left [h']. *)
Definition allocated {T} (h h' : heap T) : nat := cells h' - cells h.

(** A runtime whose append makes full slices at least a quarter larger, and
    never gives them room for more than [a] times the elements they have. *)
Definition steady (a : nat) (grow : nat -> nat) : Prop :=
  1 <= a /\ forall n, 1 <= n -> 5 * (n - 1) <= 4 * grow n /\ grow n <= a * n.

(** Go 1.18 and later (runtime/slice.go, without rounding up to size classes):
    double up to 256 elements, from then on a quarter and 192 more. *)
Definition go_grow (n : nat) : nat :=
  if Nat.ltb (n - 1) 256 then 2 * (n - 1) else (n - 1) + ((n - 1) + 768) / 4.
