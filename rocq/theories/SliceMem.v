(** * SliceMem: Go slices in memory.

    The other files model a Go slice by the list of its elements. Here slices
    are what they are in Go: views of arrays that live in memory, can share
    their elements with other slices, and can be written through. No code of
    the repository is modelled in this file, only the operations of the
    language it uses. *)
From Verif Require Import Base.

(** A slice: the array it views (an address), the index of its first element,
    its length and its capacity. A nil slice has capacity 0, its address means
    nothing. *)
Record slice := mkSlice { sl_arr : nat; sl_off : nat; sl_len : nat; sl_cap : nat }.
Definition nil_slice : slice := mkSlice 0 0 0 0.

Section Heap.
  Context {T : Type}.
  (** The zero value of the element type. *)
  Variable zero : T.

  (** The arrays of one element type; the address is the index. *)
  Definition heap := list (list T).

  (** [s[i]]; [None]: index out of range *)
  Definition slice_get (h : heap) (s : slice) (i : nat) : option T :=
    if Nat.ltb i (sl_len s) then
      match nth_error h (sl_arr s) with
      | Some arr => nth_error arr (sl_off s + i)
      | None => None
      end
    else None.

  Fixpoint list_set {A} (l : list A) (i : nat) (x : A) : list A :=
    match l, i with
    | [], _ => []
    | _ :: l', O => x :: l'
    | y :: l', S i' => y :: list_set l' i' x
    end.

  (** Writing element [i] of the array at address [a]. *)
  Definition heap_write (h : heap) (a i : nat) (x : T) : heap :=
    match nth_error h a with
    | Some arr => list_set h a (list_set arr i x)
    | None => h
    end.

  (** [s[i] = x]; [None]: index out of range *)
  Definition slice_set (h : heap) (s : slice) (i : nat) (x : T) : option heap :=
    if Nat.ltb i (sl_len s) then Some (heap_write h (sl_arr s) (sl_off s + i) x) else None.

  (** A new array, and the slice of all of it. *)
  Definition heap_alloc (h : heap) (arr : list T) : heap * slice :=
    (h ++ [arr], mkSlice (length h) 0 (length arr) (length arr)).

  (** [make([]T, n)] *)
  Definition heap_make (h : heap) (n : nat) : heap * slice := heap_alloc h (repeat zero n).

  (** [s[:n]] for n <= len(s) *)
  Definition slice_trunc (s : slice) (n : nat) : slice :=
    mkSlice (sl_arr s) (sl_off s) n (sl_cap s).

  (** The elements of a slice. *)
  Definition slice_elems (h : heap) (s : slice) : list T :=
    match nth_error h (sl_arr s) with
    | Some arr => firstn (sl_len s) (skipn (sl_off s) arr)
    | None => []
    end.

  (** [append(s, xs...)]: in place while the capacity suffices, otherwise into
      a new array whose capacity is chosen by the runtime: [grow n] for at
      least [n] elements, any choice that is large enough. Appending nothing
      returns the slice itself. *)
  Variable grow : nat -> nat.

  Fixpoint heap_write_all (h : heap) (a i : nat) (xs : list T) : heap :=
    match xs with
    | [] => h
    | x :: xs' => heap_write_all (heap_write h a i x) a (S i) xs'
    end.

  Definition slice_append (h : heap) (s : slice) (xs : list T) : heap * slice :=
    let n := sl_len s + length xs in
    if Nat.leb n (sl_cap s) then
      (heap_write_all h (sl_arr s) (sl_off s + sl_len s) xs,
       mkSlice (sl_arr s) (sl_off s) n (sl_cap s))
    else
      let cap := Nat.max n (grow n) in
      (h ++ [slice_elems h s ++ xs ++ repeat zero (cap - n)],
       mkSlice (length h) 0 n cap).
End Heap.
Arguments heap T : clear implicits.
