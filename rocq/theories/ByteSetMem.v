(** * ByteSetMem: the ByteSet package in memory.

    ByteSet.v treats a set as a value.  Here the same functions run in a memory
    of objects: every variable, every parameter and every result of type
    ByteSet is an object of four uint64 words ([4]uint64 inside a struct), a
    [*ByteSet] is the number of an object.  Go passes a receiver or parameter
    of type ByteSet by copying the four words into a new object of the callee
    and returns one the same way; [Add] and [Remove] have a pointer receiver
    and get the caller's object. *)
From Verif Require Import Base ByteSet Spec_ByteSet Spec_SetVars.

Definition smem : Type := list ByteSet.

(** Computations in that memory; [None] is a panic (nil or stray pointer, index
    out of range) or exhausted fuel. *)
Definition SM (A : Type) : Type := smem -> option (A * smem).
Definition sm_ret {A} (a : A) : SM A := fun m => Some (a, m).
Definition sm_bind {A B} (x : SM A) (f : A -> SM B) : SM B :=
  fun m => match x m with Some (a, m') => f a m' | None => None end.
Definition sm_of {A} (x : option A) : SM A :=
  fun m => match x with Some a => Some (a, m) | None => None end.
Notation "'sm' x <- e ; k" := (sm_bind e (fun x => k))
  (at level 200, x name, e at level 100, k at level 200, right associativity).
Notation "'smdo' e ; k" := (sm_bind e (fun _ => k))
  (at level 200, e at level 100, k at level 200, right associativity).

Fixpoint upd_obj (m : smem) (p : nat) (o : ByteSet) : smem :=
  match m, p with
  | [], _ => []
  | _ :: m', O => o :: m'
  | x :: m', S p' => x :: upd_obj m' p' o
  end.

(** [p.data[i]], read *)
Definition sm_load (p : nat) (i : N) : SM N :=
  fun m => match nth_error m p with Some o => Some (bs_get o i, m) | None => None end.
(** [p.data[i] = w] *)
Definition sm_store (p : nat) (i w : N) : SM unit :=
  fun m => match nth_error m p with
           | Some o => Some (tt, upd_obj m p (bs_put o i w))
           | None => None
           end.
(** A new object holding the zero value [ByteSet{}]. *)
Definition sm_alloc : SM nat := fun m => Some (length m, m ++ [bs_empty]).

(** The assignment [*p = *q]: four words are copied. *)
Definition sm_assign (p q : nat) : SM unit :=
  sm w0 <- sm_load q 0; sm w1 <- sm_load q 1; sm w2 <- sm_load q 2; sm w3 <- sm_load q 3;
  smdo sm_store p 0 w0; smdo sm_store p 1 w1; smdo sm_store p 2 w2; sm_store p 3 w3.

(** Passing a ByteSet by value: the callee's copy. *)
Definition sm_by_value (q : nat) : SM nat :=
  sm p <- sm_alloc; smdo sm_assign p q; sm_ret p.

(** byteset.go:43-47 [Add] (pointer receiver) *)
Definition sm_add (s : nat) (value : ascii) : SM unit :=
  let i := (code value / 64)%N in
  let mask := u64_shl 1 (code value mod 64) in
  sm w <- sm_load s i; sm_store s i (N.lor w mask).

(** byteset.go:49-54 [Remove] (pointer receiver) *)
Definition sm_remove (s : nat) (value : ascii) : SM unit :=
  let i := (code value / 64)%N in
  let mask := u64_shl 1 (code value mod 64) in
  let mask := u64_not mask in
  sm w <- sm_load s i; sm_store s i (N.land w mask).

(** byteset.go:37-39, the loop of [New] *)
Fixpoint sm_add_all (res : nat) (values : list ascii) : SM unit :=
  match values with
  | [] => sm_ret tt
  | v :: values' => smdo sm_add res v; sm_add_all res values'
  end.
(** byteset.go:35-41 [New]; the result is the number of the object that the
    caller copies from *)
Definition sm_new (values : list ascii) : SM nat :=
  sm res <- sm_alloc; smdo sm_add_all res values; sm_ret res.

(** byteset.go:56-60 [Contains]; [q] is the caller's object *)
Definition sm_contains (q : nat) (value : ascii) : SM bool :=
  sm s <- sm_by_value q;
  let i := (code value / 64)%N in
  let offset := (code value mod 64)%N in
  sm w <- sm_load s i; sm_ret (N.land (N.shiftr w offset) 1 =? 1)%N.

(** byteset.go:73-80 [Len] *)
Definition sm_len (q : nat) : SM nat :=
  sm s <- sm_by_value q;
  sm w0 <- sm_load s 0; sm a <- sm_of (popCount w0);
  sm w1 <- sm_load s 1; sm b <- sm_of (popCount w1);
  sm w2 <- sm_load s 2; sm c <- sm_of (popCount w2);
  sm w3 <- sm_load s 3; sm d <- sm_of (popCount w3);
  sm_ret (0 + a + b + c + d).

(** byteset.go:116-121 [walkBytes] with the appending callback of [Bytes]; its
    receiver is passed by value once more *)
Definition sm_walk (q : nat) : SM (list ascii) :=
  sm s <- sm_by_value q;
  sm w0 <- sm_load s 0; sm r0 <- sm_of (realBytes 64 w0 0 []);
  sm w1 <- sm_load s 1; sm r1 <- sm_of (realBytes 64 w1 64 r0);
  sm w2 <- sm_load s 2; sm r2 <- sm_of (realBytes 64 w2 128 r1);
  sm w3 <- sm_load s 3; sm_of (realBytes 64 w3 192 r2).

(** byteset.go:124-133 [Bytes] *)
Definition sm_bytes (q : nat) : SM (list ascii) :=
  sm s <- sm_by_value q; sm_walk s.

(** byteset.go:167-186 [String] *)
Definition sm_string (q : nat) : SM bytes :=
  sm s <- sm_by_value q;
  sm bs <- sm_walk s;
  let sb := fold_left (fun sb b => sb ++ hex2 b ++ s2b " ") bs (s2b "[") in
  let c := fold_left (fun c b => c + List.length (hex2 b ++ s2b " ")) bs 0 in
  sm_ret (if Nat.eqb c 0 then s2b "[]" else set_last sb "]"%char).

(** byteset.go:136-145 [Union]; receiver and argument are copies, the result is
    a new object *)
Definition sm_union (q r : nat) : SM nat :=
  sm s <- sm_by_value q; sm other <- sm_by_value r; sm res <- sm_alloc;
  sm a0 <- sm_load s 0; sm b0 <- sm_load other 0; smdo sm_store res 0 (N.lor a0 b0);
  sm a1 <- sm_load s 1; sm b1 <- sm_load other 1; smdo sm_store res 1 (N.lor a1 b1);
  sm a2 <- sm_load s 2; sm b2 <- sm_load other 2; smdo sm_store res 2 (N.lor a2 b2);
  sm a3 <- sm_load s 3; sm b3 <- sm_load other 3; smdo sm_store res 3 (N.lor a3 b3);
  sm_ret res.

(** [a && b] evaluates [b] only when [a] is true *)
Definition sm_and (a b : SM bool) : SM bool :=
  sm x <- a; if x then b else sm_ret false.

(** byteset.go:148-153 [Equal] *)
Definition sm_equal (q r : nat) : SM bool :=
  sm s <- sm_by_value q; sm other <- sm_by_value r;
  let word i := sm a <- sm_load s i; sm b <- sm_load other i; sm_ret (a =? b)%N in
  sm_and (sm_and (sm_and (word 0%N) (word 1%N)) (word 2%N)) (word 3%N).

(** byteset.go:155-160 [IsSubSet] *)
Definition sm_is_subset (q r : nat) : SM bool :=
  sm s <- sm_by_value q; sm other <- sm_by_value r;
  let word i := sm a <- sm_load s i; sm b <- sm_load other i; sm_ret (N.land a b =? a)%N in
  sm_and (sm_and (sm_and (word 0%N) (word 1%N)) (word 2%N)) (word 3%N).

(** byteset.go:162-164 [IsSuperSet] *)
Definition sm_is_superset (q r : nat) : SM bool :=
  sm s <- sm_by_value q; sm other <- sm_by_value r; sm_is_subset other s.

(** A caller's program: variable [x] is object [x]; see Spec_SetVars. *)
Definition sm_stmt (c : set_stmt) : SM (list answer) :=
  match c with
  | SNew x values => sm r <- sm_new values; smdo sm_assign x r; sm_ret []
  | SCopy x y => smdo sm_assign x y; sm_ret []
  | SAdd x b => smdo sm_add x b; sm_ret []
  | SRemove x b => smdo sm_remove x b; sm_ret []
  | SUnion x y z => sm r <- sm_union y z; smdo sm_assign x r; sm_ret []
  | SContains x b => sm a <- sm_contains x b; sm_ret [ABool a]
  | SLen x => sm a <- sm_len x; sm_ret [ANum a]
  | SBytes x => sm a <- sm_bytes x; sm_ret [ABytes a]
  | SString x => sm a <- sm_string x; sm_ret [ABytes a]
  | SEqual x y => sm a <- sm_equal x y; sm_ret [ABool a]
  | SSubSet x y => sm a <- sm_is_subset x y; sm_ret [ABool a]
  | SSuperSet x y => sm a <- sm_is_superset x y; sm_ret [ABool a]
  end.

Fixpoint sm_run (p : list set_stmt) : SM (list answer) :=
  match p with
  | [] => sm_ret []
  | c :: p' => sm a <- sm_stmt c; sm b <- sm_run p'; sm_ret (a ++ b)
  end.

(** [var a, b, ... ByteSet]: [n] zero objects. *)
Definition sm_vars (n : nat) : smem := repeat bs_empty n.
