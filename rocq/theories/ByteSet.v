(** * ByteSet: model of pkg/bnf/tablegen/byteset/byteset.go

    A ByteSet is an array of four uint64 words.  Words are [N]; every operation
    that can leave the 64 bit range in Go is written with its wrap-around.
    ByteSet is a Go value type (array inside a struct): assignment copies, so a
    method with pointer receiver becomes a function returning the new set. *)
From Verif Require Import Base.

Definition two64 : N := 18446744073709551616%N. (* 2^64 *)
Definition ones64 : N := 18446744073709551615%N. (* 2^64 - 1 *)

(** uint64 arithmetic: wrap-around at 2^64. *)
Definition u64_sub (a b : N) : N := ((a + two64 - b) mod two64)%N.
Definition u64_mul (a b : N) : N := ((a * b) mod two64)%N.
Definition u64_shl (a k : N) : N := (N.shiftl a k mod two64)%N.
Definition u64_not (a : N) : N := N.lxor a ones64.

(** byteset.go:31-33 [type ByteSet struct { data [4]uint64 }] *)
Record ByteSet : Type := mkBS { data0 : N; data1 : N; data2 : N; data3 : N }.

(** The range a Go [uint64] field enforces by its type. *)
Definition bs_wf (s : ByteSet) : Prop :=
  (data0 s < two64 /\ data1 s < two64 /\ data2 s < two64 /\ data3 s < two64)%N.

(** [s.data[i]] (Go bounds-checks i; [value / 64] of a byte is at most 3). *)
Definition bs_get (s : ByteSet) (i : N) : N :=
  match i with
  | 0%N => data0 s
  | 1%N => data1 s
  | 2%N => data2 s
  | _ => data3 s
  end.

(** [s.data[i] = w] *)
Definition bs_put (s : ByteSet) (i w : N) : ByteSet :=
  match i with
  | 0%N => mkBS w (data1 s) (data2 s) (data3 s)
  | 1%N => mkBS (data0 s) w (data2 s) (data3 s)
  | 2%N => mkBS (data0 s) (data1 s) w (data3 s)
  | _ => mkBS (data0 s) (data1 s) (data2 s) w
  end.

(** The zero value [ByteSet{}]. *)
Definition bs_empty : ByteSet := mkBS 0 0 0 0.

(** byteset.go:43-47 [Add] *)
Definition bs_add (s : ByteSet) (value : ascii) : ByteSet :=
  let i := (code value / 64)%N in
  let mask := u64_shl 1 (code value mod 64) in
  bs_put s i (N.lor (bs_get s i) mask).

(** byteset.go:49-54 [Remove] *)
Definition bs_remove (s : ByteSet) (value : ascii) : ByteSet :=
  let i := (code value / 64)%N in
  let mask := u64_shl 1 (code value mod 64) in
  let mask := u64_not mask in
  bs_put s i (N.land (bs_get s i) mask).

(** byteset.go:56-60 [Contains] *)
Definition bs_contains (s : ByteSet) (value : ascii) : bool :=
  let i := (code value / 64)%N in
  let offset := (code value mod 64)%N in
  (N.land (N.shiftr (bs_get s i) offset) 1 =? 1)%N.

(** byteset.go:35-41 [New] *)
Definition bs_new (values : list ascii) : ByteSet :=
  fold_left bs_add values bs_empty.

(** byteset.go:65-71 [popCount]; the loop [for c = 0; v != 0; c++ { v &= v-1 }]
    runs on fuel, [None] when it is exhausted. *)
Fixpoint popCount_loop (fuel : nat) (v : N) (c : nat) : option nat :=
  if (v =? 0)%N then Some c
  else match fuel with
       | O => None
       | S fuel' => popCount_loop fuel' (N.land v (u64_sub v 1)) (S c)
       end.
Definition popCount (v : N) : option nat := popCount_loop 64 v 0.

(** byteset.go:73-80 [Len] *)
Definition bs_len (s : ByteSet) : option nat :=
  match popCount (data0 s), popCount (data1 s),
        popCount (data2 s), popCount (data3 s) with
  | Some a, Some b, Some c, Some d => Some (0 + a + b + c + d)
  | _, _, _, _ => None
  end.

(** byteset.go:82-86 [lookupTable] *)
Definition lookupTable : list N :=
  [ 0;  1; 56;  2; 57; 16;  3; 47; 61; 58; 17; 41; 32;  4; 36; 48;
   62; 14; 59; 30; 12; 18; 42; 20; 44; 33; 27;  5; 37;  8; 22; 49;
   63; 55; 15; 46; 60; 40; 31; 35; 13; 29; 11; 19; 43; 26;  7; 21;
   54; 45; 39; 34; 28; 10; 25;  6; 53; 38;  9; 24; 52; 23; 51; 50]%N.

(** byteset.go:97-99 [log2pow2n]; the index is below 64 because a uint64
    shifted right by 58 has 6 bits, [None] would be Go's index panic. *)
Definition log2pow2n (pow2n : N) : option N :=
  nth_error lookupTable
    (N.to_nat (N.shiftr (u64_mul pow2n 0x037515ED33963F09) 58)).

(** byteset.go:104-114 [realBytesF], with the callback [f] of [Bytes]
    (append to a slice, byteset.go:126-128) already applied: returns the bytes
    in the order in which [f] is called on them. [None]: fuel exhausted or
    index out of range. *)
Fixpoint realBytes (fuel : nat) (v : N) (o : N) (acc : list ascii)
  : option (list ascii) :=
  if (v =? 0)%N then Some acc
  else match fuel with
       | O => None
       | S fuel' =>
           let i := v in
           let v := N.land v (u64_sub v 1) in
           let i := u64_sub i v in
           match log2pow2n i with
           | None => None
           | Some l =>
               let b := b8 ((o + l) mod 256) in
               realBytes fuel' v o (acc ++ [b])
           end
       end.

(** byteset.go:116-133 [walkBytes] and [Bytes] *)
Definition bs_bytes (s : ByteSet) : option (list ascii) :=
  match realBytes 64 (data0 s) 0 [] with
  | None => None
  | Some r0 =>
  match realBytes 64 (data1 s) 64 r0 with
  | None => None
  | Some r1 =>
  match realBytes 64 (data2 s) 128 r1 with
  | None => None
  | Some r2 => realBytes 64 (data3 s) 192 r2
  end end end.

(** byteset.go:136-145 [Union] *)
Definition bs_union (s other : ByteSet) : ByteSet :=
  mkBS (N.lor (data0 s) (data0 other)) (N.lor (data1 s) (data1 other))
       (N.lor (data2 s) (data2 other)) (N.lor (data3 s) (data3 other)).

(** byteset.go:148-153 [Equal] *)
Definition bs_equal (s other : ByteSet) : bool :=
  (data0 s =? data0 other)%N && (data1 s =? data1 other)%N &&
  (data2 s =? data2 other)%N && (data3 s =? data3 other)%N.

(** byteset.go:155-160 [IsSubSet] *)
Definition bs_is_subset (s other : ByteSet) : bool :=
  (N.land (data0 s) (data0 other) =? data0 s)%N &&
  (N.land (data1 s) (data1 other) =? data1 s)%N &&
  (N.land (data2 s) (data2 other) =? data2 s)%N &&
  (N.land (data3 s) (data3 other) =? data3 s)%N.

(** byteset.go:162-164 [IsSuperSet] *)
Definition bs_is_superset (s other : ByteSet) : bool := bs_is_subset other s.

(** fmt's %02X of a byte: two upper-case hexadecimal digits. *)
Definition hex_digit (n : N) : ascii :=
  if (n <? 10)%N then b8 (48 + n) else b8 (55 + n).
Definition hex2 (b : ascii) : bytes :=
  [hex_digit (code b / 16); hex_digit (code b mod 16)].

(** [b[len(b)-1] = c] *)
Fixpoint set_last (l : bytes) (c : ascii) : bytes :=
  match l with
  | [] => []
  | [_] => [c]
  | x :: l' => x :: set_last l' c
  end.

(** byteset.go:167-186 [String]: the buffer starts with "[", the callback
    appends "%02X " per byte and counts the written bytes in [c]. *)
Definition bs_string (s : ByteSet) : option bytes :=
  match bs_bytes s with
  | None => None
  | Some bs =>
      let sb := fold_left (fun sb b => sb ++ hex2 b ++ s2b " ") bs (s2b "[") in
      let c := fold_left (fun c b => c + List.length (hex2 b ++ s2b " ")) bs 0 in
      if Nat.eqb c 0 then Some (s2b "[]") else Some (set_last sb "]"%char)
  end.
