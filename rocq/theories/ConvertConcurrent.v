(** * ConvertConcurrent: several ToAST calls sharing one IgnoreNodeTypes slice.

    [ToAST] (fromcst.go:302-324) has a value receiver, but copies of the
    bindings share the array behind IgnoreNodeTypes (fromcst.go:67), and
    fromcst.go:304 sorts that array in place before anything is converted.

    sort.Sort is the standard library's; for at most 12 elements (Go 1.19, the
    version of go.mod) it is the insertion sort
    [for i := 1; i < n; i++ { for j := i; j > 0 && Less(j, j-1); j-- { Swap(j, j-1) } }]
    with [Less(i, j) = x[i] < x[j]] and [Swap(i, j)]: [x[i], x[j] = x[j], x[i]],
    i.e. two reads, then two writes.  The model runs this loop on slices of any
    length; above 12 elements Go uses another algorithm.

    Each comparison, the reads of an exchange, and each of its two writes is
    one step; steps of different calls interleave in any order.
    Simplifications: the two reads of a comparison, and the whole conversion
    after the sort (fromcst.go:306-323, which only reads the slice) are one
    step each.  In Go unsynchronised accesses like these are a data race, for
    which less is promised than is modelled here. *)
From Verif Require Import Base Cst Ast FromCst Spec_Convert.

(** Where a call is. *)
Inductive cthread : Type :=
| CLess (i j : nat)                    (* about to test j > 0 && x[j] < x[j-1] *)
| CRead (i j : nat)                    (* about to read x[j] and x[j-1] *)
| CWrite1 (i j : nat) (a b : Z)        (* about to write x[j] := b *)
| CWrite2 (i j : nat) (a : Z)          (* about to write x[j-1] := a *)
| CConvert                             (* sorted; about to convert *)
| CDone (r : fcres grammar).           (* has returned *)

(** x[k] := v *)
Definition put (k : nat) (v : Z) (l : list Z) : list Z :=
  firstn k l ++ v :: skipn (S k) l.

Section Conc.
  Variable b : bindings.
  (** The tree and text of each call. *)
  Variable calls : list (node * bytes).

  (** One step of the call [(root, str)] when the slice holds [l]. *)
  Inductive ct_step (root : node) (str : bytes) : cthread -> list Z -> cthread -> list Z -> Prop :=
  | ct_end i j l : length l <= i -> ct_step root str (CLess i j) l CConvert l
  | ct_less i j l :
      i < length l -> 0 < j -> (nth j l 0 < nth (j - 1) l 0)%Z ->
      ct_step root str (CLess i j) l (CRead i j) l
  | ct_next i j l :
      i < length l -> ~ (0 < j /\ (nth j l 0 < nth (j - 1) l 0)%Z) ->
      ct_step root str (CLess i j) l (CLess (S i) (S i)) l
  | ct_read i j l :
      ct_step root str (CRead i j) l (CWrite1 i j (nth j l 0%Z) (nth (j - 1) l 0%Z)) l
  | ct_write1 i j x y l : ct_step root str (CWrite1 i j x y) l (CWrite2 i j x) (put j y l)
  | ct_write2 i j x l : ct_step root str (CWrite2 i j x) l (CLess i (j - 1)) (put (j - 1) x l)
  | ct_convert l :
      ct_step root str CConvert l (CDone (ToAST_sorted (with_ignored l b) str root)) l.

  Definition cconc := (list cthread * list Z)%type.

  (** Any call may go next. *)
  Inductive cc_step : cconc -> cconc -> Prop :=
  | ccs l1 t l2 l t' l' root str :
      nth_error calls (length l1) = Some (root, str) ->
      ct_step root str t l t' l' ->
      cc_step (l1 ++ t :: l2, l) (l1 ++ t' :: l2, l').

  Inductive cc_steps : cconc -> cconc -> Prop :=
  | ccss_refl c : cc_steps c c
  | ccss_more x y z : cc_steps x y -> cc_step y z -> cc_steps x z.

  (** All calls at the beginning, the slice holding [l]. *)
  Definition cc_init (l : list Z) : cconc := (map (fun _ => CLess 1 1) calls, l).
End Conc.
