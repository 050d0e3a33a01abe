(** * TableGenOutput: pkg/bnf/tablegen/tablegen.go once more, with what it
    prints.  The only output of the package is tablegen.go:337,
    [fmt.Println(v)] with [v] the operands in an occupied cell. *)
From Verif Require Import Base ByteSet Ast Parser TableGen.

(** A computation that may print: what was printed, and the outcome. *)
Definition gio (A : Type) : Type := bytes * tgres A.
Definition quiet {A} (x : tgres A) : gio A := ([], x).
Definition iobind {A B} (x : gio A) (f : A -> gio B) : gio B :=
  match snd x with
  | Ok a => let y := f a in (fst x ++ fst y, snd y)
  | Err e => (fst x, Err e)
  | Panic p => (fst x, Panic p)
  | NoFuel => (fst x, NoFuel)
  end.
Notation "'io' x <- m ; k" := (iobind m (fun x => k))
  (at level 200, x pattern, m at level 100, k at level 200, right associativity).

(** fmt's %v of a [parser.ParserOp]: the structs of parser.go:37-39, 54-56,
    71-75, 102, 114-116 have no String method, so their fields are printed
    between braces; a byte is printed as a number, a nil interface as <nil>. A
    struct that embeds an operand is taken to have that one field. *)
Definition show_op (op : ParserOp) : bytes :=
  match op with
  | OpNonTerminal name => s2b "{" ++ dec_Z name ++ s2b "}"
  | OpTerminal value => s2b "{" ++ value ++ s2b "}"
  | OpFunction name pos amount =>
      s2b "{" ++ dec_Z name ++ s2b " " ++ dec_N (N.of_nat pos) ++ s2b " " ++ dec_N (N.of_nat amount) ++ s2b "}"
  | OpEOS => s2b "{}"
  | OpChar value => s2b "{" ++ dec_N (code value) ++ s2b "}"
  | OpNil => s2b "<nil>"
  | OpEmbedding (EmbNonTerminal name) => s2b "{{" ++ dec_Z name ++ s2b "}}"
  | OpEmbedding (EmbTerminal value) => s2b "{{" ++ value ++ s2b "}}"
  | OpEmbedding EmbNil => s2b "{<nil>}"
  end.
(** fmt's %v of a slice: elements separated by blanks, between brackets. *)
Fixpoint spaced (l : list bytes) : bytes :=
  match l with
  | [] => []
  | [x] => x
  | x :: l' => x ++ s2b " " ++ spaced l'
  end.
(** tablegen.go:337 [fmt.Println(v)] *)
Definition println_ops (v : list ParserOp) : bytes :=
  s2b "[" ++ spaced (map show_op v) ++ s2b "]" ++ [b8 10].

Section Gen.
  Variable g : grammar.
  Variable ruleMap : list (bytes * nat).

  (** tablegen.go:335-343 *)
  Fixpoint fill_follows_io (terms : list ascii) (res : row) : gio row :=
    match terms with
    | [] => quiet (Ok res)
    | t :: terms' =>
        match row_get t res with
        | Some v => (println_ops v, Err EConflict)
        | None => fill_follows_io terms' (map_set Ascii.eqb t [] res)
        end
    end.

  (** tablegen.go:323-380 *)
  Fixpoint row_loop_io (firsts : list ByteSet) (ruleFollows : ByteSet)
      (seqs : substitution) (res : row) : gio row :=
    match seqs with
    | [] => quiet (Ok res)
    | seq :: seqs' =>
        io seqFirsts <- quiet (sequenceFirsts ruleMap firsts seq);
        io (res, seqFirsts) <-
          (if bs_contains seqFirsts EOS then
             io terms <- quiet (bs_range ruleFollows);
             io res' <- fill_follows_io terms res;
             quiet (Ok (res', bs_remove seqFirsts EOS))
           else quiet (Ok (res, seqFirsts)));
        io terms <- quiet (bs_range seqFirsts);
        io res <- quiet (fill_firsts ruleMap terms seq res);
        row_loop_io firsts ruleFollows seqs' res
    end.

  (** tablegen.go:317-383 [makeTableRow] *)
  Definition makeTableRow_io (firsts follows : list ByteSet) (ruleIndex : nat) : gio row :=
    io rule <- quiet (index g ruleIndex);
    io ruleFollows <- quiet (index follows ruleIndex);
    row_loop_io firsts ruleFollows (r_tail rule) [].

  (** tablegen.go:385-396 [makeTable] *)
  Fixpoint makeTable_loop_io (firsts follows : list ByteSet) (idxs : list nat) (tbl : table)
    : gio table :=
    match idxs with
    | [] => quiet (Ok tbl)
    | i :: idxs' =>
        io r <- makeTableRow_io firsts follows i;
        makeTable_loop_io firsts follows idxs' (map_set Z.eqb (Z.of_nat i) r tbl)
    end.
  Definition makeTable_io (firsts follows : list ByteSet) : gio table :=
    makeTable_loop_io firsts follows (seq 0 (List.length g)) [].

  (** tablegen.go:398-411 [Run] *)
  Definition Run_io (fuel : nat) (firsts follows : list ByteSet) : gio table :=
    io firsts' <- quiet (findFirsts g ruleMap fuel firsts);
    io follows' <- quiet (findFollows g ruleMap fuel firsts' follows);
    makeTable_io firsts' follows'.
End Gen.

(** tablegen.go:413-455 [FromGrammar] *)
Definition FromGrammar_io (order : list (bytes * nat) -> list (bytes * nat))
    (fuel : nat) (g : grammar) : gio (table * list (Z * bytes)) :=
  let ruleHeads := collectRuleHeads g in
  let ruleCount := List.length ruleHeads in
  let firsts := repeat (bs_new []) ruleCount in
  let follows := repeat (bs_new []) ruleCount in
  let ruleMap := enumerate ruleHeads in
  io tbl <- Run_io g ruleMap fuel firsts follows;
  quiet (Ok (tbl, rowNames_of (order ruleMap))).
