(** * TableGenMem: pkg/bnf/tablegen/tablegen.go once more, with its memory.

    TableGen.v models the grammar, the lists of sets and the cells of the table
    by values. Here they are slices of arrays in memory (SliceMem.v), which the
    caller's grammar, tables of earlier calls and the parsers using them share.
    Go maps are still association lists, but the cells of a row are slices;
    [ByteSet] is an array inside a struct (byteset.go:31-33), so copying one is
    copying its value. The slices that [Bytes] and [collectRuleHeads] return
    to the package itself are the lists of their elements: they are read by
    one loop each and dropped. *)
From Verif Require Import Base ByteSet Ast Parser SliceMem ParserMem TableGen.

(** ast.go:86-99, 119-121 a rule in memory: its head, and its sequences as a
    slice, each of which is a slice of symbols. A grammar is a slice of rules. *)
Definition mrule := (bytes * slice)%type.

(** The memory: that of the parser, and the arrays of symbols, of sequences, of
    rules and of sets. *)
Record gmem := mkGM {
  gm_mem : mem;
  gm_syms : heap symbol;
  gm_seqs : heap slice;
  gm_rules : heap mrule;
  gm_sets : heap ByteSet }.
Definition set_gops (m : gmem) (h : heap ParserOp) : gmem :=
  mkGM (set_ops (gm_mem m) h) (gm_syms m) (gm_seqs m) (gm_rules m) (gm_sets m).
Definition set_gsets (m : gmem) (h : heap ByteSet) : gmem :=
  mkGM (gm_mem m) (gm_syms m) (gm_seqs m) (gm_rules m) h.

(** A computation on that memory: its outcome, and the memory afterwards. *)
Definition gmm (A : Type) : Type := gmem -> tgres A * gmem.
Definition mdo {A} (x : tgres A) : gmm A := fun m => (x, m).
Definition mbind {A B} (x : gmm A) (f : A -> gmm B) : gmm B :=
  fun m =>
    match x m with
    | (Ok a, m') => f a m'
    | (Err e, m') => (Err e, m')
    | (Panic p, m') => (Panic p, m')
    | (NoFuel, m') => (NoFuel, m')
    end.
Notation "'mm' x <- e ; k" := (mbind e (fun x => k))
  (at level 200, x pattern, e at level 100, k at level 200, right associativity).

(** [s[i]] *)
Definition rd {T} (h : gmem -> heap T) (s : slice) (i : nat) : gmm T :=
  fun m => (match slice_get (h m) s i with Some x => Ok x | None => Panic PanicIndex end, m).
(** [s[i] = x] for sets *)
Definition wr_set (s : slice) (i : nat) (x : ByteSet) : gmm unit :=
  fun m => match slice_set (gm_sets m) s i x with
           | Some h => (Ok tt, set_gsets m h)
           | None => (Panic PanicIndex, m)
           end.

(** tablegen.go:14-20 [collectRuleHeads] *)
Fixpoint mcollect (g : slice) (n : nat) : gmm (list bytes) :=
  match n with
  | O => mdo (Ok [])
  | S n' =>
      mm r <- rd gm_rules g (sl_len g - n);
      mm rest <- mcollect g n';
      mdo (Ok (fst r :: rest))
  end.
Definition mcollectRuleHeads (g : slice) : gmm (list bytes) := mcollect g (sl_len g).

Section Gen.
  (** The runtime's choice of capacities. *)
  Variable grow : nat -> nat.
  (** tablegen.go:37-44 [tableGenerator]: none of these is assigned to after
      its construction, only the arrays behind the slices are. *)
  Variable g : slice.
  Variable ruleCount : nat.
  Variable ruleMap : list (bytes * nat).
  Variable firsts follows : slice.

  (** tablegen.go:46-93 [sequenceFirsts]; [n] symbols are left *)
  Fixpoint msequenceFirsts_loop (seq : slice) (n : nat) (res : ByteSet) (found : bool)
    : gmm ByteSet :=
    match n with
    | O => mdo (Ok (if found then bs_add res EOS else res))
    | S n' =>
        mm symbol <- rd gm_syms seq (sl_len seq - n);
        match symbol with
        | STerminal t => mdo (go f <- terminalFirsts t; Ok (bs_union res f))
        | SNothing =>
            if Nat.ltb 1 (sl_len seq) then mdo (Err ENothingNotSingle)
            else mdo (Ok (bs_add res EOS))
        | SNonTerminal v =>
            match rm_get ruleMap v with
            | None => mdo (Err (ENoRulesDefined v))
            | Some ruleIndex =>
                mm ruleFirsts <- rd gm_sets firsts ruleIndex;
                let found := bs_contains ruleFirsts EOS in
                let ruleFirsts := bs_remove ruleFirsts EOS in
                let res := bs_union res ruleFirsts in
                if negb found then mdo (Ok res)
                else msequenceFirsts_loop seq n' res found
            end
        | SUnknown _ => mdo (Panic PanicUnknownSymbol)
        end
    end.
  Definition msequenceFirsts (seq : slice) : gmm ByteSet :=
    msequenceFirsts_loop seq (sl_len seq) (bs_new []) true.

  (** tablegen.go:95-107 [substitutuionFirsts]; [n] sequences are left *)
  Fixpoint msubstitutionFirsts_loop (seqs : slice) (n : nat) (res : ByteSet) : gmm ByteSet :=
    match n with
    | O => mdo (Ok res)
    | S n' =>
        mm seq <- rd gm_seqs seqs (sl_len seqs - n);
        mm seqFirsts <- msequenceFirsts seq;
        msubstitutionFirsts_loop seqs n' (bs_union res seqFirsts)
    end.

  (** tablegen.go:109-129 [ruleFirsts]; *firstsChanged is passed on *)
  Definition mruleFirsts (ruleIndex : nat) (changed : bool) : gmm bool :=
    if Nat.leb ruleCount ruleIndex then mdo (Err ERuleIndex)
    else
      mm r <- rd gm_rules g ruleIndex;
      mm tempRes <- msubstitutionFirsts_loop (snd r) (sl_len (snd r)) (bs_new []);
      mm f <- rd gm_sets firsts ruleIndex;
      if bs_is_superset f tempRes then mdo (Ok changed)
      else
        mm _ <- wr_set firsts ruleIndex (bs_union f tempRes);
        mdo (Ok true).

  (** tablegen.go:136-141 *)
  Fixpoint mfirsts_round (idxs : list nat) (changed : bool) : gmm bool :=
    match idxs with
    | [] => mdo (Ok changed)
    | i :: idxs' =>
        mm changed' <- mruleFirsts i changed;
        mfirsts_round idxs' changed'
    end.

  (** tablegen.go:131-144 [findFirsts] *)
  Fixpoint mfindFirsts (fuel : nat) : gmm unit :=
    match fuel with
    | O => mdo NoFuel
    | S fuel' =>
        mm changed <- mfirsts_round (seq 0 (sl_len g)) false;
        if changed then mfindFirsts fuel' else mdo (Ok tt)
    end.

  (** tablegen.go:149-172 [symbolFirsts] *)
  Definition msymbolFirsts (s : symbol) : gmm ByteSet :=
    match s with
    | STerminal t =>
        if Nat.eqb (List.length t) 0 then mdo (Err EEmptyTerminal) else mdo (terminalFirsts t)
    | SNothing => mdo (Ok (bs_new [EOS]))
    | SNonTerminal v =>
        match rm_get ruleMap v with
        | None => mdo (Err (ENoRulesDefined v))
        | Some ruleIndex => rd gm_sets firsts ruleIndex
        end
    | SUnknown _ => mdo (Err EUnknownSymbol)
    end.

  (** tablegen.go:209-214, 246-253, 263-267 (the test, and the union when it
      fails): was anything added? *)
  Definition madd_follows (ruleIndex : nat) (extra : ByteSet) : gmm bool :=
    mm f <- rd gm_sets follows ruleIndex;
    if bs_is_superset f extra then mdo (Ok false)
    else
      mm _ <- wr_set follows ruleIndex (bs_union f extra);
      mdo (Ok true).

  (** tablegen.go:219-268: positions i-1, i-2, ..., 0 *)
  Fixpoint mfollows_inner (ruleIndex : nat) (seq : slice) (sequenceRuleIndex : nat)
      (i : nat) (changed : bool) : gmm bool :=
    match i with
    | O => mdo (Ok changed)
    | S i' =>
        mm sym <- rd gm_syms seq i';
        mm r <- rd gm_rules g ruleIndex;
        if negb (is_nonterminal_named sym (fst r)) then
          mfollows_inner ruleIndex seq sequenceRuleIndex i' changed
        else
          mm next <- rd gm_syms seq (S i');
          mm nextFirsts <- msymbolFirsts next;
          mm changed <-
            (if bs_contains nextFirsts EOS && negb (Nat.eqb ruleIndex sequenceRuleIndex) then
               mm ruleFollows <- rd gm_sets follows sequenceRuleIndex;
               mm added <- madd_follows ruleIndex ruleFollows;
               mdo (Ok (if (added : bool) then true else changed))
             else mdo (Ok changed));
          let nextFirsts := bs_remove nextFirsts EOS in
          mm added <- madd_follows ruleIndex nextFirsts;
          mfollows_inner ruleIndex seq sequenceRuleIndex i' (if (added : bool) then true else changed)
    end.

  (** tablegen.go:174-271 [ruleFollowsInSequence] *)
  Definition mruleFollowsInSequence (ruleIndex : nat) (seq : slice) (sequenceRuleIndex : nat)
      (changed : bool) : gmm bool :=
    let symbolsLen := sl_len seq in
    if Nat.eqb symbolsLen 0 then mdo (Err EEmptySequence)
    else
      let rest := mfollows_inner ruleIndex seq sequenceRuleIndex (symbolsLen - 1) changed in
      if negb (Nat.eqb ruleIndex sequenceRuleIndex) then
        mm symbol <- rd gm_syms seq (symbolsLen - 1);
        mm r <- rd gm_rules g ruleIndex;
        if is_nonterminal_named symbol (fst r) then
          mm ruleFollows <- rd gm_sets follows sequenceRuleIndex;
          mm added <- madd_follows ruleIndex ruleFollows;
          if (added : bool) then mdo (Ok true) else rest
        else rest
      else rest.

  (** tablegen.go:285-291; [n] sequences are left *)
  Fixpoint mfollows_sequences (ruleIndex : nat) (seqs : slice) (n : nat)
      (againstRuleIndex : nat) (changed : bool) : gmm bool :=
    match n with
    | O => mdo (Ok changed)
    | S n' =>
        mm seq <- rd gm_seqs seqs (sl_len seqs - n);
        mm changed' <- mruleFollowsInSequence ruleIndex seq againstRuleIndex changed;
        mfollows_sequences ruleIndex seqs n' againstRuleIndex changed'
    end.

  (** tablegen.go:273-294 [ruleFollowsInRule] *)
  Definition mruleFollowsInRule (ruleIndex againstRuleIndex : nat) (changed : bool) : gmm bool :=
    if Nat.leb ruleCount ruleIndex then mdo (Err ERuleNum)
    else if Nat.leb ruleCount againstRuleIndex then mdo (Err ETargetRuleNum)
    else
      mm r <- rd gm_rules g againstRuleIndex;
      mfollows_sequences ruleIndex (snd r) (sl_len (snd r)) againstRuleIndex changed.

  (** tablegen.go:304-312 *)
  Fixpoint mfollows_round (pairs : list (nat * nat)) (changed : bool) : gmm bool :=
    match pairs with
    | [] => mdo (Ok changed)
    | (i, j) :: pairs' =>
        mm changed' <- mruleFollowsInRule i j changed;
        mfollows_round pairs' changed'
    end.
  Fixpoint mfollows_loop (fuel : nat) : gmm unit :=
    match fuel with
    | O => mdo NoFuel
    | S fuel' =>
        mm changed <- mfollows_round (list_prod (seq 0 (sl_len g)) (seq 0 (sl_len g))) false;
        if changed then mfollows_loop fuel' else mdo (Ok tt)
    end.

  (** tablegen.go:296-315 [findFollows]; [Add] works in place on follows[0] *)
  Definition mfindFollows (fuel : nat) : gmm unit :=
    mm f0 <- rd gm_sets follows 0;
    mm _ <- wr_set follows 0 (bs_add f0 EOS);
    mfollows_loop fuel.

  (** tablegen.go:335-343: the new cells are the literal [[]ParserOp{}], a slice
      of capacity 0 *)
  Fixpoint mfill_follows (terms : list ascii) (res : mrow) : gmm mrow :=
    match terms with
    | [] => mdo (Ok res)
    | t :: terms' =>
        match mrow_get t res with
        | Some _ => mdo (Err EConflict)
        | None => mfill_follows terms' (map_set Ascii.eqb t nil_slice res)
        end
    end.

  (** [res[b] = append(res[b], op)]: a missing key reads as the nil slice *)
  Definition mrow_append (b : ascii) (op : ParserOp) (res : mrow) : gmm mrow :=
    fun m =>
      let cur := match mrow_get b res with Some s => s | None => nil_slice end in
      let (h, s) := slice_append OpNil grow (m_ops (gm_mem m)) cur [op] in
      (Ok (map_set Ascii.eqb b s res), set_gops m h).

  (** tablegen.go:349-378; [n] symbols are left *)
  Fixpoint mfill_symbols (term : ascii) (seq : slice) (n : nat) (res : mrow) : gmm mrow :=
    match n with
    | O => mdo (Ok res)
    | S n' =>
        mm symbol <- rd gm_syms seq (sl_len seq - n);
        match symbol with
        | STerminal t =>
            mm res <- mrow_append term (OpTerminal t) res;
            mfill_symbols term seq n' res
        | SNonTerminal v =>
            match rm_get ruleMap v with
            | None => mdo (Err (ENoRulesDefined v))
            | Some ruleIndex =>
                mm res <- mrow_append term (OpNonTerminal (Z.of_nat ruleIndex)) res;
                mfill_symbols term seq n' res
            end
        | SNothing => mdo (Panic PanicNothingInSequence)
        | SUnknown _ => mdo (Panic PanicUnknownSymbol)
        end
    end.

  (** tablegen.go:348-379 *)
  Fixpoint mfill_firsts (terms : list ascii) (seq : slice) (res : mrow) : gmm mrow :=
    match terms with
    | [] => mdo (Ok res)
    | t :: terms' =>
        mm res' <- mfill_symbols t seq (sl_len seq) res;
        mfill_firsts terms' seq res'
    end.

  (** tablegen.go:323-380; [n] sequences are left *)
  Fixpoint mrow_loop (ruleIndex : nat) (seqs : slice) (n : nat) (res : mrow) : gmm mrow :=
    match n with
    | O => mdo (Ok res)
    | S n' =>
        mm seq <- rd gm_seqs seqs (sl_len seqs - n);
        mm seqFirsts <- msequenceFirsts seq;
        mm (res, seqFirsts) <-
          (if bs_contains seqFirsts EOS then
             mm seqFollows <- rd gm_sets follows ruleIndex;
             mm terms <- mdo (bs_range seqFollows);
             mm res' <- mfill_follows terms res;
             mdo (Ok (res', bs_remove seqFirsts EOS))
           else mdo (Ok (res, seqFirsts)));
        mm terms <- mdo (bs_range seqFirsts);
        mm res <- mfill_firsts terms seq res;
        mrow_loop ruleIndex seqs n' res
    end.

  (** tablegen.go:317-383 [makeTableRow] *)
  Definition mmakeTableRow (ruleIndex : nat) : gmm mrow :=
    mm rule <- rd gm_rules g ruleIndex;
    mrow_loop ruleIndex (snd rule) (sl_len (snd rule)) [].

  (** tablegen.go:385-396 [makeTable] *)
  Fixpoint mmakeTable_loop (idxs : list nat) (tbl : mtable) : gmm mtable :=
    match idxs with
    | [] => mdo (Ok tbl)
    | i :: idxs' =>
        mm r <- mmakeTableRow i;
        mmakeTable_loop idxs' (map_set Z.eqb (Z.of_nat i) r tbl)
    end.

  (** tablegen.go:398-411 [Run]; both loops get the same fuel *)
  Definition mRun (fuel : nat) : gmm mtable :=
    mm _ <- mfindFirsts fuel;
    mm _ <- mfindFollows fuel;
    mmakeTable_loop (seq 0 (sl_len g)) [].
End Gen.

(** tablegen.go:426-434 [make([]bs.ByteSet, n)], and the loop that fills it *)
Definition make_sets (n : nat) : gmm slice :=
  fun m => let (h, s) := heap_alloc (gm_sets m) (repeat (bs_new []) n) in (Ok s, set_gsets m h).

(** tablegen.go:413-455 [FromGrammar]; [order] is the iteration order of
    tablegen.go:450 *)
Definition mFromGrammar (grow : nat -> nat) (order : list (bytes * nat) -> list (bytes * nat))
    (fuel : nat) (g : slice) : gmm (mtable * list (Z * bytes)) :=
  mm ruleHeads <- mcollectRuleHeads g;
  let ruleCount := List.length ruleHeads in
  mm firsts <- make_sets ruleCount;
  mm follows <- make_sets ruleCount;
  let ruleMap := enumerate ruleHeads in
  mm tbl <- mRun grow g ruleCount ruleMap firsts follows fuel;
  mdo (Ok (tbl, rowNames_of (order ruleMap))).
