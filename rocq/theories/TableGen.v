(** * TableGen: model of pkg/bnf/tablegen/tablegen.go *)
From Verif Require Import Base ByteSet Ast Parser.

(** tablegen.go:12 [EOS] *)
Definition EOS : ascii := NUL.

(** Errors of the package. *)
Inductive tgerror : Type :=
| ENothingNotSingle                 (* tablegen.go:57-58 *)
| ENoRulesDefined (name : bytes)    (* tablegen.go:67, 165, 359 *)
| ERuleIndex                        (* tablegen.go:112 *)
| EEmptyTerminal                    (* tablegen.go:154 *)
| EUnknownSymbol                    (* tablegen.go:170 *)
| EEmptySequence                    (* tablegen.go:183 *)
| ERuleNum                          (* tablegen.go:278 *)
| ETargetRuleNum                    (* tablegen.go:282 *)
| EConflict.                        (* tablegen.go:339-340 *)

Definition tgres := gores tgerror.

(** [l[i]] with Go's bounds check *)
Definition index {A} (l : list A) (i : nat) : tgres A :=
  match nth_error l i with Some x => Ok x | None => Panic PanicIndex end.

(** [l[i] = x] for an index already read *)
Fixpoint upd {A} (l : list A) (i : nat) (x : A) : list A :=
  match l, i with
  | [], _ => []
  | _ :: l', O => x :: l'
  | y :: l', S i' => y :: upd l' i' x
  end.

(** tablegen.go:14-20 [collectRuleHeads] *)
Definition collectRuleHeads (g : grammar) : list bytes := map r_head g.

(** tablegen.go:25-31 [enumerate] *)
Fixpoint enumerate_from (i : nat) (arr : list bytes) (res : list (bytes * nat))
  : list (bytes * nat) :=
  match arr with
  | [] => res
  | s :: arr' => enumerate_from (S i) arr' (map_set bytes_eqb s i res)
  end.
Definition enumerate (arr : list bytes) : list (bytes * nat) := enumerate_from 0 arr [].

(** tablegen.go:33-35 [terminalFirsts]: [t.Name[0]] panics on an empty name *)
Definition terminalFirsts (name : bytes) : tgres ByteSet :=
  match name with
  | [] => Panic PanicIndex
  | c :: _ => Ok (bs_new [c])
  end.

Section Gen.
  (** tablegen.go:37-44 [tableGenerator]: grammar and ruleMap never change;
      firsts and follows are threaded through the functions below. *)
  Variable g : grammar.
  Variable ruleMap : list (bytes * nat).
  Definition ruleCount : nat := List.length (collectRuleHeads g).

  Definition rm_get (name : bytes) : option nat := map_get bytes_eqb name ruleMap.

  (** tablegen.go:46-93 [sequenceFirsts]; [total] is the length of the whole
      sequence, [found] is isEmptyStrFound. The Union copies, so removing EOS
      from [ruleFirsts] does not touch tg.firsts. *)
  Fixpoint sequenceFirsts_loop (firsts : list ByteSet) (total : nat)
      (symbols : list symbol) (res : ByteSet) (found : bool) : tgres ByteSet :=
    match symbols with
    | [] => Ok (if found then bs_add res EOS else res)
    | STerminal t :: _ => go f <- terminalFirsts t; Ok (bs_union res f)
    | SNothing :: _ =>
        if Nat.ltb 1 total then Err ENothingNotSingle else Ok (bs_add res EOS)
    | SNonTerminal v :: rest =>
        match rm_get v with
        | None => Err (ENoRulesDefined v)
        | Some ruleIndex =>
            go ruleFirsts <- index firsts ruleIndex;
            let found := bs_contains ruleFirsts EOS in
            let ruleFirsts := bs_remove ruleFirsts EOS in
            let res := bs_union res ruleFirsts in
            if negb found then Ok res
            else sequenceFirsts_loop firsts total rest res found
        end
    | SUnknown _ :: _ => Panic PanicUnknownSymbol
    end.
  Definition sequenceFirsts (firsts : list ByteSet) (seq : sequence) : tgres ByteSet :=
    sequenceFirsts_loop firsts (List.length seq) seq (bs_new []) true.

  (** tablegen.go:95-107 [substitutuionFirsts] *)
  Fixpoint substitutionFirsts_loop (firsts : list ByteSet)
      (seqs : substitution) (res : ByteSet) : tgres ByteSet :=
    match seqs with
    | [] => Ok res
    | seq :: seqs' =>
        go seqFirsts <- sequenceFirsts firsts seq;
        substitutionFirsts_loop firsts seqs' (bs_union res seqFirsts)
    end.
  Definition substitutionFirsts (firsts : list ByteSet) (s : substitution) :=
    substitutionFirsts_loop firsts s (bs_new []).

  (** tablegen.go:109-129 [ruleFirsts]: new firsts and firstsChanged *)
  Definition ruleFirsts (ruleIndex : nat) (firsts : list ByteSet) (changed : bool)
    : tgres (list ByteSet * bool) :=
    if Nat.leb ruleCount ruleIndex then Err ERuleIndex
    else
      go r <- index g ruleIndex;
      go tempRes <- substitutionFirsts firsts (r_tail r);
      go f <- index firsts ruleIndex;
      if bs_is_superset f tempRes then Ok (firsts, changed)
      else Ok (upd firsts ruleIndex (bs_union f tempRes), true).

  (** tablegen.go:136-141 one round over all rules *)
  Fixpoint firsts_round (idxs : list nat) (firsts : list ByteSet) (changed : bool)
    : tgres (list ByteSet * bool) :=
    match idxs with
    | [] => Ok (firsts, changed)
    | i :: idxs' =>
        go (firsts', changed') <- ruleFirsts i firsts changed;
        firsts_round idxs' firsts' changed'
    end.

  (** tablegen.go:131-144 [findFirsts] *)
  Fixpoint findFirsts (fuel : nat) (firsts : list ByteSet) : tgres (list ByteSet) :=
    match fuel with
    | O => NoFuel
    | S fuel' =>
        go (firsts', changed) <- firsts_round (seq 0 (List.length g)) firsts false;
        if changed then findFirsts fuel' firsts' else Ok firsts'
    end.

  (** tablegen.go:149-172 [symbolFirsts] *)
  Definition symbolFirsts (firsts : list ByteSet) (s : symbol) : tgres ByteSet :=
    match s with
    | STerminal t =>
        if Nat.eqb (List.length t) 0 then Err EEmptyTerminal else terminalFirsts t
    | SNothing => Ok (bs_new [EOS])
    | SNonTerminal v =>
        match rm_get v with
        | None => Err (ENoRulesDefined v)
        | Some ruleIndex => index firsts ruleIndex
        end
    | SUnknown _ => Err EUnknownSymbol
    end.

  (** [symbol.(bnf.SymbolNonTerminal)] and its name equal to [name] *)
  Definition is_nonterminal_named (s : symbol) (name : bytes) : bool :=
    match s with
    | SNonTerminal v => bytes_eqb v name
    | _ => false
    end.

  (** tablegen.go:209-214 and 253-258: add [extra] to follows[ruleIndex] unless
      it is already included; [None] when nothing is new. *)
  Definition add_follows (follows : list ByteSet) (ruleIndex : nat) (extra : ByteSet)
    : tgres (option (list ByteSet)) :=
    go f <- index follows ruleIndex;
    if bs_is_superset f extra then Ok None
    else Ok (Some (upd follows ruleIndex (bs_union f extra))).

  (** tablegen.go:219-268: i runs from symbolsLen-2 down to 0 *)
  Fixpoint follows_inner (ruleIndex : nat) (seq : sequence) (sequenceRuleIndex : nat)
      (firsts : list ByteSet) (i : nat) (follows : list ByteSet) (changed : bool)
    : tgres (list ByteSet * bool) :=
    (* processes positions i-1, i-2, ..., 0 *)
    match i with
    | O => Ok (follows, changed)
    | S i' =>
        go sym <- index seq i';
        go r <- index g ruleIndex;
        if negb (is_nonterminal_named sym (r_head r)) then
          follows_inner ruleIndex seq sequenceRuleIndex firsts i' follows changed
        else
          go next <- index seq (S i');
          go nextFirsts <- symbolFirsts firsts next;
          go (follows, changed) <-
            (if bs_contains nextFirsts EOS && negb (Nat.eqb ruleIndex sequenceRuleIndex) then
               go ruleFollows <- index follows sequenceRuleIndex;
               go added <- add_follows follows ruleIndex ruleFollows;
               match added with
               | None => Ok (follows, changed)
               | Some follows' => Ok (follows', true)
               end
             else Ok (follows, changed));
          let nextFirsts := bs_remove nextFirsts EOS in
          go added <- add_follows follows ruleIndex nextFirsts;
          match added with
          | None => follows_inner ruleIndex seq sequenceRuleIndex firsts i' follows changed
          | Some follows' =>
              follows_inner ruleIndex seq sequenceRuleIndex firsts i' follows' true
          end
    end.

  (** tablegen.go:174-271 [ruleFollowsInSequence] *)
  Definition ruleFollowsInSequence (ruleIndex : nat) (seq : sequence)
      (sequenceRuleIndex : nat) (firsts follows : list ByteSet) (changed : bool)
    : tgres (list ByteSet * bool) :=
    let symbolsLen := List.length seq in
    if Nat.eqb symbolsLen 0 then Err EEmptySequence
    else
      let rest := follows_inner ruleIndex seq sequenceRuleIndex firsts (symbolsLen - 1) in
      (* tablegen.go:190-216: last symbol; a change returns at once *)
      if negb (Nat.eqb ruleIndex sequenceRuleIndex) then
        go symbol <- index seq (symbolsLen - 1);
        go r <- index g ruleIndex;
        if is_nonterminal_named symbol (r_head r) then
          go ruleFollows <- index follows sequenceRuleIndex;
          go added <- add_follows follows ruleIndex ruleFollows;
          match added with
          | None => rest follows changed
          | Some follows' => Ok (follows', true)
          end
        else rest follows changed
      else rest follows changed.

  (** tablegen.go:285-291 *)
  Fixpoint follows_sequences (ruleIndex : nat) (seqs : substitution)
      (againstRuleIndex : nat) (firsts follows : list ByteSet) (changed : bool)
    : tgres (list ByteSet * bool) :=
    match seqs with
    | [] => Ok (follows, changed)
    | seq :: seqs' =>
        go (follows', changed') <-
          ruleFollowsInSequence ruleIndex seq againstRuleIndex firsts follows changed;
        follows_sequences ruleIndex seqs' againstRuleIndex firsts follows' changed'
    end.

  (** tablegen.go:273-294 [ruleFollowsInRule] *)
  Definition ruleFollowsInRule (ruleIndex againstRuleIndex : nat)
      (firsts follows : list ByteSet) (changed : bool) : tgres (list ByteSet * bool) :=
    if Nat.leb ruleCount ruleIndex then Err ERuleNum
    else if Nat.leb ruleCount againstRuleIndex then Err ETargetRuleNum
    else
      go r <- index g againstRuleIndex;
      follows_sequences ruleIndex (r_tail r) againstRuleIndex firsts follows changed.

  (** tablegen.go:304-312 one round: all pairs (ruleIndex, againstRuleIndex) *)
  Fixpoint follows_round (pairs : list (nat * nat)) (firsts follows : list ByteSet)
      (changed : bool) : tgres (list ByteSet * bool) :=
    match pairs with
    | [] => Ok (follows, changed)
    | (i, j) :: pairs' =>
        go (follows', changed') <- ruleFollowsInRule i j firsts follows changed;
        follows_round pairs' firsts follows' changed'
    end.
  Definition all_pairs : list (nat * nat) :=
    list_prod (seq 0 (List.length g)) (seq 0 (List.length g)).

  Fixpoint follows_loop (fuel : nat) (firsts follows : list ByteSet)
    : tgres (list ByteSet) :=
    match fuel with
    | O => NoFuel
    | S fuel' =>
        go (follows', changed) <- follows_round all_pairs firsts follows false;
        if changed then follows_loop fuel' firsts follows' else Ok follows'
    end.

  (** tablegen.go:296-315 [findFollows]; [tg.follows[0]] panics without rules *)
  Definition findFollows (fuel : nat) (firsts follows : list ByteSet)
    : tgres (list ByteSet) :=
    go f0 <- index follows 0;
    follows_loop fuel firsts (upd follows 0 (bs_add f0 EOS)).

  (** [range s.Bytes()] *)
  Definition bs_range (s : ByteSet) : tgres (list ascii) :=
    match bs_bytes s with Some l => Ok l | None => NoFuel end.

  (** tablegen.go:335-343 (for the Println of the occupied cell see TableGenOutput.v) *)
  Fixpoint fill_follows (terms : list ascii) (res : row) : tgres row :=
    match terms with
    | [] => Ok res
    | t :: terms' =>
        match row_get t res with
        | Some _ => Err EConflict
        | None => fill_follows terms' (map_set Ascii.eqb t [] res)
        end
    end.

  (** [append(res[b], op)]: a missing key reads as the nil slice *)
  Definition row_append (b : ascii) (op : ParserOp) (res : row) : row :=
    let cur := match row_get b res with Some l => l | None => [] end in
    map_set Ascii.eqb b (cur ++ [op]) res.

  (** tablegen.go:349-378 append the operands of all symbols to cell [term] *)
  Fixpoint fill_symbols (term : ascii) (symbols : list symbol) (res : row) : tgres row :=
    match symbols with
    | [] => Ok res
    | STerminal n :: rest => fill_symbols term rest (row_append term (OpTerminal n) res)
    | SNonTerminal n :: rest =>
        match rm_get n with
        | None => Err (ENoRulesDefined n)
        | Some ruleIndex =>
            fill_symbols term rest
              (row_append term (OpNonTerminal (Z.of_nat ruleIndex)) res)
        end
    | SNothing :: _ => Panic PanicNothingInSequence
    | SUnknown _ :: _ => Panic PanicUnknownSymbol
    end.

  (** tablegen.go:348-379 *)
  Fixpoint fill_firsts (terms : list ascii) (seq : sequence) (res : row) : tgres row :=
    match terms with
    | [] => Ok res
    | t :: terms' =>
        go res' <- fill_symbols t seq res;
        fill_firsts terms' seq res'
    end.

  (** tablegen.go:323-380: the loop over the alternatives of one rule *)
  Fixpoint row_loop (firsts : list ByteSet) (ruleFollows : ByteSet)
      (seqs : substitution) (res : row) : tgres row :=
    match seqs with
    | [] => Ok res
    | seq :: seqs' =>
        go seqFirsts <- sequenceFirsts firsts seq;
        go (res, seqFirsts) <-
          (if bs_contains seqFirsts EOS then
             go terms <- bs_range ruleFollows;
             go res' <- fill_follows terms res;
             Ok (res', bs_remove seqFirsts EOS)
           else Ok (res, seqFirsts));
        go terms <- bs_range seqFirsts;
        go res <- fill_firsts terms seq res;
        row_loop firsts ruleFollows seqs' res
    end.

  (** tablegen.go:317-383 [makeTableRow] *)
  Definition makeTableRow (firsts follows : list ByteSet) (ruleIndex : nat) : tgres row :=
    go rule <- index g ruleIndex;
    go ruleFollows <- index follows ruleIndex;
    row_loop firsts ruleFollows (r_tail rule) [].

  (** tablegen.go:385-396 [makeTable] *)
  Fixpoint makeTable_loop (firsts follows : list ByteSet) (idxs : list nat) (tbl : table)
    : tgres table :=
    match idxs with
    | [] => Ok tbl
    | i :: idxs' =>
        go r <- makeTableRow firsts follows i;
        makeTable_loop firsts follows idxs' (map_set Z.eqb (Z.of_nat i) r tbl)
    end.
  Definition makeTable (firsts follows : list ByteSet) : tgres table :=
    makeTable_loop firsts follows (seq 0 (List.length g)) [].

  (** tablegen.go:398-411 [Run]; both loops get the same fuel *)
  Definition Run (fuel : nat) (firsts follows : list ByteSet) : tgres table :=
    go firsts' <- findFirsts fuel firsts;
    go follows' <- findFollows fuel firsts' follows;
    makeTable firsts' follows'.
End Gen.

(** tablegen.go:449-452: [for k, v := range ruleMap { rowNames[v] = k }]. Go
    iterates in an unspecified order; [order] is the order it happens to use. *)
Definition rowNames_of (order : list (bytes * nat)) : list (Z * bytes) :=
  fold_left (fun m kv => map_set Z.eqb (Z.of_nat (snd kv)) (fst kv) m) order [].

(** tablegen.go:413-455 [FromGrammar], with the map iteration order as a
    parameter: a function choosing an order of the entries of ruleMap. *)
Definition FromGrammar_order (order : list (bytes * nat) -> list (bytes * nat))
    (fuel : nat) (g : grammar) : tgres (table * list (Z * bytes)) :=
  let ruleHeads := collectRuleHeads g in
  let ruleCount := List.length ruleHeads in
  let firsts := repeat (bs_new []) ruleCount in
  let follows := repeat (bs_new []) ruleCount in
  let ruleMap := enumerate ruleHeads in
  go tbl <- Run g ruleMap fuel firsts follows;
  Ok (tbl, rowNames_of (order ruleMap)).

Definition FromGrammar := FromGrammar_order (fun l => l).
