(** * FromCstMem: pkg/bnf/fromcst/fromcst.go once more, with its memory.

    FromCst.v models the grammar under construction and IgnoreNodeTypes by
    lists. Here they are slices of arrays in memory (SliceMem.v). The functions
    that only compute strings (parseEscape, parseTerminalName, parseSymbol) are
    those of FromCst.v.
    The memory is also there when a call panics.
    Simplifications: the tree is a value (nothing here writes to trees), maps
    and SymbolTerminalTypes are values (they are only read). *)
From Verif Require Import Base Cst Ast FromCst SliceMem ParserMem TableGenMem.

(** The memory: that of the table generator, and the arrays of ints. *)
Record cmem := mkCM { cm_gm : gmem; cm_ints : heap Z }.

Definition set_gsyms (m : gmem) (h : heap symbol) : gmem :=
  mkGM (gm_mem m) h (gm_seqs m) (gm_rules m) (gm_sets m).
Definition set_gseqs (m : gmem) (h : heap slice) : gmem :=
  mkGM (gm_mem m) (gm_syms m) h (gm_rules m) (gm_sets m).
Definition set_grules (m : gmem) (h : heap mrule) : gmem :=
  mkGM (gm_mem m) (gm_syms m) (gm_seqs m) h (gm_sets m).

(** The zero values, which fill the spare capacity of arrays: a nil interface
    (never read; any value would do), a nil slice, a rule without anything. *)
Definition zero_symbol : symbol := SUnknown [].
Definition zero_rule : mrule := ([], nil_slice).

(** How a callback or a traversal ends: [Ok tt] is the nil error; [Err e] an
    error; [Panic p]: it has panicked. *)
Definition stop := gores fcerror unit.
(** The callback of a traversal: closure state [S] (with the memory). *)
Definition mcallback (S : Type) := S -> node -> S * stop.

Section Traverse.
  Context {S : Type}.
  Variable isTypeIgnored : Z -> bool.
  Variable isSearchedType : Z -> bool.
  Variable fOnNode : mcallback S.

  (** fromcst.go:14-36 [flexVisitor.Visit]; the state carries [*v.err]. A panic
      of the callback is recorded there too, and nothing is visited any more. *)
  Definition mflexVisit (_ : unit) (st : S * stop) (n : node) : gop ((S * stop) * option unit) :=
    match snd st with
    | Ok tt =>
        if isTypeIgnored (n_type n) then Ok (st, None)
        else if isSearchedType (n_type n) then Ok (fOnNode (fst st) n, None)
        else Ok (st, Some tt)
    | _ => Ok (st, None)
    end.

  (** fromcst.go:45-60 [lrTraverse]. (The visitor does not panic: the second
      case does not occur.) *)
  Definition mlrTraverse (root : node) (s : S) : S * stop :=
    match walk mflexVisit tt (s, Ok tt) root with
    | Ok st => st
    | _ => (s, NoFuel)
    end.
End Traverse.

Section Convert.
  (** The runtime's choice of capacities. *)
  Variable grow : nat -> nat.
  Variable b : bindings.
  Variable str : bytes.

  (** fromcst.go:105-121 [BNFCSTtoASTBindings.lrTraverse] *)
  Definition mb_lrTraverse {S} (root : node) (untilType : Z) (f : mcallback S) (s : S) : S * stop :=
    mlrTraverse (isNodeIgnored (IgnoreNodeTypes b)) (fun t => (t =? untilType)%Z) f root s.

  (** fromcst.go:219-226 [doOnSymbol]; state: memory and res.Symbols *)
  Definition mdoOnSymbol : mcallback (gmem * slice) := fun st n =>
    let (m, symbols) := st in
    match parseSymbol b str n with
    | Ok s =>
        let (h, symbols) := slice_append zero_symbol grow (gm_syms m) symbols [s] in
        ((set_gsyms m h, symbols), Ok tt)
    | Err e => (st, Err e)
    | Panic p => (st, Panic p)
    | NoFuel => (st, NoFuel)
    end.

  (** fromcst.go:215-233 [parseSequence]: memory, res.Symbols and the error *)
  Definition mparseSequence (m : gmem) (seq_node : node) : (gmem * slice) * stop :=
    mb_lrTraverse seq_node (SequencesSymbolType b) mdoOnSymbol (m, nil_slice).

  (** fromcst.go:240-247 [doOnSequence]; state: memory and res.Sequences *)
  Definition mdoOnSequence : mcallback (gmem * slice) := fun st n =>
    let (m, seqs) := st in
    let '((m, s), err) := mparseSequence m n in
    match err with
    | Ok tt =>
        let (h, seqs) := slice_append nil_slice grow (gm_seqs m) seqs [s] in
        ((set_gseqs m h, seqs), Ok tt)
    | _ => ((m, seqs), err)
    end.

  (** fromcst.go:235-255 [parseSubstitution]: memory, res.Sequences, the error *)
  Definition mparseSubstitution (m : gmem) (expression : node) : (gmem * slice) * stop :=
    mb_lrTraverse expression (ExpressionSequencesType b) mdoOnSequence (m, nil_slice).

  (** fromcst.go:280-287 [doOnSubstitution]; state: memory and res.Tail *)
  Definition mdoOnSubstitution : mcallback (gmem * slice) := fun st n =>
    let (m, tail) := st in
    let '((m, s), err) := mparseSubstitution m n in
    match err with
    | Ok tt => ((m, s), Err (ESearchComplete InRule))
    | _ => ((m, tail), err)
    end.

  (** [fmt.Errorf(.., nodeName(rule, str))] *)
  Definition mfail (m : gmem) (rule_node : node) (e : bytes -> fcerror) : gmem * gores fcerror mrule :=
    (m, go text <- lift (nodeName rule_node str); Err (e text)).

  (** fromcst.go:257-300 [parseRule]: memory, and the rule or the error *)
  Definition mparseRule (m : gmem) (rule_node : node) : gmem * gores fcerror mrule :=
    match b_lrTraverse b rule_node (RuleHeadType b) (doOnHead str) [] with
    | Ok (head, Some (ESearchComplete InRule)) =>
        let '((m, tail), err) :=
          mb_lrTraverse rule_node (RuleTailType b) mdoOnSubstitution (m, nil_slice) in
        match err with
        | Err (ESearchComplete InRule) => (m, Ok (head, tail))
        | Ok tt => mfail m rule_node ENoRuleSubstitution
        | Err e => (m, Err e)
        | Panic p => (m, Panic p)
        | NoFuel => (m, NoFuel)
        end
    | Ok _ => mfail m rule_node ENoRuleName
    | Err e => match e with end
    | Panic p => (m, Panic p)
    | NoFuel => (m, NoFuel)
    end.

  (** fromcst.go:308-315 [doOnRule]; state: memory and res.Rules *)
  Definition mdoOnRule : mcallback (gmem * slice) := fun st n =>
    let (m, rules) := st in
    let (m, res) := mparseRule m n in
    match res with
    | Ok r =>
        let (h, rules) := slice_append zero_rule grow (gm_rules m) rules [r] in
        ((set_grules m h, rules), Ok tt)
    | Err e => ((m, rules), Err e)
    | Panic p => ((m, rules), Panic p)
    | NoFuel => ((m, rules), NoFuel)
    end.

  (** fromcst.go:306-323 body of [ToAST] after the sort *)
  Definition mToAST_sorted (m : gmem) (root : node) : (gmem * slice) * stop :=
    mb_lrTraverse root (RuleType b) mdoOnRule (m, nil_slice).
End Convert.

(** The bindings with the elements of a slice as IgnoreNodeTypes. *)
Definition bindings_at (h : heap Z) (ignore : slice) (b : bindings) : bindings :=
  mkBindings (slice_elems h ignore) (RuleType b) (RuleHeadType b)
    (RuleTailType b) (ExpressionSequencesType b) (SequencesSymbolType b)
    (SymbolTerminalTypes b) (SymbolNonTerminalType b) (EscapeCharacterType b)
    (EscapeMapping b).

(** fromcst.go:304 [sort.Sort(sort.IntSlice(b.IgnoreNodeTypes))], in place *)
Definition sort_in_place (h : heap Z) (s : slice) : heap Z :=
  heap_write_all h (sl_arr s) (sl_off s) (sort_ints (slice_elems h s)).

(** fromcst.go:302-324 [ToAST]; [ignore] is the slice IgnoreNodeTypes, the other
    fields are those of [b]. What the call returns (the grammar is its slice of
    rules; with an error it is nil), or that it panics, and the memory then. *)
Definition mToAST (grow : nat -> nat) (ignore : slice) (b : bindings) (m : cmem)
    (root : node) (str : bytes) : gores fcerror slice * cmem :=
  let h := sort_in_place (cm_ints m) ignore in
  let '((gm, rules), err) := mToAST_sorted grow (bindings_at h ignore b) str (cm_gm m) root in
  ((match err with
    | Ok tt => Ok rules
    | Err e => Err e
    | Panic p => Panic p
    | NoFuel => NoFuel
    end), mkCM gm h).
