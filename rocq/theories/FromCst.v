(** * FromCst: model of pkg/bnf/fromcst/fromcst.go *)
From Verif Require Import Base Cst Ast Parser.

(** The function that created a [searchComplete] sentinel. Go compares errors
    by identity; every call creates a fresh sentinel with errors.New and only
    ever compares its own. The three functions do not call themselves, so the
    creating function identifies the sentinel. *)
Inductive sentinel := InEscape | InSymbol | InRule.

(** Errors returned by the package. *)
Inductive fcerror : Type :=
| ESearchComplete (who : sentinel)       (* fromcst.go:125, 176, 263 *)
| EUnknownEscape (s : bytes)             (* fromcst.go:130 *)
| EEscapeNotFound                        (* fromcst.go:138 *)
| ESymbolType (text : bytes)             (* fromcst.go:211 *)
| ENoRuleName (text : bytes)             (* fromcst.go:276 *)
| ENoRuleSubstitution (text : bytes).    (* fromcst.go:292 *)

(** Calls that may panic but have no error result of their own. *)
Definition gop := gores Empty_set.
(** Go's "(value, error)" results of this package. *)
Definition fcres := gores fcerror.

(** Turn a panicking call into one that may also return errors. *)
Definition lift {A} (x : gop A) : fcres A :=
  match x with
  | Ok a => Ok a
  | Err e => match e with end
  | Panic p => Panic p
  | NoFuel => NoFuel
  end.

(** The callback handed to the traversal: closure state [S], returning the new
    state and a possibly nil error. *)
Definition callback (S : Type) := S -> node -> gop (S * option fcerror).

Section Traverse.
  Context {S : Type}.
  Variable isTypeIgnored : Z -> bool.
  Variable isSearchedType : Z -> bool.
  Variable fOnNode : callback S.

  (** fromcst.go:14-36 [flexVisitor.Visit]; the state carries [*v.err]. The
      visitor returns itself or nil, so the visitor type is [unit]. *)
  Definition flexVisit (_ : unit) (st : S * option fcerror) (n : node)
    : gop ((S * option fcerror) * option unit) :=
    let (s, err) := st in
    match err with
    | Some _ => Ok (st, None)
    | None =>
        if isTypeIgnored (n_type n) then Ok (st, None)
        else if isSearchedType (n_type n) then
          go st' <- fOnNode s n; Ok (st', None)
        else Ok (st, Some tt)
    end.

  (** fromcst.go:45-60 [lrTraverse] *)
  Definition lrTraverse (root : node) (s : S) : gop (S * option fcerror) :=
    walk flexVisit tt (s, None) root.
End Traverse.

(** [str[lo:hi]] with Go's bounds check. *)
Definition slice (str : bytes) (lo hi : Z) : gop bytes :=
  if ((0 <=? lo) && (lo <=? hi) && (hi <=? Z.of_nat (List.length str)))%Z then
    Ok (firstn (Z.to_nat (hi - lo)) (skipn (Z.to_nat lo) str))
  else Panic PanicSlice.

(** fromcst.go:62-64 [nodeName] *)
Definition nodeName (n : node) (str : bytes) : gop bytes := slice str (n_pos n) (n_end n).

(** fromcst.go:66-97 [BNFCSTtoASTBindings] *)
Record bindings := mkBindings {
  IgnoreNodeTypes : list Z;
  RuleType : Z;
  RuleHeadType : Z;
  RuleTailType : Z;
  ExpressionSequencesType : Z;
  SequencesSymbolType : Z;
  SymbolTerminalTypes : list Z;
  SymbolNonTerminalType : Z;
  EscapeCharacterType : Z;
  EscapeMapping : list (bytes * bytes) }.

(** sort.SearchInts (Go standard library): binary search for the first index
    whose element is >= x. The interval [i, j) shrinks in every round, so
    [fuel = length] rounds always suffice (the [O] branch is not reached). *)
Fixpoint search_loop (a : list Z) (x : Z) (fuel i j : nat) : nat :=
  if Nat.ltb i j then
    match fuel with
    | O => i
    | S fuel' =>
        let h := Nat.div (i + j) 2 in
        if negb (x <=? nth h a 0)%Z then search_loop a x fuel' (S h) j
        else search_loop a x fuel' i h
    end
  else i.
Definition SearchInts (a : list Z) (x : Z) : nat :=
  search_loop a x (List.length a) 0 (List.length a).

(** sort.Sort(sort.IntSlice(..)): sorting integers has one possible result;
    insertion sort computes it. *)
Fixpoint insert_sorted (x : Z) (l : list Z) : list Z :=
  match l with
  | [] => [x]
  | y :: l' => if (x <=? y)%Z then x :: l else y :: insert_sorted x l'
  end.
Definition sort_ints (l : list Z) : list Z := fold_right insert_sorted [] l.

(** fromcst.go:110-114 [isNodeIgnored] *)
Definition isNodeIgnored (ignore : list Z) (nodeType : Z) : bool :=
  let sr := SearchInts ignore nodeType in
  Nat.ltb sr (List.length ignore) && (nth sr ignore 0 =? nodeType)%Z.

Section Convert.
  Variable b : bindings.
  Variable str : bytes.

  (** fromcst.go:105-121 [BNFCSTtoASTBindings.lrTraverse] *)
  Definition b_lrTraverse {S} (root : node) (untilType : Z) (f : callback S) (s : S)
    : gop (S * option fcerror) :=
    lrTraverse (isNodeIgnored (IgnoreNodeTypes b)) (fun t => (t =? untilType)%Z) f root s.

  (** fromcst.go:126-134 [doOnEscapedChar]; state: res *)
  Definition doOnEscapedChar : callback bytes := fun res escChar =>
    go escStr <- slice str (n_pos escChar) (n_end escChar);
    match map_get bytes_eqb escStr (EscapeMapping b) with
    | None => Ok (res, Some (EUnknownEscape escStr))
    | Some resStr => Ok (resStr, Some (ESearchComplete InEscape))
    end.

  (** fromcst.go:123-144 [parseEscape] *)
  Definition parseEscape (escSeq : node) : fcres bytes :=
    go (res, err) <- lift (b_lrTraverse escSeq (EscapeCharacterType b) doOnEscapedChar []);
    match err with
    | None => Err EEscapeNotFound
    | Some (ESearchComplete InEscape) => Ok res
    | Some e => Err e
    end.

  (** fromcst.go:150-162 [fOnNode]; state: the string builder *)
  Definition fOnTerminalPart : callback bytes := fun sb n =>
    if (n_type n =? builtinTerminal)%Z then
      go s <- slice str (n_pos n) (n_end n);
      Ok (sb ++ s, None)
    else
      match parseEscape n with
      | Ok escape => Ok (sb ++ escape, None)
      | Err e => Ok (sb, Some e)
      | Panic p => Panic p
      | NoFuel => NoFuel
      end.

  (** fromcst.go:147-171 [parseTerminalName]; node type 16 is a literal in the
      Go code *)
  Definition parseTerminalName (symbol : node) : fcres bytes :=
    go (sb, err) <- lift (lrTraverse (fun _ => false)
                            (fun n => (n =? 16)%Z || (n =? builtinTerminal)%Z)
                            fOnTerminalPart symbol []);
    match err with None => Ok sb | Some e => Err e end.

  (** fromcst.go:178-189 [doOnTerminalName]; state: res (nil initially) *)
  Definition doOnTerminalName : callback (option symbol) := fun res n =>
    match parseTerminalName n with
    | Ok name =>
        if Nat.eqb (List.length name) 0
        then Ok (Some SNothing, Some (ESearchComplete InSymbol))
        else Ok (Some (STerminal name), Some (ESearchComplete InSymbol))
    | Err e => Ok (res, Some e)
    | Panic p => Panic p
    | NoFuel => NoFuel
    end.

  (** fromcst.go:191-199 the loop over SymbolTerminalTypes; [Some] when the
      search completed *)
  Fixpoint symbol_terminal_loop (types : list Z) (symbol_node : node)
    : fcres (option symbol) :=
    match types with
    | [] => Ok None
    | t :: types' =>
        go (res, err) <- lift (b_lrTraverse symbol_node t doOnTerminalName None);
        match err with
        | Some (ESearchComplete InSymbol) => Ok res
        | Some e => Err e
        | None => symbol_terminal_loop types' symbol_node
        end
    end.

  (** fromcst.go:201-204 [doOnNonTerminalName] *)
  Definition doOnNonTerminalName : callback (option symbol) := fun _ n =>
    go name <- nodeName n str;
    Ok (Some (SNonTerminal name), Some (ESearchComplete InSymbol)).

  (** fromcst.go:211 the error for an unrecognised symbol (its text is sliced) *)
  Definition symbol_type_error (symbol_node : node) : fcres symbol :=
    go text <- lift (nodeName symbol_node str); Err (ESymbolType text).

  (** fromcst.go:173-213 [parseSymbol] *)
  Definition parseSymbol (symbol_node : node) : fcres symbol :=
    go found <- symbol_terminal_loop (SymbolTerminalTypes b) symbol_node;
    match found with
    | Some res => Ok res
    | None =>
        go (res, err) <-
          lift (b_lrTraverse symbol_node (SymbolNonTerminalType b) doOnNonTerminalName None);
        match err, res with
        | Some (ESearchComplete InSymbol), Some res => Ok res
        | _, _ => symbol_type_error symbol_node
        end
    end.

  (** fromcst.go:219-226 [doOnSymbol]; state: res.Symbols *)
  Definition doOnSymbol : callback sequence := fun symbols n =>
    match parseSymbol n with
    | Ok s => Ok (symbols ++ [s], None)
    | Err e => Ok (symbols, Some e)
    | Panic p => Panic p
    | NoFuel => NoFuel
    end.

  (** fromcst.go:215-233 [parseSequence] *)
  Definition parseSequence (seq_node : node) : fcres sequence :=
    go (res, err) <- lift (b_lrTraverse seq_node (SequencesSymbolType b) doOnSymbol []);
    match err with None => Ok res | Some e => Err e end.

  (** fromcst.go:240-247 [doOnSequence] *)
  Definition doOnSequence : callback substitution := fun seqs n =>
    match parseSequence n with
    | Ok s => Ok (seqs ++ [s], None)
    | Err e => Ok (seqs, Some e)
    | Panic p => Panic p
    | NoFuel => NoFuel
    end.

  (** fromcst.go:235-255 [parseSubstitution] *)
  Definition parseSubstitution (expression : node) : fcres substitution :=
    go (res, err) <- lift (b_lrTraverse expression (ExpressionSequencesType b) doOnSequence []);
    match err with None => Ok res | Some e => Err e end.

  (** fromcst.go:265-268 [doOnHead]; state: res.Head.Name *)
  Definition doOnHead : callback bytes := fun _ n =>
    go name <- nodeName n str;
    Ok (name, Some (ESearchComplete InRule)).

  (** fromcst.go:280-287 [doOnSubstitution]; state: res.Tail *)
  Definition doOnSubstitution : callback substitution := fun tail n =>
    match parseSubstitution n with
    | Ok s => Ok (s, Some (ESearchComplete InRule))
    | Err e => Ok (tail, Some e)
    | Panic p => Panic p
    | NoFuel => NoFuel
    end.

  (** fromcst.go:257-300 [parseRule] *)
  Definition parseRule (rule_node : node) : fcres rule :=
    go (head, err) <- lift (b_lrTraverse rule_node (RuleHeadType b) doOnHead []);
    match err with
    | Some (ESearchComplete InRule) =>
        go (tail, err) <- lift (b_lrTraverse rule_node (RuleTailType b) doOnSubstitution []);
        match err with
        | Some (ESearchComplete InRule) => Ok (mkRule head tail)
        | None => go text <- lift (nodeName rule_node str); Err (ENoRuleSubstitution text)
        | Some e => Err e
        end
    | _ => go text <- lift (nodeName rule_node str); Err (ENoRuleName text)
    end.

  (** fromcst.go:308-315 [doOnRule]; state: res.Rules *)
  Definition doOnRule : callback grammar := fun rules n =>
    match parseRule n with
    | Ok r => Ok (rules ++ [r], None)
    | Err e => Ok (rules, Some e)
    | Panic p => Panic p
    | NoFuel => NoFuel
    end.

  (** fromcst.go:306-323 body of [ToAST] after the sort *)
  Definition ToAST_sorted (root : node) : fcres grammar :=
    go (res, err) <- lift (b_lrTraverse root (RuleType b) doOnRule []);
    match err with None => Ok res | Some e => Err e end.
End Convert.

(** fromcst.go:304: the bindings after the in-place sort. [b] is a value
    receiver, but its IgnoreNodeTypes slice is shared with the caller, who sees
    it sorted afterwards. *)
Definition sort_bindings (b : bindings) : bindings :=
  mkBindings (sort_ints (IgnoreNodeTypes b)) (RuleType b) (RuleHeadType b)
    (RuleTailType b) (ExpressionSequencesType b) (SequencesSymbolType b)
    (SymbolTerminalTypes b) (SymbolNonTerminalType b) (EscapeCharacterType b)
    (EscapeMapping b).

(** fromcst.go:302-324 [ToAST] *)
Definition ToAST (b : bindings) (root : node) (str : bytes) : fcres grammar :=
  ToAST_sorted (sort_bindings b) str root.

(** fromcst.go:326-345 [SelfCSTtoASTBindings] *)
Definition SelfCSTtoASTBindings : bindings :=
  {| IgnoreNodeTypes := [25%Z];
     RuleType := 4; RuleHeadType := 18; RuleTailType := 5;
     ExpressionSequencesType := 7; SequencesSymbolType := 9;
     SymbolTerminalTypes := [11%Z; 12%Z];
     SymbolNonTerminalType := 18; EscapeCharacterType := 17;
     EscapeMapping :=
       [(s2b "t", [TAB]); (s2b "n", [LF]); (s2b "r", [CR]);
        ([DQ], [DQ]); ([BSL], [BSL])] |}.
