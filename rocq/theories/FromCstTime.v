(** * FromCstTime: ToAST with a count of the nodes it visits

    The functions of pkg/bnf/fromcst/fromcst.go once more, as in FromCst.v, each
    with the number of calls of [flexVisitor.Visit] (fromcst.go:21-36) it makes,
    also when it panics. The count is the number of steps of all its traversals;
    what happens between two visits (a binary search among the ignored types,
    a slice expression, a map lookup, an append) is not counted. *)
From Verif Require Import Base Cst Ast Parser FromCst.

(** A result with a count. *)
Definition timed (A : Type) : Type := nat * A.
Definition at_once {A} (x : A) : timed A := (0, x).
Definition tbind {E A B} (x : timed (gores E A)) (f : A -> timed (gores E B)) : timed (gores E B) :=
  match x with
  | (k, Ok a) => let (k', r) := f a in (k + k', r)
  | (k, Err e) => (k, Err e)
  | (k, Panic p) => (k, Panic p)
  | (k, NoFuel) => (k, NoFuel)
  end.
Definition tlift {A} (x : timed (gop A)) : timed (fcres A) := (fst x, lift (snd x)).
(** What a callback does with the result of a function it calls. *)
Definition on_result {A S} (x : timed (fcres A)) (ok : A -> S * option fcerror) (s : S)
  : timed (gop (S * option fcerror)) :=
  (fst x, match snd x with
          | Ok a => Ok (ok a)
          | Err e => Ok (s, Some e)
          | Panic p => Panic p
          | NoFuel => NoFuel
          end).

Definition callback_t (S : Type) := S -> node -> timed (gop (S * option fcerror)).

Section Traverse.
  Context {S : Type}.
  Variable isTypeIgnored : Z -> bool.
  Variable isSearchedType : Z -> bool.
  Variable fOnNode : callback_t S.

  (** fromcst.go:21-36 [flexVisitor.Visit] (one tick), called from cst.go:46-54 [Walk] *)
  Fixpoint walkFlex_t (st : S * option fcerror) (n : node) {struct n} : timed (gop (S * option fcerror)) :=
    match n with
    | Node t _ _ childs =>
        let (s, err) := st in
        tbind (1, Ok tt) (fun _ =>
          match err with
          | Some _ => (0, Ok st)
          | None =>
              if isTypeIgnored t then (0, Ok st)
              else if isSearchedType t then fOnNode s n
              else
                (fix each (st : S * option fcerror) (l : list node) {struct l} :=
                   match l with
                   | [] => (0, Ok st)
                   | c :: l' => tbind (walkFlex_t st c) (fun st' => each st' l')
                   end) st childs
          end)
    end.

  (** fromcst.go:45-60 [lrTraverse] *)
  Definition lrTraverse_t (root : node) (s : S) : timed (gop (S * option fcerror)) :=
    walkFlex_t (s, None) root.
End Traverse.

Section Convert.
  Variable b : bindings.
  Variable str : bytes.

  (** fromcst.go:105-121 [BNFCSTtoASTBindings.lrTraverse] *)
  Definition b_lrTraverse_t {S} (root : node) (untilType : Z) (f : callback_t S) (s : S)
    : timed (gop (S * option fcerror)) :=
    lrTraverse_t (isNodeIgnored (IgnoreNodeTypes b)) (fun t => (t =? untilType)%Z) f root s.

  (** fromcst.go:123-144 [parseEscape]; the callback [doOnEscapedChar] visits nothing *)
  Definition parseEscape_t (escSeq : node) : timed (fcres bytes) :=
    tbind (tlift (b_lrTraverse_t escSeq (EscapeCharacterType b) (fun s n => at_once (doOnEscapedChar b str s n)) []))
      (fun '(res, err) => at_once
        match err with
        | None => Err EEscapeNotFound
        | Some (ESearchComplete InEscape) => Ok res
        | Some e => Err e
        end).

  (** fromcst.go:150-162 [fOnNode] *)
  Definition fOnTerminalPart_t : callback_t bytes := fun sb n =>
    if (n_type n =? builtinTerminal)%Z then
      at_once (go s <- slice str (n_pos n) (n_end n); Ok (sb ++ s, None))
    else on_result (parseEscape_t n) (fun escape => (sb ++ escape, None)) sb.

  (** fromcst.go:147-171 [parseTerminalName] *)
  Definition parseTerminalName_t (symbol : node) : timed (fcres bytes) :=
    tbind (tlift (lrTraverse_t (fun _ => false) (fun n => (n =? 16)%Z || (n =? builtinTerminal)%Z)
                    fOnTerminalPart_t symbol []))
      (fun '(sb, err) => at_once match err with None => Ok sb | Some e => Err e end).

  (** fromcst.go:178-189 [doOnTerminalName] *)
  Definition doOnTerminalName_t : callback_t (option symbol) := fun res n =>
    on_result (parseTerminalName_t n)
      (fun name => if Nat.eqb (List.length name) 0
                   then (Some SNothing, Some (ESearchComplete InSymbol))
                   else (Some (STerminal name), Some (ESearchComplete InSymbol))) res.

  (** fromcst.go:191-199 the loop over SymbolTerminalTypes *)
  Fixpoint symbol_terminal_loop_t (types : list Z) (symbol_node : node) : timed (fcres (option symbol)) :=
    match types with
    | [] => at_once (Ok None)
    | t :: types' =>
        tbind (tlift (b_lrTraverse_t symbol_node t doOnTerminalName_t None))
          (fun '(res, err) =>
            match err with
            | Some (ESearchComplete InSymbol) => at_once (Ok res)
            | Some e => at_once (Err e)
            | None => symbol_terminal_loop_t types' symbol_node
            end)
    end.

  (** fromcst.go:173-213 [parseSymbol] *)
  Definition parseSymbol_t (symbol_node : node) : timed (fcres symbol) :=
    tbind (symbol_terminal_loop_t (SymbolTerminalTypes b) symbol_node)
      (fun found =>
        match found with
        | Some res => at_once (Ok res)
        | None =>
            tbind (tlift (b_lrTraverse_t symbol_node (SymbolNonTerminalType b)
                            (fun s n => at_once (doOnNonTerminalName str s n)) None))
              (fun '(res, err) => at_once
                match err, res with
                | Some (ESearchComplete InSymbol), Some res => Ok res
                | _, _ => symbol_type_error str symbol_node
                end)
        end).

  (** fromcst.go:215-233 [parseSequence] with [doOnSymbol] *)
  Definition parseSequence_t (seq_node : node) : timed (fcres sequence) :=
    tbind (tlift (b_lrTraverse_t seq_node (SequencesSymbolType b)
                    (fun symbols n => on_result (parseSymbol_t n) (fun s => (symbols ++ [s], None)) symbols) []))
      (fun '(res, err) => at_once match err with None => Ok res | Some e => Err e end).

  (** fromcst.go:235-255 [parseSubstitution] with [doOnSequence] *)
  Definition parseSubstitution_t (expression : node) : timed (fcres substitution) :=
    tbind (tlift (b_lrTraverse_t expression (ExpressionSequencesType b)
                    (fun seqs n => on_result (parseSequence_t n) (fun s => (seqs ++ [s], None)) seqs) []))
      (fun '(res, err) => at_once match err with None => Ok res | Some e => Err e end).

  (** fromcst.go:257-300 [parseRule] with [doOnHead], [doOnSubstitution] *)
  Definition parseRule_t (rule_node : node) : timed (fcres rule) :=
    tbind (tlift (b_lrTraverse_t rule_node (RuleHeadType b) (fun s n => at_once (doOnHead str s n)) []))
      (fun '(head, err) =>
        match err with
        | Some (ESearchComplete InRule) =>
            tbind (tlift (b_lrTraverse_t rule_node (RuleTailType b)
                     (fun tail n => on_result (parseSubstitution_t n) (fun s => (s, Some (ESearchComplete InRule))) tail) []))
              (fun '(tail, err) => at_once
                match err with
                | Some (ESearchComplete InRule) => Ok (mkRule head tail)
                | None => go text <- lift (nodeName rule_node str); Err (ENoRuleSubstitution text)
                | Some e => Err e
                end)
        | _ => at_once (go text <- lift (nodeName rule_node str); Err (ENoRuleName text))
        end).

  (** fromcst.go:306-323 body of [ToAST] after the sort, with [doOnRule] *)
  Definition ToAST_sorted_t (root : node) : timed (fcres grammar) :=
    tbind (tlift (b_lrTraverse_t root (RuleType b)
                    (fun rules n => on_result (parseRule_t n) (fun r => (rules ++ [r], None)) rules) []))
      (fun '(res, err) => at_once match err with None => Ok res | Some e => Err e end).
End Convert.

(** fromcst.go:302-324 [ToAST]: the number of visits, and the result. *)
Definition ToAST_timed (b : bindings) (root : node) (str : bytes) : nat * fcres grammar :=
  ToAST_sorted_t (sort_bindings b) str root.
