(** * FromCstDepth: Walk and ToAST with the depth of their recursion

    The functions of pkg/bnf/fromcst/fromcst.go once more, as in FromCst.v, each
    with the largest number of calls of [cst.Walk] (cst.go:46-54) that are active
    at the same time, also when it panics. [Walk] is the only function of the
    two packages that calls itself, directly or (through [Visit] and the
    callbacks) indirectly; between two of its calls there are at most six
    others, so that its calls measure the stack. *)
From Verif Require Import Base Cst Ast Parser FromCst.

(** A result with the depth that was reached on the way. *)
Definition deep (A : Type) : Type := nat * A.
Definition at_once {A} (x : A) : deep A := (0, x).
(** One behind the other. *)
Definition dbind {E A B} (x : deep (gores E A)) (f : A -> deep (gores E B)) : deep (gores E B) :=
  match x with
  | (k, Ok a) => let (k', r) := f a in (Nat.max k k', r)
  | (k, Err e) => (k, Err e)
  | (k, Panic p) => (k, Panic p)
  | (k, NoFuel) => (k, NoFuel)
  end.
(** Inside one more call. *)
Definition enter {A} (x : deep A) : deep A := (S (fst x), snd x).
Definition dlift {A} (x : deep (gop A)) : deep (fcres A) := (fst x, lift (snd x)).
(** What a callback does with the result of a function it calls. *)
Definition on_result {A S} (x : deep (fcres A)) (ok : A -> S * option fcerror) (s : S)
  : deep (gop (S * option fcerror)) :=
  (fst x, match snd x with
          | Ok a => Ok (ok a)
          | Err e => Ok (s, Some e)
          | Panic p => Panic p
          | NoFuel => NoFuel
          end).

(** cst.go:46-54 [Walk] with any visitor whose [Visit] does not call [Walk]. *)
Section Walk.
  Context {V S : Type}.
  Variable visit : V -> S -> node -> gores Empty_set (S * option V).

  Fixpoint walk_d (v : V) (s : S) (n : node) {struct n} : deep (gores Empty_set S) :=
    match n with
    | Node _ _ _ childs =>
        enter
          match visit v s n with
          | Ok (s1, None) => (0, Ok s1)
          | Ok (s1, Some w) =>
              (fix each (s : S) (l : list node) {struct l} :=
                 match l with
                 | [] => (0, Ok s)
                 | c :: l' => dbind (walk_d w s c) (fun s' => each s' l')
                 end) s1 childs
          | Err e => (0, Err e)
          | Panic p => (0, Panic p)
          | NoFuel => (0, NoFuel)
          end
    end.
End Walk.

Definition callback_d (S : Type) := S -> node -> deep (gop (S * option fcerror)).

Section Traverse.
  Context {S : Type}.
  Variable isTypeIgnored : Z -> bool.
  Variable isSearchedType : Z -> bool.
  Variable fOnNode : callback_d S.

  (** fromcst.go:21-36 [flexVisitor.Visit], called from cst.go:46-54 [Walk], which is entered *)
  Fixpoint walkFlex_d (st : S * option fcerror) (n : node) {struct n} : deep (gop (S * option fcerror)) :=
    match n with
    | Node t _ _ childs =>
        let (s, err) := st in
        enter (
          match err with
          | Some _ => (0, Ok st)
          | None =>
              if isTypeIgnored t then (0, Ok st)
              else if isSearchedType t then fOnNode s n
              else
                (fix each (st : S * option fcerror) (l : list node) {struct l} :=
                   match l with
                   | [] => (0, Ok st)
                   | c :: l' => dbind (walkFlex_d st c) (fun st' => each st' l')
                   end) st childs
          end)
    end.

  (** fromcst.go:45-60 [lrTraverse] *)
  Definition lrTraverse_d (root : node) (s : S) : deep (gop (S * option fcerror)) :=
    walkFlex_d (s, None) root.
End Traverse.

Section Convert.
  Variable b : bindings.
  Variable str : bytes.

  (** fromcst.go:105-121 [BNFCSTtoASTBindings.lrTraverse] *)
  Definition b_lrTraverse_d {S} (root : node) (untilType : Z) (f : callback_d S) (s : S)
    : deep (gop (S * option fcerror)) :=
    lrTraverse_d (isNodeIgnored (IgnoreNodeTypes b)) (fun t => (t =? untilType)%Z) f root s.

  (** fromcst.go:123-144 [parseEscape]; the callback [doOnEscapedChar] does not recurse *)
  Definition parseEscape_d (escSeq : node) : deep (fcres bytes) :=
    dbind (dlift (b_lrTraverse_d escSeq (EscapeCharacterType b) (fun s n => at_once (doOnEscapedChar b str s n)) []))
      (fun '(res, err) => at_once
        match err with
        | None => Err EEscapeNotFound
        | Some (ESearchComplete InEscape) => Ok res
        | Some e => Err e
        end).

  (** fromcst.go:150-162 [fOnNode] *)
  Definition fOnTerminalPart_d : callback_d bytes := fun sb n =>
    if (n_type n =? builtinTerminal)%Z then
      at_once (go s <- slice str (n_pos n) (n_end n); Ok (sb ++ s, None))
    else on_result (parseEscape_d n) (fun escape => (sb ++ escape, None)) sb.

  (** fromcst.go:147-171 [parseTerminalName] *)
  Definition parseTerminalName_d (symbol : node) : deep (fcres bytes) :=
    dbind (dlift (lrTraverse_d (fun _ => false) (fun n => (n =? 16)%Z || (n =? builtinTerminal)%Z)
                    fOnTerminalPart_d symbol []))
      (fun '(sb, err) => at_once match err with None => Ok sb | Some e => Err e end).

  (** fromcst.go:178-189 [doOnTerminalName] *)
  Definition doOnTerminalName_d : callback_d (option symbol) := fun res n =>
    on_result (parseTerminalName_d n)
      (fun name => if Nat.eqb (List.length name) 0
                   then (Some SNothing, Some (ESearchComplete InSymbol))
                   else (Some (STerminal name), Some (ESearchComplete InSymbol))) res.

  (** fromcst.go:191-199 the loop over SymbolTerminalTypes *)
  Fixpoint symbol_terminal_loop_d (types : list Z) (symbol_node : node) : deep (fcres (option symbol)) :=
    match types with
    | [] => at_once (Ok None)
    | t :: types' =>
        dbind (dlift (b_lrTraverse_d symbol_node t doOnTerminalName_d None))
          (fun '(res, err) =>
            match err with
            | Some (ESearchComplete InSymbol) => at_once (Ok res)
            | Some e => at_once (Err e)
            | None => symbol_terminal_loop_d types' symbol_node
            end)
    end.

  (** fromcst.go:173-213 [parseSymbol] *)
  Definition parseSymbol_d (symbol_node : node) : deep (fcres symbol) :=
    dbind (symbol_terminal_loop_d (SymbolTerminalTypes b) symbol_node)
      (fun found =>
        match found with
        | Some res => at_once (Ok res)
        | None =>
            dbind (dlift (b_lrTraverse_d symbol_node (SymbolNonTerminalType b)
                            (fun s n => at_once (doOnNonTerminalName str s n)) None))
              (fun '(res, err) => at_once
                match err, res with
                | Some (ESearchComplete InSymbol), Some res => Ok res
                | _, _ => symbol_type_error str symbol_node
                end)
        end).

  (** fromcst.go:215-233 [parseSequence] with [doOnSymbol] *)
  Definition parseSequence_d (seq_node : node) : deep (fcres sequence) :=
    dbind (dlift (b_lrTraverse_d seq_node (SequencesSymbolType b)
                    (fun symbols n => on_result (parseSymbol_d n) (fun s => (symbols ++ [s], None)) symbols) []))
      (fun '(res, err) => at_once match err with None => Ok res | Some e => Err e end).

  (** fromcst.go:235-255 [parseSubstitution] with [doOnSequence] *)
  Definition parseSubstitution_d (expression : node) : deep (fcres substitution) :=
    dbind (dlift (b_lrTraverse_d expression (ExpressionSequencesType b)
                    (fun seqs n => on_result (parseSequence_d n) (fun s => (seqs ++ [s], None)) seqs) []))
      (fun '(res, err) => at_once match err with None => Ok res | Some e => Err e end).

  (** fromcst.go:257-300 [parseRule] with [doOnHead], [doOnSubstitution] *)
  Definition parseRule_d (rule_node : node) : deep (fcres rule) :=
    dbind (dlift (b_lrTraverse_d rule_node (RuleHeadType b) (fun s n => at_once (doOnHead str s n)) []))
      (fun '(head, err) =>
        match err with
        | Some (ESearchComplete InRule) =>
            dbind (dlift (b_lrTraverse_d rule_node (RuleTailType b)
                     (fun tail n => on_result (parseSubstitution_d n) (fun s => (s, Some (ESearchComplete InRule))) tail) []))
              (fun '(tail, err) => at_once
                match err with
                | Some (ESearchComplete InRule) => Ok (mkRule head tail)
                | None => go text <- lift (nodeName rule_node str); Err (ENoRuleSubstitution text)
                | Some e => Err e
                end)
        | _ => at_once (go text <- lift (nodeName rule_node str); Err (ENoRuleName text))
        end).

  (** fromcst.go:306-323 body of [ToAST] after the sort, with [doOnRule] *)
  Definition ToAST_sorted_d (root : node) : deep (fcres grammar) :=
    dbind (dlift (b_lrTraverse_d root (RuleType b)
                    (fun rules n => on_result (parseRule_d n) (fun r => (rules ++ [r], None)) rules) []))
      (fun '(res, err) => at_once match err with None => Ok res | Some e => Err e end).
End Convert.

(** fromcst.go:302-324 [ToAST]: the depth of recursion, and the result. *)
Definition ToAST_deep (b : bindings) (root : node) (str : bytes) : nat * fcres grammar :=
  ToAST_sorted_d (sort_bindings b) str root.
