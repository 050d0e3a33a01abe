(** * FromCstAny: ToAST on any implementation of Node

    FromCst.v models pkg/bnf/fromcst/fromcst.go on finite trees of NewNode
    values. Here a node is any value [N] with the four methods of cst.go:3-8.
    A method answers or panics (on a nil Node all four do). Simplification: the
    methods have no effects and always answer the same; methods with effects
    are treated for Walk only (WalkAny.v). The fuel bounds the length of the
    path from the root to the nodes that Walk is called on. *)
From Verif Require Import Base Cst Ast Parser FromCst.

Section Any.
  Context {N : Type}.
  (** cst.go:3-8 [Node] *)
  Variable typeOf posOf endOf : N -> gopanic + Z.
  Variable childsOf : N -> gopanic + list N.

  (** A call of a method. *)
  Definition call {A} (x : gopanic + A) : gop A :=
    match x with inl p => Panic p | inr a => Ok a end.

  (** The callback handed to the traversal, as in FromCst.v; it is also told how
      far it may go down from the node. *)
  Definition callback_any (S : Type) := nat -> S -> N -> gop (S * option fcerror).

  Section Traverse.
    Context {S : Type}.
    Variable isTypeIgnored : Z -> bool.
    Variable isSearchedType : Z -> bool.
    Variable fOnNode : callback_any S.

    (** fromcst.go:21-36 [flexVisitor.Visit], called from cst.go:46-54 [Walk] *)
    Fixpoint walkFlex (fuel : nat) (st : S * option fcerror) (n : N) {struct fuel}
      : gop (S * option fcerror) :=
      match fuel with
      | O => NoFuel
      | Datatypes.S fuel' =>
          let (s, err) := st in
          match err with
          | Some _ => Ok st
          | None =>
              go t <- call (typeOf n);
              if isTypeIgnored t then Ok st
              else if isSearchedType t then fOnNode fuel s n
              else
                go childs <- call (childsOf n);
                (fix each (st : S * option fcerror) (l : list N) {struct l} :=
                   match l with
                   | [] => Ok st
                   | c :: l' => go st' <- walkFlex fuel' st c; each st' l'
                   end) st childs
          end
      end.

    (** fromcst.go:45-60 [lrTraverse] *)
    Definition lrTraverse_any (fuel : nat) (root : N) (s : S) : gop (S * option fcerror) :=
      walkFlex fuel (s, None) root.
  End Traverse.

  (** fromcst.go:62-64 [nodeName] *)
  Definition nodeName_any (n : N) (str : bytes) : gop bytes :=
    go lo <- call (posOf n); go hi <- call (endOf n); slice str lo hi.

  Section Convert.
    Variable b : bindings.
    Variable str : bytes.

    (** fromcst.go:105-121 [BNFCSTtoASTBindings.lrTraverse] *)
    Definition b_lrTraverse_any {S} (fuel : nat) (root : N) (untilType : Z) (f : callback_any S) (s : S)
      : gop (S * option fcerror) :=
      lrTraverse_any (isNodeIgnored (IgnoreNodeTypes b)) (fun t => (t =? untilType)%Z) f fuel root s.

    (** fromcst.go:126-134 [doOnEscapedChar] *)
    Definition doOnEscapedChar_any : callback_any bytes := fun _ res escChar =>
      go escStr <- nodeName_any escChar str;
      match map_get bytes_eqb escStr (EscapeMapping b) with
      | None => Ok (res, Some (EUnknownEscape escStr))
      | Some resStr => Ok (resStr, Some (ESearchComplete InEscape))
      end.

    (** fromcst.go:123-144 [parseEscape] *)
    Definition parseEscape_any (fuel : nat) (escSeq : N) : fcres bytes :=
      go (res, err) <- lift (b_lrTraverse_any fuel escSeq (EscapeCharacterType b) doOnEscapedChar_any []);
      match err with
      | None => Err EEscapeNotFound
      | Some (ESearchComplete InEscape) => Ok res
      | Some e => Err e
      end.

    (** fromcst.go:150-162 [fOnNode] *)
    Definition fOnTerminalPart_any : callback_any bytes := fun fuel sb n =>
      go t <- call (typeOf n);
      if (t =? builtinTerminal)%Z then
        go s <- nodeName_any n str;
        Ok (sb ++ s, None)
      else
        match parseEscape_any fuel n with
        | Ok escape => Ok (sb ++ escape, None)
        | Err e => Ok (sb, Some e)
        | Panic p => Panic p
        | NoFuel => NoFuel
        end.

    (** fromcst.go:147-171 [parseTerminalName] *)
    Definition parseTerminalName_any (fuel : nat) (symbol : N) : fcres bytes :=
      go (sb, err) <- lift (lrTraverse_any (fun _ => false)
                              (fun n => (n =? 16)%Z || (n =? builtinTerminal)%Z)
                              fOnTerminalPart_any fuel symbol []);
      match err with None => Ok sb | Some e => Err e end.

    (** fromcst.go:178-189 [doOnTerminalName] *)
    Definition doOnTerminalName_any : callback_any (option symbol) := fun fuel res n =>
      match parseTerminalName_any fuel n with
      | Ok name =>
          if Nat.eqb (List.length name) 0
          then Ok (Some SNothing, Some (ESearchComplete InSymbol))
          else Ok (Some (STerminal name), Some (ESearchComplete InSymbol))
      | Err e => Ok (res, Some e)
      | Panic p => Panic p
      | NoFuel => NoFuel
      end.

    (** fromcst.go:191-199 the loop over SymbolTerminalTypes *)
    Fixpoint symbol_terminal_loop_any (fuel : nat) (types : list Z) (symbol_node : N)
      : fcres (option symbol) :=
      match types with
      | [] => Ok None
      | t :: types' =>
          go (res, err) <- lift (b_lrTraverse_any fuel symbol_node t doOnTerminalName_any None);
          match err with
          | Some (ESearchComplete InSymbol) => Ok res
          | Some e => Err e
          | None => symbol_terminal_loop_any fuel types' symbol_node
          end
      end.

    (** fromcst.go:201-204 [doOnNonTerminalName] *)
    Definition doOnNonTerminalName_any : callback_any (option symbol) := fun _ _ n =>
      go name <- nodeName_any n str;
      Ok (Some (SNonTerminal name), Some (ESearchComplete InSymbol)).

    (** fromcst.go:211 the error for an unrecognised symbol *)
    Definition symbol_type_error_any (symbol_node : N) : fcres symbol :=
      go text <- lift (nodeName_any symbol_node str); Err (ESymbolType text).

    (** fromcst.go:173-213 [parseSymbol] *)
    Definition parseSymbol_any (fuel : nat) (symbol_node : N) : fcres symbol :=
      go found <- symbol_terminal_loop_any fuel (SymbolTerminalTypes b) symbol_node;
      match found with
      | Some res => Ok res
      | None =>
          go (res, err) <-
            lift (b_lrTraverse_any fuel symbol_node (SymbolNonTerminalType b) doOnNonTerminalName_any None);
          match err, res with
          | Some (ESearchComplete InSymbol), Some res => Ok res
          | _, _ => symbol_type_error_any symbol_node
          end
      end.

    (** fromcst.go:219-226 [doOnSymbol] *)
    Definition doOnSymbol_any : callback_any sequence := fun fuel symbols n =>
      match parseSymbol_any fuel n with
      | Ok s => Ok (symbols ++ [s], None)
      | Err e => Ok (symbols, Some e)
      | Panic p => Panic p
      | NoFuel => NoFuel
      end.

    (** fromcst.go:215-233 [parseSequence] *)
    Definition parseSequence_any (fuel : nat) (seq_node : N) : fcres sequence :=
      go (res, err) <- lift (b_lrTraverse_any fuel seq_node (SequencesSymbolType b) doOnSymbol_any []);
      match err with None => Ok res | Some e => Err e end.

    (** fromcst.go:240-247 [doOnSequence] *)
    Definition doOnSequence_any : callback_any substitution := fun fuel seqs n =>
      match parseSequence_any fuel n with
      | Ok s => Ok (seqs ++ [s], None)
      | Err e => Ok (seqs, Some e)
      | Panic p => Panic p
      | NoFuel => NoFuel
      end.

    (** fromcst.go:235-255 [parseSubstitution] *)
    Definition parseSubstitution_any (fuel : nat) (expression : N) : fcres substitution :=
      go (res, err) <- lift (b_lrTraverse_any fuel expression (ExpressionSequencesType b) doOnSequence_any []);
      match err with None => Ok res | Some e => Err e end.

    (** fromcst.go:265-268 [doOnHead] *)
    Definition doOnHead_any : callback_any bytes := fun _ _ n =>
      go name <- nodeName_any n str;
      Ok (name, Some (ESearchComplete InRule)).

    (** fromcst.go:280-287 [doOnSubstitution] *)
    Definition doOnSubstitution_any : callback_any substitution := fun fuel tail n =>
      match parseSubstitution_any fuel n with
      | Ok s => Ok (s, Some (ESearchComplete InRule))
      | Err e => Ok (tail, Some e)
      | Panic p => Panic p
      | NoFuel => NoFuel
      end.

    (** fromcst.go:257-300 [parseRule] *)
    Definition parseRule_any (fuel : nat) (rule_node : N) : fcres rule :=
      go (head, err) <- lift (b_lrTraverse_any fuel rule_node (RuleHeadType b) doOnHead_any []);
      match err with
      | Some (ESearchComplete InRule) =>
          go (tail, err) <- lift (b_lrTraverse_any fuel rule_node (RuleTailType b) doOnSubstitution_any []);
          match err with
          | Some (ESearchComplete InRule) => Ok (mkRule head tail)
          | None => go text <- lift (nodeName_any rule_node str); Err (ENoRuleSubstitution text)
          | Some e => Err e
          end
      | _ => go text <- lift (nodeName_any rule_node str); Err (ENoRuleName text)
      end.

    (** fromcst.go:308-315 [doOnRule] *)
    Definition doOnRule_any : callback_any grammar := fun fuel rules n =>
      match parseRule_any fuel n with
      | Ok r => Ok (rules ++ [r], None)
      | Err e => Ok (rules, Some e)
      | Panic p => Panic p
      | NoFuel => NoFuel
      end.

    (** fromcst.go:306-323 body of [ToAST] after the sort *)
    Definition ToAST_any_sorted (fuel : nat) (root : N) : fcres grammar :=
      go (res, err) <- lift (b_lrTraverse_any fuel root (RuleType b) doOnRule_any []);
      match err with None => Ok res | Some e => Err e end.
  End Convert.

  (** fromcst.go:302-324 [ToAST] *)
  Definition ToAST_any (fuel : nat) (b : bindings) (root : N) (str : bytes) : fcres grammar :=
    ToAST_any_sorted (sort_bindings b) str fuel root.
End Any.
