(** * ParserTime: Parse with a count of its loop rounds.

    parse and its helpers once more, as in Parser.v, each with the number of
    rounds of all [for] loops it goes through: the loop of parse itself, the
    loops that push operands and characters, and the loop that pops children.
    Reading the source is not counted, nor is what append copies (C106 bounds
    the arrays it copies to). *)
From Verif Require Import Base Cst Parser FromCstTime.

Section Step.
  Variable tbl : table.
  Variable src : bytes.
  Variable names : names_map.

  (** parser.go:259-261 and 305-307: one round per operand pushed *)
  Fixpoint push_rev_t (rev_ops stack : list ParserOp) : timed (list ParserOp) :=
    match rev_ops with
    | [] => (0, stack)
    | op :: rest => let (k, s) := push_rev_t rest (op :: stack) in (S k, s)
    end.
  Definition push_all_t (ops stack : list ParserOp) : timed (list ParserOp) := push_rev_t (rev ops) stack.

  (** parser.go:233-264 [processTableNonTerminal] *)
  Definition processTableNonTerminal_t (name : Z) (ops : list ParserOp)
      (prods : list node) (off : nat) : timed stepres :=
    match table_get name tbl with
    | None => (0, SReturn (ret_err (ENoRulesForNonTerminal (nodeTypeName names name))) names)
    | Some ruleMap =>
        match row_get (peek src off) ruleMap with
        | None => (0, SReturn (ret_err (ENoRulesForByte (peek src off) (nodeTypeName names name))) names)
        | Some opsToPush =>
            let (k, s) := push_all_t opsToPush (OpFunction name off (length opsToPush) :: ops) in
            (k, SNext (mkPS s prods off))
        end
    end.

  (** parser.go:292-298 [processNonTerminal]; 266-290 has no loop *)
  Definition processNonTerminal_t (name : Z) (ops : list ParserOp)
      (prods : list node) (off : nat) : timed stepres :=
    if (name <? 0)%Z then (0, processBuiltinNonTerminal src names name ops prods off)
    else processTableNonTerminal_t name ops prods off.

  (** parser.go:300-308 [processTerminal] *)
  Definition processTerminal_t (tValue : bytes) (ops : list ParserOp)
      (prods : list node) (off : nat) : timed stepres :=
    let (k, s) := push_all_t (map OpChar tValue) (OpFunction builtinTerminal off (length tValue) :: ops) in
    (k, SNext (mkPS s prods off)).

  (** parser.go:333-347 the loop of [processFunction]; the round that panics counts *)
  Fixpoint pop_childs_t (discard : bool) (amount : nat) (prods childs : list node)
    : timed (gores Empty_set (list node * list node)) :=
    match amount with
    | O => (0, Ok (childs, prods))
    | S amount' =>
        match prods with
        | [] => (1, Panic PanicPopEmpty)
        | n :: prods' =>
            if negb discard then
              let (k, r) := pop_childs_t discard amount' prods' (n :: childs) in (S k, r)
            else if negb (n_type n =? builtinTerminal)%Z then (1, Panic PanicCombineNonChars)
            else let (k, r) := pop_childs_t discard amount' prods' childs in (S k, r)
        end
    end.

  (** parser.go:310-350 [processFunction] *)
  Definition processFunction_t (name : Z) (pos amount : nat) (ops : list ParserOp)
      (prods : list node) (off : nat) : timed stepres :=
    let aPos := Z.of_nat off in
    if Nat.eqb amount 0 then
      (0, SNext (mkPS ops (Node name aPos aPos [Node builtinNothing aPos aPos []] :: prods) off))
    else
      let (k, r) := pop_childs_t (name =? builtinTerminal)%Z amount prods [] in
      (k, match r with
          | Ok (childs, prods') => SNext (mkPS ops (Node name (Z.of_nat pos) aPos childs :: prods') off)
          | Panic p => SPanic p
          | Err _ | NoFuel => SPanic PanicUnreachable (* never returned *)
          end).

  (** parser.go:396-449 one iteration of the loop; processEOS and processChar
      have no loops *)
  Definition step_t (st : pstate) : timed stepres :=
    match ps_ops st with
    | [] => (0, SPanic PanicUnreachable)
    | op :: ops =>
        match op with
        | OpNonTerminal name => processNonTerminal_t name ops (ps_prods st) (ps_off st)
        | OpTerminal v => processTerminal_t v ops (ps_prods st) (ps_off st)
        | OpFunction name pos amount => processFunction_t name pos amount ops (ps_prods st) (ps_off st)
        | OpEOS => (0, processEOS src names (ps_prods st) (ps_off st))
        | OpChar c => (0, processChar src names c ops (ps_prods st) (ps_off st))
        | OpNil => (0, SPanic PanicNilOperand)
        | OpEmbedding e => (0, SPanic (embedding_panic e))
        end
    end.

  (** parser.go:391-452 [parse] *)
  Fixpoint run_t (fuel : nat) (st : pstate) : timed (gores Empty_set preturn * names_map) :=
    match fuel with
    | O => (0, (NoFuel, names))
    | S fuel' =>
        let (k, r) := step_t st in
        match r with
        | SNext st' => let (k', x) := run_t fuel' st' in (S (k + k'), x)
        | SReturn r names' => (S k, (Ok r, names'))
        | SPanic p => (S k, (Panic p, names))
        end
    end.
End Step.

(** parser.go:474-499 [Parse] *)
Definition Parse_t (fuel : nat) (p : ll1parser) (src : source) : timed parse_out :=
  match p_table p with
  | [] => (0, mkOut (Ok (ret_err EEmptyTable)) (p_names p) src)
  | _ :: _ =>
      match table_get 0 (p_table p) with
      | None => (0, mkOut (Ok (ret_err ENoBaseEntry)) (p_names p) src)
      | Some _ =>
          match readSource src with
          | (Ok text, src') =>
              let (k, x) := run_t (p_table p) text (p_names p) fuel init_state in
              (k, mkOut (fst x) (snd x) src')
          | (Err e, src') => (0, mkOut (Ok (ret_err e)) (p_names p) src')
          | (Panic q, src') => (0, mkOut (Panic q) (p_names p) src')
          | (NoFuel, src') => (0, mkOut NoFuel (p_names p) src')
          end
      end
  end.
