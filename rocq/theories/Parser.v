(** * Parser: model of pkg/parser/parser.go (and interface.go) *)
From Verif Require Import Base Cst.

(** parser.go:21-26,30 built-in node types: [builtinNothing] = iota-2 = -2,
    [builtinTerminal] = -1; [BuiltinTerminal] is the exported alias. *)
Definition builtinNothing : Z := (-2)%Z.
Definition builtinTerminal : Z := (-1)%Z.

(** parser.go:33-130 [ParserOp] and its five implementations.  Only
    [OpNonTerminal] and [OpTerminal] have exported constructors; [OpNil] is the
    nil interface value, which a table built by hand may contain.  It may also
    contain values of a struct type of the caller's in which a [ParserOp] is
    embedded (at any depth): they have its method [parserOpType] but not its
    type.  Only a value of an exported constructor or nil can be embedded. *)
Inductive embedded : Type :=
| EmbNonTerminal (name : Z)
| EmbTerminal (value : bytes)
| EmbNil.
Inductive ParserOp : Type :=
| OpNonTerminal (name : Z)                    (* parser.go:37-51 *)
| OpTerminal (value : bytes)                  (* parser.go:54-68 *)
| OpFunction (name : Z) (pos amount : nat)    (* parser.go:71-99 *)
| OpEOS                                       (* parser.go:102-111 *)
| OpChar (value : ascii)                      (* parser.go:114-130 *)
| OpNil
| OpEmbedding (e : embedded).

(** What code outside the package can put into a table: values of the exported
    constructors (the unexported operands cannot be made there). *)
Definition op_public (op : ParserOp) : bool :=
  match op with OpNonTerminal _ | OpTerminal _ => true | _ => false end.

(** parser.go:138-146 the two maps held by a parser. A nil inner or outer table
    map behaves like an empty one (it is only read); the naming map is written
    to, so its nil value is kept apart. *)
Definition row := list (ascii * list ParserOp).
Definition table := list (Z * row).
Definition names_map := option (list (Z * bytes)).

Record ll1parser := mkParser { p_table : table; p_names : names_map }.

(** parser.go:143-146 [NewLL1Parser] *)
Definition NewLL1Parser (t : table) (n : names_map) : ll1parser := mkParser t n.

Definition row_get (c : ascii) (r : row) : option (list ParserOp) :=
  map_get Ascii.eqb c r.
Definition table_get (n : Z) (t : table) : option row := map_get Z.eqb n t.
(** Lookup in a possibly nil Go map. *)
Definition names_get (n : Z) (m : names_map) : option bytes :=
  match m with None => None | Some l => map_get Z.eqb n l end.

(** The errors returned by the package, by format string. *)
Inductive perror : Type :=
| ENoRulesForNonTerminal (name : bytes)          (* parser.go:245 *)
| ENoRulesForByte (c : ascii) (name : bytes)     (* parser.go:251-253 *)
| ENoRulesEOL (c : ascii)                        (* parser.go:285-286 *)
| EUnknownBuiltin (name : Z)                     (* parser.go:289 *)
| EExpectedEnd (c : ascii)                       (* parser.go:356-357 *)
| EProdStackEmpty                                (* parser.go:364 *)
| EExpectedChar (want got : ascii)               (* parser.go:377-379 *)
| EEmptySource                                   (* parser.go:456 *)
| EInvalidSource                                 (* parser.go:471 *)
| EReader (msg : bytes)                          (* parser.go:469 error of io.ReadAll *)
| EEmptyTable                                    (* parser.go:477 *)
| ENoBaseEntry.                                  (* parser.go:481-482 *)

(** fmt's %c of a byte: the UTF-8 encoding of the code point with that number. *)
Definition fmt_c (c : ascii) : bytes :=
  if (code c <? 128)%N then [c]
  else [b8 (192 + code c / 64); b8 (128 + code c mod 64)].

(** parser.go:221-223 [charCode] *)
Definition charCode (c : ascii) : bytes :=
  s2b "'" ++ fmt_c c ++ s2b "' (" ++ dec_N (code c) ++ s2b ")".

(** The message of each error ([err.Error()]). *)
Definition perror_string (e : perror) : bytes :=
  match e with
  | ENoRulesForNonTerminal n => s2b "no rules for non terminal: " ++ n
  | ENoRulesForByte c n =>
      s2b "no rules for " ++ charCode c ++ s2b " and non terminal op <" ++ n ++ s2b ">"
  | ENoRulesEOL c =>
      s2b "no rules for " ++ charCode c ++ s2b " and builtin terminal op <EOL>"
  | EUnknownBuiltin n => s2b "unknown built in type: " ++ dec_Z n
  | EExpectedEnd c => s2b "expected end of input got " ++ charCode c
  | EProdStackEmpty => s2b "prod stack empty"
  | EExpectedChar w g => s2b "expected char " ++ charCode w ++ s2b ", got " ++ charCode g
  | EEmptySource => s2b "empty source"
  | EInvalidSource => s2b "invalid source"
  | EReader m => m
  | EEmptyTable => s2b "empty parsing table"
  | ENoBaseEntry => s2b "can't start parsing: no rule for base entry point - 0"
  end.

(** parser.go:199-219 the scanner: source and offset. [peek] past the end
    yields the byte 0. *)
Definition peek (src : bytes) (offset : nat) : ascii :=
  match nth_error src offset with
  | None => NUL
  | Some c => c
  end.

(** parser.go:225-231 [realParser]: the fields that the loop changes. The two
    stacks are lists whose head is the top (parser.go:149-197: Push appends to
    a slice, Pop takes its last element). *)
Record pstate := mkPS { ps_ops : list ParserOp; ps_prods : list node; ps_off : nat }.

(** The triple returned by parse/Parse. *)
Record preturn := mkRet {
  r_tree : option node;
  r_names : option names_map;   (* None: nil pointer *)
  r_err : option perror }.
Definition ret_err (e : perror) : preturn := mkRet None None (Some e).

(** One iteration of the loop parser.go:396-449: go on, return (together with
    the contents of the naming map afterwards), or panic. *)
Inductive stepres : Type :=
| SNext (st : pstate)
| SReturn (r : preturn) (names : names_map)
| SPanic (p : gopanic).

Section Step.
  Variable tbl : table.
  Variable src : bytes.
  Variable names : names_map.

  (** parser.go:234-240 [nodeTypeName] *)
  Definition nodeTypeName (name_id : Z) : bytes :=
    match names_get name_id names with
    | None => s2b "Unknown_" ++ dec_Z name_id
    | Some v => v
    end.

  (** parser.go:259-261 [for i := len-1; i >= 0; i-- { Push(ops[i]) }] *)
  Definition push_all (ops : list ParserOp) (stack : list ParserOp) : list ParserOp :=
    fold_left (fun st op => op :: st) (rev ops) stack.

  (** parser.go:233-264 [processTableNonTerminal]; [ops] is the stack without
      the popped operand. *)
  Definition processTableNonTerminal (name : Z) (ops : list ParserOp)
      (prods : list node) (off : nat) : stepres :=
    match table_get name tbl with
    | None => SReturn (ret_err (ENoRulesForNonTerminal (nodeTypeName name))) names
    | Some ruleMap =>
        match row_get (peek src off) ruleMap with
        | None =>
            SReturn (ret_err (ENoRulesForByte (peek src off) (nodeTypeName name))) names
        | Some opsToPush =>
            SNext (mkPS (push_all opsToPush
                           (OpFunction name off (List.length opsToPush) :: ops))
                        prods off)
        end
    end.

  (** parser.go:266-290 [processBuiltinNonTerminal] *)
  Definition processBuiltinNonTerminal (name : Z) (ops : list ParserOp)
      (prods : list node) (off : nat) : stepres :=
    if (name =? -2)%Z then
      let input := peek src off in
      if Ascii.eqb input LF then
        SNext (mkPS (OpTerminal [LF] :: OpFunction name off 1 :: ops) prods off)
      else if Ascii.eqb input CR then
        SNext (mkPS (OpTerminal [CR] :: OpTerminal [LF] ::
                       OpFunction name off 2 :: ops) prods off)
      else SReturn (ret_err (ENoRulesEOL (peek src off))) names
    else SReturn (ret_err (EUnknownBuiltin name)) names.

  (** parser.go:292-298 [processNonTerminal] *)
  Definition processNonTerminal (name : Z) (ops : list ParserOp)
      (prods : list node) (off : nat) : stepres :=
    if (name <? 0)%Z then processBuiltinNonTerminal name ops prods off
    else processTableNonTerminal name ops prods off.

  (** parser.go:300-308 [processTerminal] *)
  Definition processTerminal (tValue : bytes) (ops : list ParserOp)
      (prods : list node) (off : nat) : stepres :=
    SNext (mkPS (push_all (map OpChar tValue)
                   (OpFunction builtinTerminal off (List.length tValue) :: ops))
                prods off).

  (** parser.go:333-347 the loop popping [amount] nodes; [childs] is filled from
      its end, unless the node is a terminal, whose characters are discarded. *)
  Fixpoint pop_childs (discard : bool) (amount : nat) (prods childs : list node)
    : gores Empty_set (list node * list node) :=
    match amount with
    | O => Ok (childs, prods)
    | S amount' =>
        match prods with
        | [] => Panic PanicPopEmpty
        | n :: prods' =>
            if negb discard then pop_childs discard amount' prods' (n :: childs)
            else if negb (n_type n =? builtinTerminal)%Z then Panic PanicCombineNonChars
            else pop_childs discard amount' prods' childs
        end
    end.

  (** parser.go:310-350 [processFunction] *)
  Definition processFunction (name : Z) (pos amount : nat) (ops : list ParserOp)
      (prods : list node) (off : nat) : stepres :=
    let aPos := Z.of_nat off in
    if Nat.eqb amount 0 then
      SNext (mkPS ops (Node name aPos aPos [Node builtinNothing aPos aPos []] :: prods) off)
    else
      match pop_childs (name =? builtinTerminal)%Z amount prods [] with
      | Ok (childs, prods') =>
          SNext (mkPS ops (Node name (Z.of_nat pos) aPos childs :: prods') off)
      | Panic p => SPanic p
      | Err _ | NoFuel => SPanic PanicUnreachable (* pop_childs never returns these *)
      end.

  (** parser.go:352-372 [processEOS]. [ret_names := p.names] copies the map
      reference, so the two assignments change the parser's (and the caller's)
      own map; assigning to a nil map panics. *)
  Definition processEOS (prods : list node) (off : nat) : stepres :=
    if negb (Ascii.eqb (peek src off) NUL) then
      SReturn (ret_err (EExpectedEnd (peek src off))) names
    else
      match prods with
      | [] => SReturn (ret_err EProdStackEmpty) names
      | n :: _ =>
          match names with
          | None => SPanic PanicNilMapWrite
          | Some m =>
              let m := map_set Z.eqb builtinTerminal (s2b "_literal") m in
              let m := map_set Z.eqb builtinNothing (s2b "_nothing") m in
              SReturn (mkRet (Some n) (Some (Some m)) None) (Some m)
          end
      end.

  (** parser.go:374-389 [processChar] *)
  Definition processChar (c : ascii) (ops : list ParserOp)
      (prods : list node) (off : nat) : stepres :=
    if negb (Ascii.eqb c (peek src off)) then
      SReturn (ret_err (EExpectedChar c (peek src off))) names
    else
      SNext (mkPS ops
               (Node builtinTerminal (Z.of_nat off) (Z.of_nat off + 1) [] :: prods)
               (S off)).

  (** parser.go:403-419 an operand that only embeds one: [parserOpType] gives
      the tag of the embedded operand (for a nil one it panics), the type
      assertion to its struct type fails. *)
  Definition embedding_panic (e : embedded) : gopanic :=
    match e with
    | EmbNonTerminal _ => PanicCastNonTerminal
    | EmbTerminal _ => PanicCastTerminal
    | EmbNil => PanicNilOperand
    end.

  (** parser.go:396-449 body of the parse loop. The type assertions after the
      switch fail exactly for the values that embed an operand. An
      empty stack leaves the loop and hits the final panic (parser.go:451). *)
  Definition step (st : pstate) : stepres :=
    match ps_ops st with
    | [] => SPanic PanicUnreachable
    | op :: ops =>
        match op with
        | OpNonTerminal name => processNonTerminal name ops (ps_prods st) (ps_off st)
        | OpTerminal v => processTerminal v ops (ps_prods st) (ps_off st)
        | OpFunction name pos amount =>
            processFunction name pos amount ops (ps_prods st) (ps_off st)
        | OpEOS => processEOS (ps_prods st) (ps_off st)
        | OpChar c => processChar c ops (ps_prods st) (ps_off st)
        | OpNil => SPanic PanicNilOperand
        | OpEmbedding e => SPanic (embedding_panic e)
        end
    end.

  (** parser.go:391-452 [parse]: the loop, bounded by fuel. *)
  Fixpoint run (fuel : nat) (st : pstate) : gores Empty_set preturn * names_map :=
    match fuel with
    | O => (NoFuel, names)
    | S fuel' =>
        match step st with
        | SNext st' => run fuel' st'
        | SReturn r names' => (Ok r, names')
        | SPanic p => (Panic p, names)
        end
    end.

  (** parser.go:393-394 the initial stacks. *)
  Definition init_state : pstate := mkPS [OpNonTerminal 0; OpEOS] [] 0.
End Step.

(** parser.go:454-472 the dynamic types of [src any].  An io.Reader is
    described by the chunks its successive Read calls deliver and by how it
    ends: [None] is io.EOF, [Some msg] any other error. *)
Record reader := mkReader { rd_chunks : list bytes; rd_end : option bytes }.
Inductive source : Type :=
| SrcNil                          (* untyped nil *)
| SrcString (s : bytes)
| SrcBytes (s : bytes)
| SrcBuffer (s : option bytes)    (* *bytes.Buffer with its unread bytes, or nil *)
| SrcReader (r : reader)
| SrcOther.                       (* any other dynamic type *)

(** parser.go:454-472 [readSource]; also returns the source as the call leaves
    it: io.ReadAll drains a reader, [Buffer.Bytes] does not. *)
Definition readSource (src : source) : gores perror bytes * source :=
  match src with
  | SrcNil => (Err EEmptySource, src)
  | SrcString s => (Ok s, src)
  | SrcBytes s => (Ok s, src)
  | SrcBuffer (Some s) => (Ok s, src)
  | SrcBuffer None => (Err EInvalidSource, src)
  | SrcReader r =>
      (match rd_end r with
       | None => Ok (concat (rd_chunks r))
       | Some m => Err (EReader m)
       end, SrcReader (mkReader [] (rd_end r)))
  | SrcOther => (Err EInvalidSource, src)
  end.

(** What a call of Parse leaves behind: result, naming map, source. *)
Record parse_out := mkOut {
  po_result : gores Empty_set preturn;
  po_names : names_map;
  po_source : source }.

(** parser.go:474-499 [Parse] *)
Definition Parse (fuel : nat) (p : ll1parser) (src : source) : parse_out :=
  match p_table p with
  | [] => mkOut (Ok (ret_err EEmptyTable)) (p_names p) src
  | _ :: _ =>
      match table_get 0 (p_table p) with
      | None => mkOut (Ok (ret_err ENoBaseEntry)) (p_names p) src
      | Some _ =>
          match readSource src with
          | (Ok text, src') =>
              let (r, names') := run (p_table p) text (p_names p) fuel init_state in
              mkOut r names' src'
          | (Err e, src') => mkOut (Ok (ret_err e)) (p_names p) src'
          | (Panic q, src') => mkOut (Panic q) (p_names p) src'
          | (NoFuel, src') => mkOut NoFuel (p_names p) src'
          end
      end
  end.
