(** * ParserInt: the loop of pkg/parser/parser.go with machine integers.

    Parser.v counts positions with natural numbers. Here the type int has a
    given number of bits and wraps around, as in Go. Node types and the lengths
    of slices and strings are ints that no arithmetic is done with, apart from
    counting down to 0. *)
From Verif Require Import Base Cst Parser.

Section Int.
  (** Number of bits of an int: 32 or 64 in Go. *)
  Variable bits : Z.

  Definition int_max : Z := (2 ^ (bits - 1) - 1)%Z.
  (** The int that the result of an addition becomes. *)
  Definition wrap (z : Z) : Z := ((z + 2 ^ (bits - 1)) mod 2 ^ bits - 2 ^ (bits - 1))%Z.

  (** parser.go:32-124 operands, positions and amounts being ints *)
  Inductive iop : Type :=
  | INonTerminal (name : Z)
  | ITerminal (value : bytes)
  | IFunction (name pos amount : Z)
  | IEOS
  | IChar (value : ascii)
  | INil
  | IEmbedding (e : embedded).
  Definition iop_of (op : ParserOp) : iop :=
    match op with
    | OpNonTerminal n => INonTerminal n
    | OpTerminal v => ITerminal v
    | OpFunction n p a => IFunction n (Z.of_nat p) (Z.of_nat a)
    | OpEOS => IEOS
    | OpChar c => IChar c
    | OpNil => INil
    | OpEmbedding e => IEmbedding e
    end.

  (** parser.go:225-231 [realParser]: what the loop changes *)
  Record istate := mkIS { is_ops : list iop; is_prods : list node; is_off : Z }.
  Inductive istepres : Type :=
  | INext (st : istate)
  | IReturn (r : preturn) (names : names_map)
  | IPanic (p : gopanic).

  Variable tbl : table.
  Variable src : bytes.
  Variable names : names_map.

  (** parser.go:206-211 [peek]; [None]: index out of range, for a negative
      offset *)
  Definition ipeek (off : Z) : option ascii :=
    if (off >=? Z.of_nat (length src))%Z then Some NUL
    else if (off <? 0)%Z then None
    else nth_error src (Z.to_nat off).

  Definition with_peek (off : Z) (k : ascii -> istepres) : istepres :=
    match ipeek off with Some c => k c | None => IPanic PanicIndex end.

  (** parser.go:233-264 [processTableNonTerminal] *)
  Definition iTableNonTerminal (name : Z) (ops : list iop) (prods : list node) (off : Z) : istepres :=
    match table_get name tbl with
    | None => IReturn (ret_err (ENoRulesForNonTerminal (nodeTypeName names name))) names
    | Some ruleMap =>
        with_peek off (fun c =>
        match row_get c ruleMap with
        | None => IReturn (ret_err (ENoRulesForByte c (nodeTypeName names name))) names
        | Some opsToPush =>
            INext (mkIS (map iop_of opsToPush ++ IFunction name off (Z.of_nat (length opsToPush)) :: ops)
                        prods off)
        end)
    end.

  (** parser.go:266-290 [processBuiltinNonTerminal] *)
  Definition iBuiltinNonTerminal (name : Z) (ops : list iop) (prods : list node) (off : Z) : istepres :=
    if (name =? -2)%Z then
      with_peek off (fun c =>
      if Ascii.eqb c LF then
        INext (mkIS (ITerminal [LF] :: IFunction name off 1 :: ops) prods off)
      else if Ascii.eqb c CR then
        INext (mkIS (ITerminal [CR] :: ITerminal [LF] :: IFunction name off 2 :: ops) prods off)
      else IReturn (ret_err (ENoRulesEOL c)) names)
    else IReturn (ret_err (EUnknownBuiltin name)) names.

  (** parser.go:300-308 [processTerminal] *)
  Definition iTerminal (tValue : bytes) (ops : list iop) (prods : list node) (off : Z) : istepres :=
    INext (mkIS (map IChar tValue ++ IFunction builtinTerminal off (Z.of_nat (length tValue)) :: ops)
                prods off).

  (** parser.go:310-350 [processFunction]; the loop counts down from amount-1 to 0 *)
  Definition iFunction (name pos amount : Z) (ops : list iop) (prods : list node) (off : Z) : istepres :=
    if (amount =? 0)%Z then
      INext (mkIS ops (Node name off off [Node builtinNothing off off []] :: prods) off)
    else
      match pop_childs (name =? builtinTerminal)%Z (Z.to_nat amount) prods [] with
      | Ok (childs, prods') => INext (mkIS ops (Node name pos off childs :: prods') off)
      | Panic p => IPanic p
      | Err _ | NoFuel => IPanic PanicUnreachable
      end.

  (** parser.go:352-372 [processEOS] *)
  Definition iEOS (prods : list node) (off : Z) : istepres :=
    with_peek off (fun c =>
    if negb (Ascii.eqb c NUL) then IReturn (ret_err (EExpectedEnd c)) names
    else
      match prods with
      | [] => IReturn (ret_err EProdStackEmpty) names
      | n :: _ =>
          match names with
          | None => IPanic PanicNilMapWrite
          | Some m =>
              let m := map_set Z.eqb builtinTerminal (s2b "_literal") m in
              let m := map_set Z.eqb builtinNothing (s2b "_nothing") m in
              IReturn (mkRet (Some n) (Some (Some m)) None) (Some m)
          end
      end).

  (** parser.go:374-389 [processChar], parser.go:213-215 [next] *)
  Definition iChar (c : ascii) (ops : list iop) (prods : list node) (off : Z) : istepres :=
    with_peek off (fun d =>
    if negb (Ascii.eqb c d) then IReturn (ret_err (EExpectedChar c d)) names
    else INext (mkIS ops (Node builtinTerminal off (wrap (off + 1)) [] :: prods) (wrap (off + 1)))).

  (** parser.go:396-449 body of the loop *)
  Definition istep (st : istate) : istepres :=
    match is_ops st with
    | [] => IPanic PanicUnreachable
    | op :: ops =>
        match op with
        | INonTerminal name =>
            if (name <? 0)%Z then iBuiltinNonTerminal name ops (is_prods st) (is_off st)
            else iTableNonTerminal name ops (is_prods st) (is_off st)
        | ITerminal v => iTerminal v ops (is_prods st) (is_off st)
        | IFunction name pos amount => iFunction name pos amount ops (is_prods st) (is_off st)
        | IEOS => iEOS (is_prods st) (is_off st)
        | IChar c => iChar c ops (is_prods st) (is_off st)
        | INil => IPanic PanicNilOperand
        | IEmbedding e => IPanic (embedding_panic e)
        end
    end.

  (** parser.go:391-452 [parse] *)
  Fixpoint irun (fuel : nat) (st : istate) : gores Empty_set preturn * names_map :=
    match fuel with
    | O => (NoFuel, names)
    | S fuel' =>
        match istep st with
        | INext st' => irun fuel' st'
        | IReturn r names' => (Ok r, names')
        | IPanic p => (Panic p, names)
        end
    end.

  Definition iinit_state : istate := mkIS [INonTerminal 0; IEOS] [] 0.
End Int.

(** parser.go:474-499 [Parse] *)
Definition iParse (bits : Z) (fuel : nat) (p : ll1parser) (src : source) : parse_out :=
  match p_table p with
  | [] => mkOut (Ok (ret_err EEmptyTable)) (p_names p) src
  | _ :: _ =>
      match table_get 0 (p_table p) with
      | None => mkOut (Ok (ret_err ENoBaseEntry)) (p_names p) src
      | Some _ =>
          match readSource src with
          | (Ok text, src') =>
              let (r, names') := irun bits (p_table p) text (p_names p) fuel iinit_state in
              mkOut r names' src'
          | (Err e, src') => mkOut (Ok (ret_err e)) (p_names p) src'
          | (Panic q, src') => mkOut (Panic q) (p_names p) src'
          | (NoFuel, src') => mkOut NoFuel (p_names p) src'
          end
      end
  end.
