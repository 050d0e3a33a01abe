(** * ParserConc: calls of Parse running at the same time, access by access.

    pkg/parser/parser.go once more (ParserMem.v), now for goroutines that call
    [Parse] on one memory. A call is a program that is carried out access by
    access: every read of an element of a slice, every write of one, every
    [make] (or slice literal) and every [append] is one step, and between any
    two steps of a call the other calls may take any number of steps. All calls
    allocate from one memory, so the addresses a call gets depend on what the
    others did.

    What a call has for itself is part of the program's state here, not of the
    shared memory: the slice headers of its stacks, the offset, and the table
    (whose maps are only read; its cells are slices of the shared memory).

    Simplifications. The naming map of a call and a reader given as its source
    are its own (calls that share naming maps are the subject of Concurrent.v and
    property C87). A step is atomic: in Go two accesses to one array by two
    goroutines, one of them writing, are a data race for which nothing is
    promised; [qrace] in Spec_ParserConc.v singles out the configurations in
    which two calls are about to do that, and none is ever reached
    (Props_ParserConc.v). *)
From Verif Require Import Base Cst Parser SliceMem ParserMem.

(** What is left to do of a call: it has ended, or goes on with a step. Reading
    or writing out of range is reported to the program as [None] or [false]. *)
Inductive qprog (A : Type) : Type :=
| QRet (a : A)
(** read element [i] of a slice of operands, of bytes, of nodes *)
| QOp (s : slice) (i : nat) (k : option ParserOp -> qprog A)
| QByte (s : slice) (i : nat) (k : option ascii -> qprog A)
| QNode (s : slice) (i : nat) (k : option (option mnode) -> qprog A)
(** append one operand, one node; [grow] is the runtime's choice of capacities *)
| QAppOp (grow : nat -> nat) (s : slice) (o : ParserOp) (k : slice -> qprog A)
| QAppNode (grow : nat -> nat) (s : slice) (n : option mnode) (k : slice -> qprog A)
(** write element [i] of a slice of nodes *)
| QSetNode (s : slice) (i : nat) (n : option mnode) (k : bool -> qprog A)
(** a new array of nodes, of bytes *)
| QNodes (arr : list (option mnode)) (k : slice -> qprog A)
| QBytes (arr : bytes) (k : slice -> qprog A).
Arguments QRet {A}. Arguments QOp {A}. Arguments QByte {A}. Arguments QNode {A}.
Arguments QAppOp {A}. Arguments QAppNode {A}. Arguments QSetNode {A}.
Arguments QNodes {A}. Arguments QBytes {A}.

Fixpoint qbind {A B} (p : qprog A) (f : A -> qprog B) : qprog B :=
  match p with
  | QRet a => f a
  | QOp s i k => QOp s i (fun x => qbind (k x) f)
  | QByte s i k => QByte s i (fun x => qbind (k x) f)
  | QNode s i k => QNode s i (fun x => qbind (k x) f)
  | QAppOp g s o k => QAppOp g s o (fun x => qbind (k x) f)
  | QAppNode g s n k => QAppNode g s n (fun x => qbind (k x) f)
  | QSetNode s i n k => QSetNode s i n (fun x => qbind (k x) f)
  | QNodes arr k => QNodes arr (fun x => qbind (k x) f)
  | QBytes arr k => QBytes arr (fun x => qbind (k x) f)
  end.
Notation "'qq' x <- e ; k" := (qbind e (fun x => k))
  (at level 200, x pattern, e at level 100, k at level 200, right associativity).

(** One step of a call on the memory shared by all. *)
Definition qstep {A} (p : qprog A) (m : mem) : qprog A * mem :=
  match p with
  | QRet a => (QRet a, m)
  | QOp s i k => (k (slice_get (m_ops m) s i), m)
  | QByte s i k => (k (slice_get (m_bytes m) s i), m)
  | QNode s i k => (k (slice_get (m_nodes m) s i), m)
  | QAppOp grow s o k =>
      let (h, t) := slice_append OpNil grow (m_ops m) s [o] in (k t, set_ops m h)
  | QAppNode grow s n k =>
      let (h, t) := slice_append None grow (m_nodes m) s [n] in (k t, set_nodes m h)
  | QSetNode s i n k =>
      match slice_set (m_nodes m) s i n with
      | Some h => (k true, set_nodes m h)
      | None => (k false, m)
      end
  | QNodes arr k => let (h, t) := heap_alloc (m_nodes m) arr in (k t, set_nodes m h)
  | QBytes arr k => let (h, t) := heap_alloc (m_bytes m) arr in (k t, set_bytes m h)
  end.

(** ** The code *)
(** parser.go:225-231 [realParser]: the stacks and the offset *)
Record qstate := mkQS { qs_ops : slice; qs_prods : slice; qs_off : nat }.
Inductive qstepres : Type :=
| QNext (st : qstate)
| QReturn (r : mreturn) (names : names_map)
| QPanic (p : gopanic).

Section Step.
  (** The runtime's choice of capacities. *)
  Variable grow : nat -> nat.
  Variable tbl : mtable.
  Variable src : slice.
  Variable names : names_map.

  (** parser.go:166-168 [ll1parserOpStack.Push] *)
  Definition qpush_op (stack : slice) (op : ParserOp) : qprog slice :=
    QAppOp grow stack op (fun s => QRet s).

  (** parser.go:153-164 [ll1parserOpStack.Pop] *)
  Definition qpop_op (stack : slice) : qprog (gores Empty_set (option (ParserOp * slice))) :=
    let stackLen := sl_len stack in
    if Nat.eqb stackLen 0 then QRet (Ok None)
    else QOp stack (stackLen - 1) (fun x =>
         match x with
         | None => QRet (Panic PanicIndex)
         | Some res => QRet (Ok (Some (res, slice_trunc stack (stackLen - 1))))
         end).

  (** parser.go:191-193 [ll1parserProdStack.Push] *)
  Definition qpush_node (stack : slice) (n : mnode) : qprog slice :=
    QAppNode grow stack (Some n) (fun s => QRet s).

  (** parser.go:178-189 [ll1parserProdStack.Pop] *)
  Definition qpop_node (stack : slice) : qprog (gores Empty_set (option (option mnode * slice))) :=
    let stackLen := sl_len stack in
    if Nat.eqb stackLen 0 then QRet (Ok None)
    else QNode stack (stackLen - 1) (fun x =>
         match x with
         | None => QRet (Panic PanicIndex)
         | Some res => QRet (Ok (Some (res, slice_trunc stack (stackLen - 1))))
         end).

  (** parser.go:206-211 [peek]; an offset below len(src) is in range *)
  Definition qpeek (off : nat) : qprog ascii :=
    if Nat.leb (sl_len src) off then QRet NUL
    else QByte src off (fun x => QRet (match x with Some c => c | None => NUL end)).

  (** parser.go:259-261 [for i := len-1; i >= 0; i-- { Push(ops[i]) }] *)
  Fixpoint qpush_cell (cell : slice) (i : nat) (stack : slice) : qprog (gores Empty_set slice) :=
    match i with
    | O => QRet (Ok stack)
    | S i' =>
        QOp cell i' (fun x =>
        match x with
        | None => QRet (Panic PanicIndex)
        | Some op => qq stack <- qpush_op stack op; qpush_cell cell i' stack
        end)
    end.

  (** parser.go:233-264 [processTableNonTerminal]; on the error path the source
      is read twice *)
  Definition qprocessTableNonTerminal (name : Z) (st : qstate) : qprog qstepres :=
    match mtable_get name tbl with
    | None => QRet (QReturn (mret_err (ENoRulesForNonTerminal (nodeTypeName names name))) names)
    | Some ruleMap =>
        qq c <- qpeek (qs_off st);
        match mrow_get c ruleMap with
        | None =>
            qq c <- qpeek (qs_off st);
            QRet (QReturn (mret_err (ENoRulesForByte c (nodeTypeName names name))) names)
        | Some opsToPush =>
            qq stack <- qpush_op (qs_ops st) (OpFunction name (qs_off st) (sl_len opsToPush));
            qq r <- qpush_cell opsToPush (sl_len opsToPush) stack;
            match r with
            | Ok stack => QRet (QNext (mkQS stack (qs_prods st) (qs_off st)))
            | Panic p => QRet (QPanic p)
            | Err _ | NoFuel => QRet (QPanic PanicUnreachable) (* never returned *)
            end
        end
    end.

  (** parser.go:266-290 [processBuiltinNonTerminal] *)
  Definition qprocessBuiltinNonTerminal (name : Z) (st : qstate) : qprog qstepres :=
    if (name =? -2)%Z then
      qq input <- qpeek (qs_off st);
      if Ascii.eqb input LF then
        qq stack <- qpush_op (qs_ops st) (OpFunction name (qs_off st) 1);
        qq stack <- qpush_op stack (OpTerminal [LF]);
        QRet (QNext (mkQS stack (qs_prods st) (qs_off st)))
      else if Ascii.eqb input CR then
        qq stack <- qpush_op (qs_ops st) (OpFunction name (qs_off st) 2);
        qq stack <- qpush_op stack (OpTerminal [LF]);
        qq stack <- qpush_op stack (OpTerminal [CR]);
        QRet (QNext (mkQS stack (qs_prods st) (qs_off st)))
      else
        qq c <- qpeek (qs_off st);
        QRet (QReturn (mret_err (ENoRulesEOL c)) names)
    else QRet (QReturn (mret_err (EUnknownBuiltin name)) names).

  (** parser.go:292-298 [processNonTerminal] *)
  Definition qprocessNonTerminal (name : Z) (st : qstate) : qprog qstepres :=
    if (name <? 0)%Z then qprocessBuiltinNonTerminal name st
    else qprocessTableNonTerminal name st.

  (** parser.go:305-307 pushing the characters of a terminal, the last one first *)
  Fixpoint qpush_chars (rev_chars : bytes) (stack : slice) : qprog slice :=
    match rev_chars with
    | [] => QRet stack
    | c :: cs => qq stack <- qpush_op stack (OpChar c); qpush_chars cs stack
    end.

  (** parser.go:300-308 [processTerminal] *)
  Definition qprocessTerminal (tValue : bytes) (st : qstate) : qprog qstepres :=
    qq stack <- qpush_op (qs_ops st) (OpFunction builtinTerminal (qs_off st) (length tValue));
    qq stack <- qpush_chars (rev tValue) stack;
    QRet (QNext (mkQS stack (qs_prods st) (qs_off st))).

  (** parser.go:333-347 the loop of [processFunction]; [i] counts down *)
  Fixpoint qpop_into (discard : bool) (i : nat) (stack childs : slice)
    : qprog (gores Empty_set slice) :=
    match i with
    | O => QRet (Ok stack)
    | S i' =>
        qq r <- qpop_node stack;
        match r with
        | Ok None => QRet (Panic PanicPopEmpty)
        | Ok (Some (node, stack)) =>
            if negb discard then
              QSetNode childs i' node (fun ok =>
                if (ok : bool) then qpop_into discard i' stack childs
                else QRet (Panic PanicIndex))
            else
              match node with
              | None => QRet (Panic PanicNilNode)
              | Some n =>
                  if negb (mn_type n =? builtinTerminal)%Z then QRet (Panic PanicCombineNonChars)
                  else qpop_into discard i' stack childs
              end
        | Panic p => QRet (Panic p)
        | Err _ | NoFuel => QRet (Panic PanicUnreachable) (* never returned *)
        end
    end.

  (** parser.go:310-350 [processFunction] *)
  Definition qprocessFunction (name : Z) (pos amount : nat) (st : qstate) : qprog qstepres :=
    let aPos := Z.of_nat (qs_off st) in
    if Nat.eqb amount 0 then
      QNodes [Some (MNode builtinNothing aPos aPos nil_slice)] (fun childs =>
      qq stack <- qpush_node (qs_prods st) (MNode name aPos aPos childs);
      QRet (QNext (mkQS (qs_ops st) stack (qs_off st))))
    else
      let discard := (name =? builtinTerminal)%Z in
      qq childs <-
        (if negb discard then QNodes (repeat None amount) (fun s => QRet s) else QRet nil_slice);
      qq r <- qpop_into discard amount (qs_prods st) childs;
      match r with
      | Ok stack =>
          qq stack <- qpush_node stack (MNode name (Z.of_nat pos) aPos childs);
          QRet (QNext (mkQS (qs_ops st) stack (qs_off st)))
      | Panic p => QRet (QPanic p)
      | Err _ | NoFuel => QRet (QPanic PanicUnreachable) (* never returned *)
      end.

  (** parser.go:352-372 [processEOS] *)
  Definition qprocessEOS (st : qstate) : qprog qstepres :=
    qq c <- qpeek (qs_off st);
    if negb (Ascii.eqb c NUL) then
      qq c <- qpeek (qs_off st);
      QRet (QReturn (mret_err (EExpectedEnd c)) names)
    else
      qq r <- qpop_node (qs_prods st);
      match r with
      | Ok None => QRet (QReturn (mret_err EProdStackEmpty) names)
      | Ok (Some (n, _)) =>
          match names with
          | None => QRet (QPanic PanicNilMapWrite)
          | Some nm =>
              let nm := map_set Z.eqb builtinTerminal (s2b "_literal") nm in
              let nm := map_set Z.eqb builtinNothing (s2b "_nothing") nm in
              QRet (QReturn (mkMRet n (Some (Some nm)) None) (Some nm))
          end
      | Panic p => QRet (QPanic p)
      | Err _ | NoFuel => QRet (QPanic PanicUnreachable) (* never returned *)
      end.

  (** parser.go:374-389 [processChar] *)
  Definition qprocessChar (c : ascii) (st : qstate) : qprog qstepres :=
    qq d <- qpeek (qs_off st);
    if negb (Ascii.eqb c d) then
      qq d <- qpeek (qs_off st);
      QRet (QReturn (mret_err (EExpectedChar c d)) names)
    else
      qq stack <- qpush_node (qs_prods st)
        (MNode builtinTerminal (Z.of_nat (qs_off st)) (Z.of_nat (qs_off st) + 1) nil_slice);
      QRet (QNext (mkQS (qs_ops st) stack (S (qs_off st)))).

  (** parser.go:396-449 one iteration of the loop *)
  Definition qiter (st : qstate) : qprog qstepres :=
    qq r <- qpop_op (qs_ops st);
    match r with
    | Ok None => QRet (QPanic PanicUnreachable)
    | Ok (Some (op, stack)) =>
        let st := mkQS stack (qs_prods st) (qs_off st) in
        match op with
        | OpNonTerminal name => qprocessNonTerminal name st
        | OpTerminal t => qprocessTerminal t st
        | OpFunction name pos amount => qprocessFunction name pos amount st
        | OpEOS => qprocessEOS st
        | OpChar c => qprocessChar c st
        | OpNil => QRet (QPanic PanicNilOperand)
        | OpEmbedding e => QRet (QPanic (embedding_panic e))
        end
    | Panic p => QRet (QPanic p)
    | Err _ | NoFuel => QRet (QPanic PanicUnreachable) (* never returned *)
    end.

  (** parser.go:391-452 [parse] *)
  Fixpoint qloop (fuel : nat) (st : qstate) : qprog (gores Empty_set mreturn * names_map) :=
    match fuel with
    | O => QRet (NoFuel, names)
    | S fuel' =>
        qq r <- qiter st;
        match r with
        | QNext st' => qloop fuel' st'
        | QReturn r names' => QRet (Ok r, names')
        | QPanic p => QRet (Panic p, names)
        end
    end.

  (** parser.go:393-394 the initial pushes on the zero value of the stacks *)
  Definition qparse (fuel : nat) : qprog (gores Empty_set mreturn * names_map) :=
    qq stack <- qpush_op nil_slice OpEOS;
    qq stack <- qpush_op stack (OpNonTerminal 0);
    qloop fuel (mkQS stack nil_slice 0).
End Step.

(** parser.go:454-472 [readSource] *)
Definition qreadSource (src : msource) : qprog (gores perror slice * msource) :=
  match src with
  | MSrcNil => QRet (Err EEmptySource, src)
  | MSrcString s => QBytes s (fun sl => QRet (Ok sl, src))
  | MSrcBytes s => QRet (Ok s, src)
  | MSrcBuffer (Some s) => QRet (Ok s, src)
  | MSrcBuffer None => QRet (Err EInvalidSource, src)
  | MSrcReader r =>
      match rd_end r with
      | None =>
          QBytes (concat (rd_chunks r)) (fun sl => QRet (Ok sl, MSrcReader (mkReader [] (rd_end r))))
      | Some e => QRet (Err (EReader e), MSrcReader (mkReader [] (rd_end r)))
      end
  | MSrcOther => QRet (Err EInvalidSource, src)
  end.

(** What a call leaves behind besides memory: its outcome, its naming map, its
    source. *)
Record qout := mkQOut {
  qo_result : gores Empty_set mreturn;
  qo_names : names_map;
  qo_source : msource }.

(** parser.go:474-499 [Parse] *)
Definition qParse (grow : nat -> nat) (fuel : nat) (tbl : mtable) (names : names_map)
    (src : msource) : qprog qout :=
  match tbl with
  | [] => QRet (mkQOut (Ok (mret_err EEmptyTable)) names src)
  | _ :: _ =>
      match mtable_get 0 tbl with
      | None => QRet (mkQOut (Ok (mret_err ENoBaseEntry)) names src)
      | Some _ =>
          qq (r, src') <- qreadSource src;
          match r with
          | Ok text =>
              qq (r, names') <- qparse grow tbl text names fuel;
              QRet (mkQOut r names' src')
          | Err e => QRet (mkQOut (Ok (mret_err e)) names src')
          | Panic q => QRet (mkQOut (Panic q) names src')
          | NoFuel => QRet (mkQOut NoFuel names src')
          end
      end
  end.

(** ** Several calls *)

(** A call: the parser's table and naming map, the source, the runtime's choice
    of capacities, and how often the loop may run. *)
Record qjob := mkQJob {
  q_grow : nat -> nat;
  q_fuel : nat;
  q_table : mtable;
  q_names : names_map;
  q_source : msource }.
Definition qcall : Type := qprog qout.
Definition qstart (j : qjob) : qcall :=
  qParse (q_grow j) (q_fuel j) (q_table j) (q_names j) (q_source j).

Record qconfig := mkQConfig { qc_calls : list qcall; qc_mem : mem }.
Definition qall_start (jobs : list qjob) (m : mem) : qconfig := mkQConfig (map qstart jobs) m.

(** It is the turn of call [i]. *)
Definition qturn (c : qconfig) (i : nat) : qconfig :=
  match nth_error (qc_calls c) i with
  | None => c
  | Some p => let (p', m') := qstep p (qc_mem c) in mkQConfig (list_set (qc_calls c) i p') m'
  end.
(** A schedule is the list of whose turn it is. *)
Definition qafter (jobs : list qjob) (m : mem) (sched : list nat) : qconfig :=
  fold_left qturn sched (qall_start jobs m).
