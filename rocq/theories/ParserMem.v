(** * ParserMem: pkg/parser/parser.go once more, with its memory.

    Parser.v models the stacks, the rows' operand lists, the children of nodes
    and the source by lists. Here they are slices of arrays in memory
    (SliceMem.v): reading an operand list, pushing and popping, filling the
    children and reading the source all go through that memory, which the
    caller's table, source and earlier trees share.
    Go maps are still association lists: the table's maps are only read, and
    the effects on the naming map are those of Parser.v. *)
From Verif Require Import Base Cst Parser SliceMem.

(** cst.go:10-24 a node in memory: its children are a slice. *)
Inductive mnode : Type :=
  MNode (typei start end_ : Z) (childs : slice).

Definition mn_type (n : mnode) : Z := match n with MNode t _ _ _ => t end.
Definition mn_childs (n : mnode) : slice := match n with MNode _ _ _ c => c end.

(** The memory: arrays of operands, of nodes (an interface value that may be
    nil) and of bytes. *)
Record mem := mkMem {
  m_ops : heap ParserOp;
  m_nodes : heap (option mnode);
  m_bytes : heap ascii }.
Definition set_ops (m : mem) (h : heap ParserOp) : mem := mkMem h (m_nodes m) (m_bytes m).
Definition set_nodes (m : mem) (h : heap (option mnode)) : mem := mkMem (m_ops m) h (m_bytes m).
Definition set_bytes (m : mem) (h : heap ascii) : mem := mkMem (m_ops m) (m_nodes m) h.

(** parser.go:138-141 the table: its cells are slices. *)
Definition mrow := list (ascii * slice).
Definition mtable := list (Z * mrow).

(** parser.go:225-231 [realParser] and the memory it works in. *)
Record mstate := mkMS { ms_ops : slice; ms_prods : slice; ms_off : nat; ms_mem : mem }.

Record mreturn := mkMRet {
  mr_tree : option mnode;
  mr_names : option names_map;
  mr_err : option perror }.
Definition mret_err (e : perror) : mreturn := mkMRet None None (Some e).

Inductive mstepres : Type :=
| MNext (st : mstate)
| MReturn (r : mreturn) (names : names_map) (m : mem)
| MPanic (p : gopanic) (m : mem).

(** parser.go:134-136 [NewParserOpList]: [append([]ParserOp{}, parserOps...)].
    The literal [[]ParserOp{}] is a slice of capacity 0. *)
Definition mNewParserOpList (grow : nat -> nat) (m : mem) (parserOps : slice) : mem * slice :=
  let (h, s) := slice_append OpNil grow (m_ops m) nil_slice (slice_elems (m_ops m) parserOps) in
  (set_ops m h, s).

Section Step.
  (** The runtime's choice of capacities. *)
  Variable grow : nat -> nat.
  Variable tbl : mtable.
  Variable src : slice.
  Variable names : names_map.

  (** parser.go:166-168 [ll1parserOpStack.Push] *)
  Definition push_op (m : mem) (stack : slice) (op : ParserOp) : mem * slice :=
    let (h, s) := slice_append OpNil grow (m_ops m) stack [op] in (set_ops m h, s).

  (** parser.go:153-164 [ll1parserOpStack.Pop] *)
  Definition pop_op (m : mem) (stack : slice) : gores Empty_set (option (ParserOp * slice)) :=
    let stackLen := sl_len stack in
    if Nat.eqb stackLen 0 then Ok None
    else match slice_get (m_ops m) stack (stackLen - 1) with
         | None => Panic PanicIndex
         | Some res => Ok (Some (res, slice_trunc stack (stackLen - 1)))
         end.

  (** parser.go:191-193 [ll1parserProdStack.Push] *)
  Definition push_node (m : mem) (stack : slice) (n : mnode) : mem * slice :=
    let (h, s) := slice_append None grow (m_nodes m) stack [Some n] in (set_nodes m h, s).

  (** parser.go:178-189 [ll1parserProdStack.Pop] *)
  Definition pop_node (m : mem) (stack : slice)
    : gores Empty_set (option (option mnode * slice)) :=
    let stackLen := sl_len stack in
    if Nat.eqb stackLen 0 then Ok None
    else match slice_get (m_nodes m) stack (stackLen - 1) with
         | None => Panic PanicIndex
         | Some res => Ok (Some (res, slice_trunc stack (stackLen - 1)))
         end.

  (** parser.go:206-211 [peek]; an offset below len(src) is in range *)
  Definition mpeek (m : mem) (off : nat) : ascii :=
    if Nat.leb (sl_len src) off then NUL
    else match slice_get (m_bytes m) src off with Some c => c | None => NUL end.

  Definition mtable_get (n : Z) (t : mtable) : option mrow := map_get Z.eqb n t.
  Definition mrow_get (c : ascii) (r : mrow) : option slice := map_get Ascii.eqb c r.

  (** parser.go:259-261 [for i := len-1; i >= 0; i-- { Push(ops[i]) }]: each
      element is read when its turn comes, from the memory as it is then *)
  Fixpoint push_cell (m : mem) (cell : slice) (i : nat) (stack : slice)
    : gores Empty_set (mem * slice) :=
    match i with
    | O => Ok (m, stack)
    | S i' =>
        match slice_get (m_ops m) cell i' with
        | None => Panic PanicIndex
        | Some op => let (m, stack) := push_op m stack op in push_cell m cell i' stack
        end
    end.

  (** parser.go:233-264 [processTableNonTerminal] *)
  Definition mprocessTableNonTerminal (name : Z) (st : mstate) : mstepres :=
    let m := ms_mem st in
    match mtable_get name tbl with
    | None => MReturn (mret_err (ENoRulesForNonTerminal (nodeTypeName names name))) names m
    | Some ruleMap =>
        match mrow_get (mpeek m (ms_off st)) ruleMap with
        | None =>
            MReturn (mret_err (ENoRulesForByte (mpeek m (ms_off st)) (nodeTypeName names name)))
              names m
        | Some opsToPush =>
            let (m, stack) :=
              push_op m (ms_ops st) (OpFunction name (ms_off st) (sl_len opsToPush)) in
            match push_cell m opsToPush (sl_len opsToPush) stack with
            | Ok (m, stack) => MNext (mkMS stack (ms_prods st) (ms_off st) m)
            | Panic p => MPanic p m
            | Err _ | NoFuel => MPanic PanicUnreachable m (* never returned *)
            end
        end
    end.

  (** parser.go:266-290 [processBuiltinNonTerminal] *)
  Definition mprocessBuiltinNonTerminal (name : Z) (st : mstate) : mstepres :=
    let m := ms_mem st in
    if (name =? -2)%Z then
      let input := mpeek m (ms_off st) in
      if Ascii.eqb input LF then
        let (m, stack) := push_op m (ms_ops st) (OpFunction name (ms_off st) 1) in
        let (m, stack) := push_op m stack (OpTerminal [LF]) in
        MNext (mkMS stack (ms_prods st) (ms_off st) m)
      else if Ascii.eqb input CR then
        let (m, stack) := push_op m (ms_ops st) (OpFunction name (ms_off st) 2) in
        let (m, stack) := push_op m stack (OpTerminal [LF]) in
        let (m, stack) := push_op m stack (OpTerminal [CR]) in
        MNext (mkMS stack (ms_prods st) (ms_off st) m)
      else MReturn (mret_err (ENoRulesEOL (mpeek m (ms_off st)))) names m
    else MReturn (mret_err (EUnknownBuiltin name)) names m.

  (** parser.go:292-298 [processNonTerminal] *)
  Definition mprocessNonTerminal (name : Z) (st : mstate) : mstepres :=
    if (name <? 0)%Z then mprocessBuiltinNonTerminal name st
    else mprocessTableNonTerminal name st.

  (** parser.go:305-307 pushing the characters of a terminal (a Go string,
      immutable), the last one first *)
  Fixpoint push_chars (m : mem) (rev_chars : bytes) (stack : slice) : mem * slice :=
    match rev_chars with
    | [] => (m, stack)
    | c :: cs => let (m, stack) := push_op m stack (OpChar c) in push_chars m cs stack
    end.

  (** parser.go:300-308 [processTerminal] *)
  Definition mprocessTerminal (tValue : bytes) (st : mstate) : mstepres :=
    let (m, stack) := push_op (ms_mem st) (ms_ops st)
                        (OpFunction builtinTerminal (ms_off st) (length tValue)) in
    let (m, stack) := push_chars m (rev tValue) stack in
    MNext (mkMS stack (ms_prods st) (ms_off st) m).

  (** parser.go:333-347 the loop of [processFunction]; [i] counts down. (When
      it panics the writes to the new [childs] made so far are not recorded:
      nobody can see them.) *)
  Fixpoint pop_into (discard : bool) (m : mem) (i : nat) (stack childs : slice)
    : gores Empty_set (mem * slice) :=
    match i with
    | O => Ok (m, stack)
    | S i' =>
        match pop_node m stack with
        | Ok None => Panic PanicPopEmpty
        | Ok (Some (node, stack)) =>
            if negb discard then
              match slice_set (m_nodes m) childs i' node with
              | None => Panic PanicIndex
              | Some h => pop_into discard (set_nodes m h) i' stack childs
              end
            else
              match node with
              | None => Panic PanicNilNode
              | Some n =>
                  if negb (mn_type n =? builtinTerminal)%Z then Panic PanicCombineNonChars
                  else pop_into discard m i' stack childs
              end
        | Panic p => Panic p
        | Err _ | NoFuel => Panic PanicUnreachable (* never returned *)
        end
    end.

  (** parser.go:310-350 [processFunction] *)
  Definition mprocessFunction (name : Z) (pos amount : nat) (st : mstate) : mstepres :=
    let m := ms_mem st in
    let aPos := Z.of_nat (ms_off st) in
    if Nat.eqb amount 0 then
      let (h, childs) :=
        heap_alloc (m_nodes m) [Some (MNode builtinNothing aPos aPos nil_slice)] in
      let (m, stack) := push_node (set_nodes m h) (ms_prods st) (MNode name aPos aPos childs) in
      MNext (mkMS (ms_ops st) stack (ms_off st) m)
    else
      let discard := (name =? builtinTerminal)%Z in
      let (m, childs) :=
        if negb discard then
          let (h, s) := heap_make None (m_nodes m) amount in (set_nodes m h, s)
        else (m, nil_slice) in
      match pop_into discard m amount (ms_prods st) childs with
      | Ok (m, stack) =>
          let (m, stack) := push_node m stack (MNode name (Z.of_nat pos) aPos childs) in
          MNext (mkMS (ms_ops st) stack (ms_off st) m)
      | Panic p => MPanic p m
      | Err _ | NoFuel => MPanic PanicUnreachable m (* never returned *)
      end.

  (** parser.go:352-372 [processEOS] *)
  Definition mprocessEOS (st : mstate) : mstepres :=
    let m := ms_mem st in
    if negb (Ascii.eqb (mpeek m (ms_off st)) NUL) then
      MReturn (mret_err (EExpectedEnd (mpeek m (ms_off st)))) names m
    else
      match pop_node m (ms_prods st) with
      | Ok None => MReturn (mret_err EProdStackEmpty) names m
      | Ok (Some (n, _)) =>
          match names with
          | None => MPanic PanicNilMapWrite m
          | Some nm =>
              let nm := map_set Z.eqb builtinTerminal (s2b "_literal") nm in
              let nm := map_set Z.eqb builtinNothing (s2b "_nothing") nm in
              MReturn (mkMRet n (Some (Some nm)) None) (Some nm) m
          end
      | Panic p => MPanic p m
      | Err _ | NoFuel => MPanic PanicUnreachable m (* never returned *)
      end.

  (** parser.go:374-389 [processChar] *)
  Definition mprocessChar (c : ascii) (st : mstate) : mstepres :=
    let m := ms_mem st in
    if negb (Ascii.eqb c (mpeek m (ms_off st))) then
      MReturn (mret_err (EExpectedChar c (mpeek m (ms_off st)))) names m
    else
      let (m, stack) := push_node m (ms_prods st)
        (MNode builtinTerminal (Z.of_nat (ms_off st)) (Z.of_nat (ms_off st) + 1) nil_slice) in
      MNext (mkMS (ms_ops st) stack (S (ms_off st)) m).

  (** parser.go:396-449 one iteration of the loop *)
  Definition mstep (st : mstate) : mstepres :=
    match pop_op (ms_mem st) (ms_ops st) with
    | Ok None => MPanic PanicUnreachable (ms_mem st)
    | Ok (Some (op, stack)) =>
        let st := mkMS stack (ms_prods st) (ms_off st) (ms_mem st) in
        match op with
        | OpNonTerminal name => mprocessNonTerminal name st
        | OpTerminal t => mprocessTerminal t st
        | OpFunction name pos amount => mprocessFunction name pos amount st
        | OpEOS => mprocessEOS st
        | OpChar c => mprocessChar c st
        | OpNil => MPanic PanicNilOperand (ms_mem st)
        | OpEmbedding e => MPanic (embedding_panic e) (ms_mem st)
        end
    | Panic p => MPanic p (ms_mem st)
    | Err _ | NoFuel => MPanic PanicUnreachable (ms_mem st) (* never returned *)
    end.

  (** parser.go:391-452 [parse] *)
  Fixpoint mrun (fuel : nat) (st : mstate) : gores Empty_set mreturn * names_map * mem :=
    match fuel with
    | O => (NoFuel, names, ms_mem st)
    | S fuel' =>
        match mstep st with
        | MNext st' => mrun fuel' st'
        | MReturn r names' m => (Ok r, names', m)
        | MPanic p m => (Panic p, names, m)
        end
    end.

  (** parser.go:393-394 the initial pushes on the zero value of the stacks *)
  Definition minit (m : mem) : mstate :=
    let (m, stack) := push_op m nil_slice OpEOS in
    let (m, stack) := push_op m stack (OpNonTerminal 0) in
    mkMS stack nil_slice 0 m.
End Step.

(** parser.go:454-472 the dynamic types of the source: a byte slice and the
    unread part of a buffer live in memory. *)
Inductive msource : Type :=
| MSrcNil
| MSrcString (s : bytes)
| MSrcBytes (s : slice)
| MSrcBuffer (s : option slice)
| MSrcReader (r : reader)
| MSrcOther.

(** parser.go:454-472 [readSource]: a byte slice and a buffer are used in
    place, a string is copied, io.ReadAll makes a slice of its own. *)
Definition mreadSource (m : mem) (src : msource) : gores perror slice * msource * mem :=
  match src with
  | MSrcNil => (Err EEmptySource, src, m)
  | MSrcString s =>
      let (h, sl) := heap_alloc (m_bytes m) s in (Ok sl, src, set_bytes m h)
  | MSrcBytes s => (Ok s, src, m)
  | MSrcBuffer (Some s) => (Ok s, src, m)
  | MSrcBuffer None => (Err EInvalidSource, src, m)
  | MSrcReader r =>
      match rd_end r with
      | None =>
          let (h, sl) := heap_alloc (m_bytes m) (concat (rd_chunks r)) in
          (Ok sl, MSrcReader (mkReader [] (rd_end r)), set_bytes m h)
      | Some e => (Err (EReader e), MSrcReader (mkReader [] (rd_end r)), m)
      end
  | MSrcOther => (Err EInvalidSource, src, m)
  end.

Record mparse_out := mkMOut {
  mo_result : gores Empty_set mreturn;
  mo_names : names_map;
  mo_source : msource;
  mo_mem : mem }.

(** parser.go:474-499 [Parse] *)
Definition mParse (grow : nat -> nat) (fuel : nat) (tbl : mtable) (names : names_map)
    (m : mem) (src : msource) : mparse_out :=
  match tbl with
  | [] => mkMOut (Ok (mret_err EEmptyTable)) names src m
  | _ :: _ =>
      match mtable_get 0 tbl with
      | None => mkMOut (Ok (mret_err ENoBaseEntry)) names src m
      | Some _ =>
          match mreadSource m src with
          | (Ok text, src', m) =>
              match mrun grow tbl text names fuel (minit grow m) with
              | (r, names', m) => mkMOut r names' src' m
              end
          | (Err e, src', m) => mkMOut (Ok (mret_err e)) names src' m
          | (Panic q, src', m) => mkMOut (Panic q) names src' m
          | (NoFuel, src', m) => mkMOut NoFuel names src' m
          end
      end
  end.
