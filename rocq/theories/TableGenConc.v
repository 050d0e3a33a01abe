(** * TableGenConc: calls of FromGrammar running at the same time.

    pkg/bnf/tablegen/tablegen.go once more, now for goroutines that call
    [FromGrammar] on one memory. A call is a program that is carried out access
    by access: every read of an element of a slice, every write of one, every
    [make] and every [append] is one step, and between any two steps of a call
    the other calls may take any number of steps. All calls allocate from one
    memory, so the addresses a call gets depend on what the others did.

    Besides slices a call uses maps (ruleMap, the rows of the table, the table)
    and values ([ByteSet]s copied out of slices). Those are made by the call
    itself and reach nobody else before it returns; they are part of the
    program's state here, not of the shared memory.

    Simplification: a step is atomic. In Go two accesses to one array by two
    goroutines, one of them writing, are a data race for which nothing is
    promised; [race] in Spec_GenConc.v singles out the configurations in which
    two calls are about to do that, and none is ever reached (Props_GenConc.v). *)
From Verif Require Import Base ByteSet Ast Parser SliceMem ParserMem TableGen TableGenMem.

(** What is left to do of a call: it has ended, or goes on with a step. *)
Inductive prog (A : Type) : Type :=
| PRet (r : tgres A)
(** read element [i] of a slice of rules, sequences, symbols, sets *)
| PRule (s : slice) (i : nat) (k : mrule -> prog A)
| PSeq (s : slice) (i : nat) (k : slice -> prog A)
| PSym (s : slice) (i : nat) (k : symbol -> prog A)
| PSet (s : slice) (i : nat) (k : ByteSet -> prog A)
(** write element [i] of a slice of sets *)
| PWrite (s : slice) (i : nat) (x : ByteSet) (k : prog A)
(** make a slice of [n] empty sets *)
| PMake (n : nat) (k : slice -> prog A)
(** append one operand to a slice; [grow] is the runtime's choice of capacities *)
| PAppend (grow : nat -> nat) (s : slice) (o : ParserOp) (k : slice -> prog A).
Arguments PRet {A}. Arguments PRule {A}. Arguments PSeq {A}. Arguments PSym {A}.
Arguments PSet {A}. Arguments PWrite {A}. Arguments PMake {A}. Arguments PAppend {A}.

Definition pdo {A} (r : tgres A) : prog A := PRet r.
Fixpoint pbind {A B} (p : prog A) (f : A -> prog B) : prog B :=
  match p with
  | PRet (Ok a) => f a
  | PRet (Err e) => PRet (Err e)
  | PRet (Panic q) => PRet (Panic q)
  | PRet NoFuel => PRet NoFuel
  | PRule s i k => PRule s i (fun x => pbind (k x) f)
  | PSeq s i k => PSeq s i (fun x => pbind (k x) f)
  | PSym s i k => PSym s i (fun x => pbind (k x) f)
  | PSet s i k => PSet s i (fun x => pbind (k x) f)
  | PWrite s i x k => PWrite s i x (pbind k f)
  | PMake n k => PMake n (fun x => pbind (k x) f)
  | PAppend g s o k => PAppend g s o (fun x => pbind (k x) f)
  end.
Notation "'pp' x <- e ; k" := (pbind e (fun x => k))
  (at level 200, x pattern, e at level 100, k at level 200, right associativity).
Definition p_rule (s : slice) (i : nat) : prog mrule := PRule s i (fun x => PRet (Ok x)).
Definition p_seq (s : slice) (i : nat) : prog slice := PSeq s i (fun x => PRet (Ok x)).
Definition p_sym (s : slice) (i : nat) : prog symbol := PSym s i (fun x => PRet (Ok x)).
Definition p_set (s : slice) (i : nat) : prog ByteSet := PSet s i (fun x => PRet (Ok x)).
Definition p_write (s : slice) (i : nat) (x : ByteSet) : prog unit := PWrite s i x (PRet (Ok tt)).
Definition pmake_sets (n : nat) : prog slice := PMake n (fun x => PRet (Ok x)).
Definition p_append (grow : nat -> nat) (s : slice) (o : ParserOp) : prog slice :=
  PAppend grow s o (fun x => PRet (Ok x)).

(** One step of a call on the memory shared by all. An index out of range ends
    the call with a panic. *)
Definition pread {A T} (h : heap T) (s : slice) (i : nat) (k : T -> prog A) : prog A :=
  match slice_get h s i with Some x => k x | None => PRet (Panic PanicIndex) end.
Definition pstep {A} (p : prog A) (m : gmem) : prog A * gmem :=
  match p with
  | PRet r => (PRet r, m)
  | PRule s i k => (pread (gm_rules m) s i k, m)
  | PSeq s i k => (pread (gm_seqs m) s i k, m)
  | PSym s i k => (pread (gm_syms m) s i k, m)
  | PSet s i k => (pread (gm_sets m) s i k, m)
  | PWrite s i x k =>
      match slice_set (gm_sets m) s i x with
      | Some h => (k, set_gsets m h)
      | None => (PRet (Panic PanicIndex), m)
      end
  | PMake n k =>
      let (h, s) := heap_alloc (gm_sets m) (repeat (bs_new []) n) in (k s, set_gsets m h)
  | PAppend grow s o k =>
      let (h, s) := slice_append OpNil grow (m_ops (gm_mem m)) s [o] in (k s, set_gops m h)
  end.

(** ** The code *)
(** tablegen.go:14-20 [collectRuleHeads] *)
Fixpoint pcollect (g : slice) (n : nat) : prog (list bytes) :=
  match n with
  | O => pdo (Ok [])
  | S n' =>
      pp r <- p_rule g (sl_len g - n);
      pp rest <- pcollect g n';
      pdo (Ok (fst r :: rest))
  end.
Definition pcollectRuleHeads (g : slice) : prog (list bytes) := pcollect g (sl_len g).

Section Gen.
  (** The runtime's choice of capacities. *)
  Variable grow : nat -> nat.
  (** tablegen.go:37-44 [tableGenerator]: none of these is assigned to after
      its construction, only the arrays behind the slices are. *)
  Variable g : slice.
  Variable ruleCount : nat.
  Variable ruleMap : list (bytes * nat).
  Variable firsts follows : slice.

  (** tablegen.go:46-93 [sequenceFirsts]; [n] symbols are left *)
  Fixpoint psequenceFirsts_loop (seq : slice) (n : nat) (res : ByteSet) (found : bool)
    : prog ByteSet :=
    match n with
    | O => pdo (Ok (if found then bs_add res EOS else res))
    | S n' =>
        pp symbol <- p_sym seq (sl_len seq - n);
        match symbol with
        | STerminal t => pdo (go f <- terminalFirsts t; Ok (bs_union res f))
        | SNothing =>
            if Nat.ltb 1 (sl_len seq) then pdo (Err ENothingNotSingle)
            else pdo (Ok (bs_add res EOS))
        | SNonTerminal v =>
            match rm_get ruleMap v with
            | None => pdo (Err (ENoRulesDefined v))
            | Some ruleIndex =>
                pp ruleFirsts <- p_set firsts ruleIndex;
                let found := bs_contains ruleFirsts EOS in
                let ruleFirsts := bs_remove ruleFirsts EOS in
                let res := bs_union res ruleFirsts in
                if negb found then pdo (Ok res)
                else psequenceFirsts_loop seq n' res found
            end
        | SUnknown _ => pdo (Panic PanicUnknownSymbol)
        end
    end.
  Definition psequenceFirsts (seq : slice) : prog ByteSet :=
    psequenceFirsts_loop seq (sl_len seq) (bs_new []) true.

  (** tablegen.go:95-107 [substitutuionFirsts]; [n] sequences are left *)
  Fixpoint psubstitutionFirsts_loop (seqs : slice) (n : nat) (res : ByteSet) : prog ByteSet :=
    match n with
    | O => pdo (Ok res)
    | S n' =>
        pp seq <- p_seq seqs (sl_len seqs - n);
        pp seqFirsts <- psequenceFirsts seq;
        psubstitutionFirsts_loop seqs n' (bs_union res seqFirsts)
    end.

  (** tablegen.go:109-129 [ruleFirsts]; *firstsChanged is passed on *)
  Definition pruleFirsts (ruleIndex : nat) (changed : bool) : prog bool :=
    if Nat.leb ruleCount ruleIndex then pdo (Err ERuleIndex)
    else
      pp r <- p_rule g ruleIndex;
      pp tempRes <- psubstitutionFirsts_loop (snd r) (sl_len (snd r)) (bs_new []);
      pp f <- p_set firsts ruleIndex;
      if bs_is_superset f tempRes then pdo (Ok changed)
      else
        pp _ <- p_write firsts ruleIndex (bs_union f tempRes);
        pdo (Ok true).

  (** tablegen.go:136-141 *)
  Fixpoint pfirsts_round (idxs : list nat) (changed : bool) : prog bool :=
    match idxs with
    | [] => pdo (Ok changed)
    | i :: idxs' =>
        pp changed' <- pruleFirsts i changed;
        pfirsts_round idxs' changed'
    end.

  (** tablegen.go:131-144 [findFirsts] *)
  Fixpoint pfindFirsts (fuel : nat) : prog unit :=
    match fuel with
    | O => pdo NoFuel
    | S fuel' =>
        pp changed <- pfirsts_round (seq 0 (sl_len g)) false;
        if changed then pfindFirsts fuel' else pdo (Ok tt)
    end.

  (** tablegen.go:149-172 [symbolFirsts] *)
  Definition psymbolFirsts (s : symbol) : prog ByteSet :=
    match s with
    | STerminal t =>
        if Nat.eqb (List.length t) 0 then pdo (Err EEmptyTerminal) else pdo (terminalFirsts t)
    | SNothing => pdo (Ok (bs_new [EOS]))
    | SNonTerminal v =>
        match rm_get ruleMap v with
        | None => pdo (Err (ENoRulesDefined v))
        | Some ruleIndex => p_set firsts ruleIndex
        end
    | SUnknown _ => pdo (Err EUnknownSymbol)
    end.

  (** tablegen.go:209-214, 246-253, 263-267 (the test, and the union when it
      fails): was anything added? *)
  Definition padd_follows (ruleIndex : nat) (extra : ByteSet) : prog bool :=
    pp f <- p_set follows ruleIndex;
    if bs_is_superset f extra then pdo (Ok false)
    else
      pp _ <- p_write follows ruleIndex (bs_union f extra);
      pdo (Ok true).

  (** tablegen.go:219-268: positions i-1, i-2, ..., 0 *)
  Fixpoint pfollows_inner (ruleIndex : nat) (seq : slice) (sequenceRuleIndex : nat)
      (i : nat) (changed : bool) : prog bool :=
    match i with
    | O => pdo (Ok changed)
    | S i' =>
        pp sym <- p_sym seq i';
        pp r <- p_rule g ruleIndex;
        if negb (is_nonterminal_named sym (fst r)) then
          pfollows_inner ruleIndex seq sequenceRuleIndex i' changed
        else
          pp next <- p_sym seq (S i');
          pp nextFirsts <- psymbolFirsts next;
          pp changed <-
            (if bs_contains nextFirsts EOS && negb (Nat.eqb ruleIndex sequenceRuleIndex) then
               pp ruleFollows <- p_set follows sequenceRuleIndex;
               pp added <- padd_follows ruleIndex ruleFollows;
               pdo (Ok (if (added : bool) then true else changed))
             else pdo (Ok changed));
          let nextFirsts := bs_remove nextFirsts EOS in
          pp added <- padd_follows ruleIndex nextFirsts;
          pfollows_inner ruleIndex seq sequenceRuleIndex i' (if (added : bool) then true else changed)
    end.

  (** tablegen.go:174-271 [ruleFollowsInSequence] *)
  Definition pruleFollowsInSequence (ruleIndex : nat) (seq : slice) (sequenceRuleIndex : nat)
      (changed : bool) : prog bool :=
    let symbolsLen := sl_len seq in
    if Nat.eqb symbolsLen 0 then pdo (Err EEmptySequence)
    else
      let rest := pfollows_inner ruleIndex seq sequenceRuleIndex (symbolsLen - 1) changed in
      if negb (Nat.eqb ruleIndex sequenceRuleIndex) then
        pp symbol <- p_sym seq (symbolsLen - 1);
        pp r <- p_rule g ruleIndex;
        if is_nonterminal_named symbol (fst r) then
          pp ruleFollows <- p_set follows sequenceRuleIndex;
          pp added <- padd_follows ruleIndex ruleFollows;
          if (added : bool) then pdo (Ok true) else rest
        else rest
      else rest.

  (** tablegen.go:285-291; [n] sequences are left *)
  Fixpoint pfollows_sequences (ruleIndex : nat) (seqs : slice) (n : nat)
      (againstRuleIndex : nat) (changed : bool) : prog bool :=
    match n with
    | O => pdo (Ok changed)
    | S n' =>
        pp seq <- p_seq seqs (sl_len seqs - n);
        pp changed' <- pruleFollowsInSequence ruleIndex seq againstRuleIndex changed;
        pfollows_sequences ruleIndex seqs n' againstRuleIndex changed'
    end.

  (** tablegen.go:273-294 [ruleFollowsInRule] *)
  Definition pruleFollowsInRule (ruleIndex againstRuleIndex : nat) (changed : bool) : prog bool :=
    if Nat.leb ruleCount ruleIndex then pdo (Err ERuleNum)
    else if Nat.leb ruleCount againstRuleIndex then pdo (Err ETargetRuleNum)
    else
      pp r <- p_rule g againstRuleIndex;
      pfollows_sequences ruleIndex (snd r) (sl_len (snd r)) againstRuleIndex changed.

  (** tablegen.go:304-312 *)
  Fixpoint pfollows_round (pairs : list (nat * nat)) (changed : bool) : prog bool :=
    match pairs with
    | [] => pdo (Ok changed)
    | (i, j) :: pairs' =>
        pp changed' <- pruleFollowsInRule i j changed;
        pfollows_round pairs' changed'
    end.
  Fixpoint pfollows_loop (fuel : nat) : prog unit :=
    match fuel with
    | O => pdo NoFuel
    | S fuel' =>
        pp changed <- pfollows_round (list_prod (seq 0 (sl_len g)) (seq 0 (sl_len g))) false;
        if changed then pfollows_loop fuel' else pdo (Ok tt)
    end.

  (** tablegen.go:296-315 [findFollows]; [Add] works in place on follows[0] *)
  Definition pfindFollows (fuel : nat) : prog unit :=
    pp f0 <- p_set follows 0;
    pp _ <- p_write follows 0 (bs_add f0 EOS);
    pfollows_loop fuel.

  (** tablegen.go:335-343: the new cells are the literal [[]ParserOp{}], a slice
      of capacity 0 *)
  Fixpoint pfill_follows (terms : list ascii) (res : mrow) : prog mrow :=
    match terms with
    | [] => pdo (Ok res)
    | t :: terms' =>
        match mrow_get t res with
        | Some _ => pdo (Err EConflict)
        | None => pfill_follows terms' (map_set Ascii.eqb t nil_slice res)
        end
    end.

  (** [res[b] = append(res[b], op)]: a missing key reads as the nil slice *)
  Definition prow_append (b : ascii) (op : ParserOp) (res : mrow) : prog mrow :=
    let cur := match mrow_get b res with Some s => s | None => nil_slice end in
    pp s <- p_append grow cur op;
    pdo (Ok (map_set Ascii.eqb b s res)).

  (** tablegen.go:349-378; [n] symbols are left *)
  Fixpoint pfill_symbols (term : ascii) (seq : slice) (n : nat) (res : mrow) : prog mrow :=
    match n with
    | O => pdo (Ok res)
    | S n' =>
        pp symbol <- p_sym seq (sl_len seq - n);
        match symbol with
        | STerminal t =>
            pp res <- prow_append term (OpTerminal t) res;
            pfill_symbols term seq n' res
        | SNonTerminal v =>
            match rm_get ruleMap v with
            | None => pdo (Err (ENoRulesDefined v))
            | Some ruleIndex =>
                pp res <- prow_append term (OpNonTerminal (Z.of_nat ruleIndex)) res;
                pfill_symbols term seq n' res
            end
        | SNothing => pdo (Panic PanicNothingInSequence)
        | SUnknown _ => pdo (Panic PanicUnknownSymbol)
        end
    end.

  (** tablegen.go:348-379 *)
  Fixpoint pfill_firsts (terms : list ascii) (seq : slice) (res : mrow) : prog mrow :=
    match terms with
    | [] => pdo (Ok res)
    | t :: terms' =>
        pp res' <- pfill_symbols t seq (sl_len seq) res;
        pfill_firsts terms' seq res'
    end.

  (** tablegen.go:323-380; [n] sequences are left *)
  Fixpoint prow_loop (ruleIndex : nat) (seqs : slice) (n : nat) (res : mrow) : prog mrow :=
    match n with
    | O => pdo (Ok res)
    | S n' =>
        pp seq <- p_seq seqs (sl_len seqs - n);
        pp seqFirsts <- psequenceFirsts seq;
        pp (res, seqFirsts) <-
          (if bs_contains seqFirsts EOS then
             pp seqFollows <- p_set follows ruleIndex;
             pp terms <- pdo (bs_range seqFollows);
             pp res' <- pfill_follows terms res;
             pdo (Ok (res', bs_remove seqFirsts EOS))
           else pdo (Ok (res, seqFirsts)));
        pp terms <- pdo (bs_range seqFirsts);
        pp res <- pfill_firsts terms seq res;
        prow_loop ruleIndex seqs n' res
    end.

  (** tablegen.go:317-383 [makeTableRow] *)
  Definition pmakeTableRow (ruleIndex : nat) : prog mrow :=
    pp rule <- p_rule g ruleIndex;
    prow_loop ruleIndex (snd rule) (sl_len (snd rule)) [].

  (** tablegen.go:385-396 [makeTable] *)
  Fixpoint pmakeTable_loop (idxs : list nat) (tbl : mtable) : prog mtable :=
    match idxs with
    | [] => pdo (Ok tbl)
    | i :: idxs' =>
        pp r <- pmakeTableRow i;
        pmakeTable_loop idxs' (map_set Z.eqb (Z.of_nat i) r tbl)
    end.

  (** tablegen.go:398-411 [Run]; both loops get the same fuel *)
  Definition pRun (fuel : nat) : prog mtable :=
    pp _ <- pfindFirsts fuel;
    pp _ <- pfindFollows fuel;
    pmakeTable_loop (seq 0 (sl_len g)) [].
End Gen.

(** tablegen.go:413-455 [FromGrammar]; [order] is the iteration order of
    tablegen.go:450 *)
Definition pFromGrammar (grow : nat -> nat) (order : list (bytes * nat) -> list (bytes * nat))
    (fuel : nat) (g : slice) : prog (mtable * list (Z * bytes)) :=
  pp ruleHeads <- pcollectRuleHeads g;
  let ruleCount := List.length ruleHeads in
  pp firsts <- pmake_sets ruleCount;
  pp follows <- pmake_sets ruleCount;
  let ruleMap := enumerate ruleHeads in
  pp tbl <- pRun grow g ruleCount ruleMap firsts follows fuel;
  pdo (Ok (tbl, rowNames_of (order ruleMap))).


(** ** Several calls *)

(** A call: its grammar, the runtime's choice of capacities, the iteration
    order of tablegen.go:450, and how often the loops may run. *)
Record gjob := mkGJob {
  g_grow : nat -> nat;
  g_order : list (bytes * nat) -> list (bytes * nat);
  g_fuel : nat;
  g_rules : slice }.
Definition gcall : Type := prog (mtable * list (Z * bytes)).
Definition gstart (j : gjob) : gcall := pFromGrammar (g_grow j) (g_order j) (g_fuel j) (g_rules j).

Record gconfig := mkGConfig { gc_calls : list gcall; gc_mem : gmem }.
Definition gall_start (jobs : list gjob) (m : gmem) : gconfig := mkGConfig (map gstart jobs) m.

(** It is the turn of call [i]. *)
Definition gturn (c : gconfig) (i : nat) : gconfig :=
  match nth_error (gc_calls c) i with
  | None => c
  | Some p => let (p', m') := pstep p (gc_mem c) in mkGConfig (list_set (gc_calls c) i p') m'
  end.
(** A schedule is the list of whose turn it is. *)
Definition gafter (jobs : list gjob) (m : gmem) (sched : list nat) : gconfig :=
  fold_left gturn sched (gall_start jobs m).
