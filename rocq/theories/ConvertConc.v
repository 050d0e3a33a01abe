(** * ConvertConc: calls of ToAST running at the same time, append by append.

    pkg/bnf/fromcst/fromcst.go once more (FromCstMem.v), now for goroutines that
    call [ToAST] on one memory. What a call does to memory are its appends: of a
    symbol to res.Symbols, of an alternative to res.Sequences, of a rule to
    res.Rules. Each is one step of a program, and between any two steps of a
    call the other calls may take any number of steps. All calls allocate from
    one memory, so the addresses a call gets depend on what the others did.

    Simplifications. The tree, the text and the maps of the bindings are values
    (they are only read). So is IgnoreNodeTypes: the calls have a slice of their
    own each, or share one that is in order; the sort of a shared one that is
    not is the subject of ConvertConcurrent.v. A step is atomic: in Go two
    accesses to one array by two goroutines, one of them writing, are a data
    race for which nothing is promised; [rrace] in Spec_ConvertConc.v singles
    out the configurations in which two calls are about to do that, and none is
    ever reached (Props_ConvertConc.v). *)
From Verif Require Import Base Cst Ast FromCst SliceMem ParserMem TableGenMem FromCstMem.

(** What is left to do of a call: it has ended, or goes on with an append. *)
Inductive rprog (A : Type) : Type :=
| RRet (a : A)
| RSym (grow : nat -> nat) (s : slice) (x : symbol) (k : slice -> rprog A)
| RSeq (grow : nat -> nat) (s : slice) (x : slice) (k : slice -> rprog A)
| RRule (grow : nat -> nat) (s : slice) (x : mrule) (k : slice -> rprog A).
Arguments RRet {A}. Arguments RSym {A}. Arguments RSeq {A}. Arguments RRule {A}.

Fixpoint rbind {A B} (p : rprog A) (f : A -> rprog B) : rprog B :=
  match p with
  | RRet a => f a
  | RSym g s x k => RSym g s x (fun t => rbind (k t) f)
  | RSeq g s x k => RSeq g s x (fun t => rbind (k t) f)
  | RRule g s x k => RRule g s x (fun t => rbind (k t) f)
  end.
Notation "'rr' x <- e ; k" := (rbind e (fun x => k))
  (at level 200, x pattern, e at level 100, k at level 200, right associativity).

(** One step of a call on the memory shared by all. *)
Definition rstep {A} (p : rprog A) (m : gmem) : rprog A * gmem :=
  match p with
  | RRet a => (RRet a, m)
  | RSym grow s x k =>
      let (h, t) := slice_append zero_symbol grow (gm_syms m) s [x] in (k t, set_gsyms m h)
  | RSeq grow s x k =>
      let (h, t) := slice_append nil_slice grow (gm_seqs m) s [x] in (k t, set_gseqs m h)
  | RRule grow s x k =>
      let (h, t) := slice_append zero_rule grow (gm_rules m) s [x] in (k t, set_grules m h)
  end.

(** ** The code *)
(** The callback of a traversal: closure state [S]. *)
Definition rcallback (S : Type) := S -> node -> rprog (S * stop).

Section Traverse.
  Context {S : Type}.
  Variable isTypeIgnored : Z -> bool.
  Variable isSearchedType : Z -> bool.
  Variable fOnNode : rcallback S.

  (** fromcst.go:14-36 [flexVisitor.Visit]; the state carries [*v.err] (a panic
      is recorded there too, and nothing is visited any more); the answer is
      whether Walk goes on with the children *)
  Definition rflexVisit (st : S * stop) (n : node) : rprog ((S * stop) * bool) :=
    match snd st with
    | Ok tt =>
        if isTypeIgnored (n_type n) then RRet (st, false)
        else if isSearchedType (n_type n) then
          rr st <- fOnNode (fst st) n; RRet (st, false)
        else RRet (st, true)
    | _ => RRet (st, false)
    end.

  (** cst.go:42-54 [Walk] with that visitor *)
  Fixpoint rwalk (st : S * stop) (n : node) {struct n} : rprog (S * stop) :=
    match n with
    | Node _ _ _ childs =>
        rr (st, more) <- rflexVisit st n;
        if (more : bool) then
          (fix walk_list (st : S * stop) (l : list node) {struct l} : rprog (S * stop) :=
             match l with
             | [] => RRet st
             | c :: l' => rr st <- rwalk st c; walk_list st l'
             end) st childs
        else RRet st
    end.

  (** fromcst.go:45-60 [lrTraverse] *)
  Definition rlrTraverse (root : node) (s : S) : rprog (S * stop) := rwalk (s, Ok tt) root.
End Traverse.

Section Convert.
  (** The runtime's choice of capacities. *)
  Variable grow : nat -> nat.
  Variable b : bindings.
  Variable str : bytes.

  (** fromcst.go:105-121 [BNFCSTtoASTBindings.lrTraverse] *)
  Definition rb_lrTraverse {S} (root : node) (untilType : Z) (f : rcallback S) (s : S)
    : rprog (S * stop) :=
    rlrTraverse (isNodeIgnored (IgnoreNodeTypes b)) (fun t => (t =? untilType)%Z) f root s.

  (** fromcst.go:219-226 [doOnSymbol]; state: res.Symbols *)
  Definition rdoOnSymbol : rcallback slice := fun symbols n =>
    match parseSymbol b str n with
    | Ok x => RSym grow symbols x (fun symbols => RRet (symbols, Ok tt))
    | Err e => RRet (symbols, Err e)
    | Panic p => RRet (symbols, Panic p)
    | NoFuel => RRet (symbols, NoFuel)
    end.

  (** fromcst.go:215-233 [parseSequence]: res.Symbols and the error *)
  Definition rparseSequence (seq_node : node) : rprog (slice * stop) :=
    rb_lrTraverse seq_node (SequencesSymbolType b) rdoOnSymbol nil_slice.

  (** fromcst.go:240-247 [doOnSequence]; state: res.Sequences *)
  Definition rdoOnSequence : rcallback slice := fun seqs n =>
    rr (s, err) <- rparseSequence n;
    match err with
    | Ok tt => RSeq grow seqs s (fun seqs => RRet (seqs, Ok tt))
    | _ => RRet (seqs, err)
    end.

  (** fromcst.go:235-255 [parseSubstitution]: res.Sequences and the error *)
  Definition rparseSubstitution (expression : node) : rprog (slice * stop) :=
    rb_lrTraverse expression (ExpressionSequencesType b) rdoOnSequence nil_slice.

  (** fromcst.go:280-287 [doOnSubstitution]; state: res.Tail *)
  Definition rdoOnSubstitution : rcallback slice := fun tail n =>
    rr (s, err) <- rparseSubstitution n;
    match err with
    | Ok tt => RRet (s, Err (ESearchComplete InRule))
    | _ => RRet (tail, err)
    end.

  (** [fmt.Errorf(.., nodeName(rule, str))] *)
  Definition rfail (rule_node : node) (e : bytes -> fcerror) : rprog (gores fcerror mrule) :=
    RRet (go text <- lift (nodeName rule_node str); Err (e text)).

  (** fromcst.go:257-300 [parseRule] *)
  Definition rparseRule (rule_node : node) : rprog (gores fcerror mrule) :=
    match b_lrTraverse b rule_node (RuleHeadType b) (doOnHead str) [] with
    | Ok (head, Some (ESearchComplete InRule)) =>
        rr (tail, err) <- rb_lrTraverse rule_node (RuleTailType b) rdoOnSubstitution nil_slice;
        match err with
        | Err (ESearchComplete InRule) => RRet (Ok (head, tail))
        | Ok tt => rfail rule_node ENoRuleSubstitution
        | Err e => RRet (Err e)
        | Panic p => RRet (Panic p)
        | NoFuel => RRet NoFuel
        end
    | Ok _ => rfail rule_node ENoRuleName
    | Err e => match e with end
    | Panic p => RRet (Panic p)
    | NoFuel => RRet NoFuel
    end.

  (** fromcst.go:308-315 [doOnRule]; state: res.Rules *)
  Definition rdoOnRule : rcallback slice := fun rules n =>
    rr res <- rparseRule n;
    match res with
    | Ok r => RRule grow rules r (fun rules => RRet (rules, Ok tt))
    | Err e => RRet (rules, Err e)
    | Panic p => RRet (rules, Panic p)
    | NoFuel => RRet (rules, NoFuel)
    end.

  (** fromcst.go:306-323 body of [ToAST] after the sort: the slice of rules
      (nil with an error), or that it panics *)
  Definition rToAST_sorted (root : node) : rprog (gores fcerror slice) :=
    rr (rules, err) <- rb_lrTraverse root (RuleType b) rdoOnRule nil_slice;
    RRet (match err with
          | Ok tt => Ok rules
          | Err e => Err e
          | Panic p => Panic p
          | NoFuel => NoFuel
          end).
End Convert.

(** fromcst.go:302-324 [ToAST] *)
Definition rToAST (grow : nat -> nat) (b : bindings) (root : node) (str : bytes)
  : rprog (gores fcerror slice) :=
  rToAST_sorted grow (sort_bindings b) str root.

(** ** Several calls *)

(** A call: the bindings, the tree, the text, the runtime's choice of capacities. *)
Record rjob := mkRJob {
  r_grow : nat -> nat;
  r_bindings : bindings;
  r_root : node;
  r_str : bytes }.
Definition rcall : Type := rprog (gores fcerror slice).
Definition rstart (j : rjob) : rcall := rToAST (r_grow j) (r_bindings j) (r_root j) (r_str j).

Record rconfig := mkRConfig { rc_calls : list rcall; rc_mem : gmem }.
Definition rall_start (jobs : list rjob) (m : gmem) : rconfig := mkRConfig (map rstart jobs) m.

(** It is the turn of call [i]. *)
Definition rturn (c : rconfig) (i : nat) : rconfig :=
  match nth_error (rc_calls c) i with
  | None => c
  | Some p => let (p', m') := rstep p (rc_mem c) in mkRConfig (list_set (rc_calls c) i p') m'
  end.
(** A schedule is the list of whose turn it is. *)
Definition rafter (jobs : list rjob) (m : gmem) (sched : list nat) : rconfig :=
  fold_left rturn sched (rall_start jobs m).
