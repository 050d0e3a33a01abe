(** * PipeConc: building parsers and parsing, at the same time, in one memory.

    A program that uses the packages from several goroutines: some call
    [tablegen.FromGrammar] (TableGenConc.v), some call [Parse] on parsers they
    have (ParserConc.v), and some do both, as /repo/examples/json/main.go:73-94
    and /repo/test/parser/parser_test.go:192-231 do: build a table, make a parser of
    it with [NewLL1Parser] (/repo/pkg/parser/parser.go:143-146), parse a source.
    All work in one memory and take turns access by access.

    Simplifications: those of TableGenConc.v and ParserConc.v. Going from the
    table to the first statement of [Parse] is one step; the naming map stays with
    the goroutine that built it. *)
From Verif Require Import Base ByteSet Ast Parser SliceMem ParserMem TableGen TableGenMem TableGenConc ParserConc.

(** The operands, nodes and bytes of the common memory. *)
Definition set_gmem (m : gmem) (x : mem) : gmem :=
  mkGM x (gm_syms m) (gm_seqs m) (gm_rules m) (gm_sets m).

(** What is to be parsed with the parser that is being built. *)
Record xnext := mkXNext { xn_grow : nat -> nat; xn_fuel : nat; xn_source : msource }.

(** What a goroutine does: build a table; parse; or
    [t, n, err := FromGrammar(g); if err == nil { NewLL1Parser(t, n).Parse(src) }]
    (examples/json/main.go:73-94). *)
Inductive xjob : Type :=
| XBuild (j : gjob)
| XParse (j : qjob)
| XBoth (j : gjob) (nx : xnext).

(** What is left to do. *)
Inductive xcall : Type :=
| XG (p : gcall) (nx : option xnext)
| XQ (p : qcall).

Definition xstart (j : xjob) : xcall :=
  match j with
  | XBuild j => XG (gstart j) None
  | XParse j => XQ (qstart j)
  | XBoth j nx => XG (gstart j) (Some nx)
  end.

(** One step of a goroutine on the memory shared by all. *)
Definition xstep (c : xcall) (m : gmem) : xcall * gmem :=
  match c with
  | XG (PRet (Ok (mt, names))) (Some nx) =>
      (XQ (qParse (xn_grow nx) (xn_fuel nx) mt (Some names) (xn_source nx)), m)
  | XG p nx => let (p', m') := pstep p m in (XG p' nx, m')
  | XQ p => let (p', m') := qstep p (gm_mem m) in (XQ p', set_gmem m m')
  end.

(** What a goroutine ends with: the outcome of [FromGrammar], or of [Parse]. *)
Inductive xout : Type :=
| XTable (r : tgres (mtable * list (Z * bytes)))
| XTree (o : qout).
Definition xdone (c : xcall) : option xout :=
  match c with
  | XG (PRet (Ok _)) (Some _) => None
  | XG (PRet r) _ => Some (XTable r)
  | XQ (QRet o) => Some (XTree o)
  | _ => None
  end.

(** ** Several goroutines *)
Record xconfig := mkXConfig { xc_calls : list xcall; xc_mem : gmem }.
Definition xall_start (jobs : list xjob) (m : gmem) : xconfig := mkXConfig (map xstart jobs) m.

(** It is the turn of goroutine [i]. *)
Definition xturn (c : xconfig) (i : nat) : xconfig :=
  match nth_error (xc_calls c) i with
  | None => c
  | Some p => let (p', m') := xstep p (xc_mem c) in mkXConfig (list_set (xc_calls c) i p') m'
  end.
(** A schedule is the list of whose turn it is. *)
Definition xafter (jobs : list xjob) (m : gmem) (sched : list nat) : xconfig :=
  fold_left xturn sched (xall_start jobs m).
