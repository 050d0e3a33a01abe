(** * PipeAll: goroutines that convert a grammar, build a parser of it and parse with it.

    The last simplification of MixConc.v removed: a goroutine may call [ToAST],
    pass the grammar it got to [FromGrammar], make a parser of the table and parse
    a source, all while others convert, build and parse in the same memory
    (/repo/examples/json/main.go:68-88, in several goroutines). Steps are single
    appends and accesses, as in ConvertConc.v and PipeConc.v.

    Simplification: the tree that is converted is a value (it is only read), so
    the parse that made it is not a stage of the goroutine; going from one stage
    to the next is one step. *)
From Verif Require Import Base Cst Ast FromCst SliceMem ParserMem TableGenMem FromCstMem
  TableGen TableGenConc ParserConc PipeConc ConvertConc.

(** What is to be done with the grammar: build a table, and maybe parse. *)
Record bnext := mkBNext {
  b_grow : nat -> nat;
  b_order : list (bytes * nat) -> list (bytes * nat);
  b_fuel : nat;
  b_next : option xnext }.
Definition bjob (b : bnext) (rules : slice) : gjob := mkGJob (b_grow b) (b_order b) (b_fuel b) rules.

(** What a goroutine does: something of PipeConc.v; or it converts, and goes on
    when there is no error (examples/json/main.go:69-88). *)
Inductive zjob : Type :=
| ZWork (j : xjob)
| ZConvert (j : rjob) (b : option bnext).

(** What is left to do. *)
Inductive zcall : Type :=
| ZR (p : rcall) (b : option bnext)
| ZX (c : xcall).
Definition zstart (z : zjob) : zcall :=
  match z with
  | ZWork j => ZX (xstart j)
  | ZConvert j b => ZR (rstart j) b
  end.

(** One step of a goroutine on the memory shared by all. *)
Definition zstep (c : zcall) (m : gmem) : zcall * gmem :=
  match c with
  | ZR (RRet (Ok rules)) (Some b) => (ZX (XG (gstart (bjob b rules)) (b_next b)), m)
  | ZR p b => let (p', m') := rstep p m in (ZR p' b, m')
  | ZX c => let (c', m') := xstep c m in (ZX c', m')
  end.

(** What a goroutine ends with: the outcome of [ToAST], or of what comes after. *)
Inductive zout : Type :=
| ZGrammar (r : gores fcerror slice)
| ZBuilt (o : xout).
Definition zdone (c : zcall) : option zout :=
  match c with
  | ZR (RRet (Ok _)) (Some _) => None
  | ZR (RRet r) _ => Some (ZGrammar r)
  | ZR _ _ => None
  | ZX c => option_map ZBuilt (xdone c)
  end.

(** ** Several goroutines *)
Record zconfig := mkZConfig { zc_calls : list zcall; zc_mem : gmem }.
Definition zall_start (jobs : list zjob) (m : gmem) : zconfig := mkZConfig (map zstart jobs) m.

(** It is the turn of goroutine [i]. *)
Definition zturn (c : zconfig) (i : nat) : zconfig :=
  match nth_error (zc_calls c) i with
  | None => c
  | Some p => let (p', m') := zstep p (zc_mem c) in mkZConfig (list_set (zc_calls c) i p') m'
  end.
(** A schedule is the list of whose turn it is. *)
Definition zafter (jobs : list zjob) (m : gmem) (sched : list nat) : zconfig :=
  fold_left zturn sched (zall_start jobs m).
