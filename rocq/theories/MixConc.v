(** * MixConc: converting, building parsers and parsing at the same time, in one memory.

    Goroutines that call [ToAST] (ConvertConc.v) next to goroutines that call
    [FromGrammar], [Parse] or both (PipeConc.v), as the steps of
    /repo/examples/json/main.go:52-88 do for one grammar: a program that turns
    grammars into parsers while others of its goroutines parse. All work in one
    memory and take turns, append by append and access by access.

    Simplifications: those of ConvertConc.v and PipeConc.v. A goroutine builds
    from a grammar that stands in memory when all start; building from a grammar
    that another goroutine has converted is a second phase (C118_then_build). *)
From Verif Require Import Base Cst Ast FromCst SliceMem ParserMem TableGenMem FromCstMem
  TableGen TableGenConc ParserConc PipeConc ConvertConc.

Record yconfig := mkYConfig { y_calls : list xcall; y_convs : list rcall; y_mem : gmem }.
Definition yall_start (xjobs : list xjob) (rjobs : list rjob) (m : gmem) : yconfig :=
  mkYConfig (map xstart xjobs) (map rstart rjobs) m.

(** It is the turn of builder [i], or of converter [i]. *)
Definition yturn (c : yconfig) (t : nat + nat) : yconfig :=
  match t with
  | inl i =>
      match nth_error (y_calls c) i with
      | None => c
      | Some p => let (p', m') := xstep p (y_mem c) in
                  mkYConfig (list_set (y_calls c) i p') (y_convs c) m'
      end
  | inr i =>
      match nth_error (y_convs c) i with
      | None => c
      | Some p => let (p', m') := rstep p (y_mem c) in
                  mkYConfig (y_calls c) (list_set (y_convs c) i p') m'
      end
  end.
(** A schedule is the list of whose turn it is. *)
Definition yafter (xjobs : list xjob) (rjobs : list rjob) (m : gmem) (sched : list (nat + nat)) : yconfig :=
  fold_left yturn sched (yall_start xjobs rjobs m).
