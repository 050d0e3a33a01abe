(** * ConcurrentMany: concurrent Parse calls of parsers that share maps.

    Goroutines that call [Parse] (parser.go:474-499), each on a parser of its
    own or on a shared one: calls may have the same or different tables, naming
    maps and sources.  Tables are only read.  A naming map is read to word the
    error of a missing cell (parser.go:234-240) and written twice on success
    (parser.go:367-371).  Every loop iteration, and each of the two writes, is
    one turn; a schedule says who takes the next turn.

    Simplification: map accesses are atomic here; [access] says which state is
    about to access its map, so that races can be defined.  Every call has its
    own source: a reader shared by two calls would be a race in that reader. *)
From Verif Require Import Base Cst Parser Histories.

Record job := mkJob { j_table : table; j_map : option nat; j_source : source }.

Inductive tstate : Type :=
| RStart                             (* parser.go:475, at the beginning *)
| RRun (text : bytes) (st : pstate)  (* parser.go:396, in the loop *)
| RWrite1 (t : node)                 (* before parser.go:368 *)
| RWrite2 (t : node)                 (* before parser.go:369 *)
| RTree (t : node)                   (* has returned the tree *)
| RErr (e : perror)                  (* has returned the error *)
| RPanic (p : gopanic).

(** The next turn of a call, given its naming map: the state after it and the
    map after it; [None] if the call has returned. *)
Definition turn (j : job) (ts : tstate) (nm : names_map) : option (tstate * names_map) :=
  match ts with
  | RStart =>   (* parser.go:475-490 *)
      Some (match j_table j with
            | [] => RErr EEmptyTable
            | _ :: _ =>
                match table_get 0 (j_table j) with
                | None => RErr ENoBaseEntry
                | Some _ =>
                    match fst (readSource (j_source j)) with
                    | Ok text => RRun text init_state
                    | Err e => RErr e
                    | Panic p => RPanic p
                    | NoFuel => RPanic PanicUnreachable (* readSource never returns this *)
                    end
                end
            end, nm)
  | RRun text st =>   (* parser.go:396-449 *)
      Some (match step (j_table j) text nm st with
            | SNext st' => RRun text st'
            | SReturn r _ =>
                match r_tree r, r_err r with
                | Some t, _ => RWrite1 t
                | None, Some e => RErr e
                | None, None => RPanic PanicUnreachable (* no step returns this *)
                end
            | SPanic p => RPanic p
            end, nm)
  | RWrite1 t =>   (* parser.go:368 *)
      Some (match nm with
            | None => (RPanic PanicNilMapWrite, None)
            | Some m => (RWrite2 t, Some (map_set Z.eqb builtinTerminal (s2b "_literal") m))
            end)
  | RWrite2 t =>   (* parser.go:369-371 *)
      Some (match nm with
            | None => (RPanic PanicNilMapWrite, None)
            | Some m => (RTree t, Some (map_set Z.eqb builtinNothing (s2b "_nothing") m))
            end)
  | RTree _ | RErr _ | RPanic _ => None
  end.

Record config := mkConfig { c_calls : list tstate; c_maps : list (list (Z * bytes)) }.

(** The naming map of a call (parser.go:138-146: a reference; none is nil). *)
Definition map_of (maps : list (list (Z * bytes))) (j : job) : names_map :=
  match j_map j with None => None | Some x => nth_error maps x end.
Definition put_map (maps : list (list (Z * bytes))) (j : job) (nm : names_map) :=
  match j_map j, nm with Some x, Some m => replace maps x m | _, _ => maps end.

(** Call number [i] takes its next turn. *)
Definition take_turn (jobs : list job) (c : config) (i : nat) : config :=
  match nth_error jobs i, nth_error (c_calls c) i with
  | Some j, Some ts =>
      match turn j ts (map_of (c_maps c) j) with
      | Some (ts', nm) => mkConfig (replace (c_calls c) i ts') (put_map (c_maps c) j nm)
      | None => c
      end
  | _, _ => c
  end.

(** All calls started on the given maps, and a schedule of turns. *)
Definition all_start (jobs : list job) (maps : list (list (Z * bytes))) : config :=
  mkConfig (map (fun _ => RStart) jobs) maps.
Definition after_turns (jobs : list job) (maps : list (list (Z * bytes))) (sched : list nat) : config :=
  fold_left (take_turn jobs) sched (all_start jobs maps).

(** Is the call about to access its naming map?  [Some true]: to write it;
    [Some false]: to read it (parser.go:234-240, called from 243-256). *)
Definition access (j : job) (ts : tstate) : option bool :=
  match ts with
  | RWrite1 _ | RWrite2 _ => Some true
  | RRun text st =>
      match ps_ops st with
      | OpNonTerminal n :: _ =>
          if (n <? 0)%Z then None
          else match table_get n (j_table j) with
               | None => Some false
               | Some r => match row_get (peek text (ps_off st)) r with
                           | None => Some false
                           | Some _ => None
                           end
               end
      | _ => None
      end
  | _ => None
  end.
