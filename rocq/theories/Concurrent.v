(** * Concurrent: several Parse calls running at the same time on one parser.

    Model of goroutines calling [Parse] (parser.go:474-499) on one shared
    parser.  What they share is the table, which is only read, and the naming
    map: it is read to word an error (parser.go:234-240) and written twice on
    success (parser.go:367-371).  Every loop iteration, and each of the two map
    writes separately, is one step; steps of different calls interleave in any
    order.

    Simplification: map accesses are atomic here.  In Go they are not: two
    calls that are about to access the map, one of them writing, are a data
    race, for which Go promises nothing ("concurrent map writes" aborts the
    program).  [racy] singles out these configurations. *)
From Verif Require Import Base Cst Parser.

Inductive thread : Type :=
| TRun (text : bytes) (st : pstate)      (* inside the loop *)
| TWrite1 (text : bytes) (t : node)      (* before names[-1] = "_literal" *)
| TWrite2 (text : bytes) (t : node)      (* before names[-2] = "_nothing" *)
| TTree (text : bytes) (t : node)        (* has returned the tree *)
| TErr (text : bytes) (e : perror)       (* has returned the error *)
| TPanic (text : bytes) (p : gopanic).

Definition conc := (list thread * names_map)%type.

Section Conc.
  Variable tbl : table.

  (** One step of one call, given the current contents of the shared map. *)
  Inductive thread_step : thread -> names_map -> thread -> names_map -> Prop :=
  | ts_next text st st' names :
      step tbl text names st = SNext st' ->
      thread_step (TRun text st) names (TRun text st') names
  | ts_err text st names e nm r2 :
      step tbl text names st = SReturn (mkRet None r2 (Some e)) nm ->
      thread_step (TRun text st) names (TErr text e) names
  | ts_found text st names t nm r2 r3 :
      step tbl text names st = SReturn (mkRet (Some t) r2 r3) nm ->
      thread_step (TRun text st) names (TWrite1 text t) names
  | ts_panic text st names p :
      step tbl text names st = SPanic p ->
      thread_step (TRun text st) names (TPanic text p) names
  | ts_write1 text t m :
      thread_step (TWrite1 text t) (Some m) (TWrite2 text t)
        (Some (map_set Z.eqb builtinTerminal (s2b "_literal") m))
  | ts_write2 text t m :
      thread_step (TWrite2 text t) (Some m) (TTree text t)
        (Some (map_set Z.eqb builtinNothing (s2b "_nothing") m)).

  (** Any call may go next. *)
  Inductive conc_step : conc -> conc -> Prop :=
  | cs l1 th l2 names th' names' :
      thread_step th names th' names' ->
      conc_step (l1 ++ th :: l2, names) (l1 ++ th' :: l2, names').

  Inductive conc_steps : conc -> conc -> Prop :=
  | css_refl c : conc_steps c c
  | css_more a b c : conc_steps a b -> conc_step b c -> conc_steps a c.
End Conc.

(** All calls at their beginning. *)
Definition conc_init (texts : list bytes) (m : list (Z * bytes)) : conc :=
  (map (fun text => TRun text init_state) texts, Some m).

Definition writing (th : thread) : Prop :=
  match th with TWrite1 _ _ | TWrite2 _ _ => True | _ => False end.

(** Two different calls are about to write the same map. *)
Definition racy (c : conc) : Prop :=
  exists i j a b, i <> j /\ nth_error (fst c) i = Some a /\ nth_error (fst c) j = Some b /\
                  writing a /\ writing b.
