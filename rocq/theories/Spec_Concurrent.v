(** * Spec_Concurrent: races, and what calls do that run alone. *)
From Verif Require Import Base Cst Parser ConcurrentMany ParseApi.

(** Go's rule: two calls are about to access the same map, one of them writes. *)
Definition race (jobs : list job) (c : config) : Prop :=
  exists i k ji jk si sk x b,
    i <> k /\ nth_error jobs i = Some ji /\ nth_error jobs k = Some jk /\
    nth_error (c_calls c) i = Some si /\ nth_error (c_calls c) k = Some sk /\
    j_map ji = Some x /\ j_map jk = Some x /\
    access ji si = Some true /\ access jk sk = Some b.

(** The contents of the naming map a call was given ([None]: nil). *)
Definition names_given (maps : list (list (Z * bytes))) (j : job) : names_map :=
  match j_map j with Some x => nth_error maps x | None => None end.

(** The call alone, with nobody else using its maps. *)
Definition alone_tree (maps : list (list (Z * bytes))) (j : job) (t : node) : Prop :=
  exists fuel, parses_to fuel (j_table j) (names_given maps j) (j_source j) t.
Definition alone_error (maps : list (list (Z * bytes))) (j : job) (e : perror) : Prop :=
  exists fuel, fails_with fuel (j_table j) (names_given maps j) (j_source j) e.
Definition alone_panic (maps : list (list (Z * bytes))) (j : job) (p : gopanic) : Prop :=
  exists fuel, result fuel (j_table j) (names_given maps j) (j_source j) = Panic p.

(** Errors whose text contains a name from the naming map. *)
Definition names_a_row (e : perror) : Prop :=
  (exists n, e = ENoRulesForNonTerminal n) \/ (exists c n, e = ENoRulesForByte c n).

Definition has_returned (ts : tstate) : Prop :=
  match ts with RTree _ | RErr _ | RPanic _ => True | _ => False end.

(** How often [i] takes a turn. *)
Definition turns_of (i : nat) (sched : list nat) : nat := count_occ Nat.eq_dec sched i.
