(** * Props_ConvertConcurrent: property C56.  ToAST sorts the IgnoreNodeTypes of
    the bindings in place: what callers sharing a slice can rely on. *)
From Verif Require Import Base Cst Ast FromCst Spec_Convert ConvertProofs ConvertConcurrent
  ConvertConcurrentProofs.
From Coq Require Import Sorted Permutation.

(** A call on its own returns the grammar [ToAST] describes and leaves the
    caller's slice sorted, with the same elements: from wherever the call has
    got to, that is where it ends. *)
Theorem C56_alone :
  forall b root str l,
    exists l', Sorted Z.le l' /\ Permutation l l' /\
      let final := ([CDone (ToAST (with_ignored l b) root str)], l') in
      cc_steps b [(root, str)] (cc_init [(root, str)] l) final /\
      forall c, cc_steps b [(root, str)] (cc_init [(root, str)] l) c ->
                cc_steps b [(root, str)] c final.
Proof.
  intros b root str l. exists (sort_ints l). split; [apply sort_ints_sorted|].
  split; [symmetry; apply sort_ints_perm|]. cbv zeta. split; [apply alone_reaches|].
  intros c H. eapply alone_confluent; [exact H|apply alone_reaches].
Qed.
Print Assumptions C56_alone.

(** Calls one after the other do not disturb each other: on the slice the
    first one leaves, the second returns what it would have on the original. *)
Theorem C56_one_after_the_other :
  forall b root1 str1 root2 str2 l r1 l1 r2 l2,
    cc_steps b [(root1, str1)] (cc_init [(root1, str1)] l) ([CDone r1], l1) ->
    cc_steps b [(root2, str2)] (cc_init [(root2, str2)] l1) ([CDone r2], l2) ->
    r1 = ToAST (with_ignored l b) root1 str1 /\ r2 = ToAST (with_ignored l b) root2 str2 /\ l2 = l1.
Proof.
  intros b root1 str1 root2 str2 l r1 l1 r2 l2 H1 H2.
  assert (E : forall root str l r l',
    cc_steps b [(root, str)] (cc_init [(root, str)] l) ([CDone r], l') ->
    r = ToAST (with_ignored l b) root str /\ l' = sort_ints l).
  { intros root str l0 r l' H. pose proof (alone_confluent b root str _ _ _ _ _ H (alone_reaches b root str l0)) as C.
    destruct (steps_head _ _ _ _ _ C) as [Q|(z & Z1 & _)]; [inversion Q; auto|].
    destruct (alone_inv _ _ _ _ _ _ Z1) as (t & l3 & _ & S). inversion S. }
  destruct (E _ _ _ _ _ H1) as (-> & ->). destruct (E _ _ _ _ _ H2) as (-> & ->).
  split; [reflexivity|]. split.
  - apply ToAST_ignored. intros t. split; apply Permutation_in; [|symmetry]; apply sort_ints_perm.
  - apply sort_sorted, sort_ints_sorted.
Qed.
Print Assumptions C56_one_after_the_other.

(** On a sorted slice calls may overlap in any way: nobody writes to the slice,
    and every call that has returned has returned what it would have alone. *)
Theorem C56_sorted_slice :
  forall b calls l ts l',
    Sorted Z.le l -> cc_steps b calls (cc_init calls l) (ts, l') ->
    l' = l /\
    (forall t, In t ts -> match t with CWrite1 _ _ _ _ | CWrite2 _ _ _ => False | _ => True end) /\
    (forall k root str r, nth_error calls k = Some (root, str) -> nth_error ts k = Some (CDone r) ->
       r = ToAST (with_ignored l b) root str).
Proof.
  intros b calls l ts l' Hs H. destruct (quiet_always b calls l Hs _ H) as (E & F). cbn [fst snd] in *.
  split; [exact E|]. split.
  - intros t Ht. clear H. induction F as [|c u cs us U F IH]; [destruct Ht|].
    destruct Ht as [->|Ht]; [|apply IH, Ht]. destruct t; cbn in *; auto.
  - clear H E. induction F as [|c u cs us U F IH]; intros [|k] root str r N1 N2; try discriminate; cbn in *.
    + inversion N1; subst. inversion N2; subst. exact U.
    + eapply IH; eassumption.
Qed.
Print Assumptions C56_sorted_slice.

(** No execution goes on forever, sorted slice or not ... *)
Theorem C56_no_endless_sorting :
  forall b calls l, Acc (fun y x => cc_step b calls x y) (cc_init calls l).
Proof.
  intros b calls l. eapply (ends b calls (length l)); [reflexivity| |apply le_n].
  unfold cc_init. clear. induction calls; constructor; auto. cbn. lia.
Qed.
Print Assumptions C56_no_endless_sorting.

(** ... and a call that has not returned can always take a step. *)
Theorem C56_never_stuck :
  forall b calls ts l k t call,
    nth_error calls k = Some call -> nth_error ts k = Some t -> (forall r, t <> CDone r) ->
    exists c, cc_step b calls (ts, l) c.
Proof.
  intros b calls ts l k t [root str] N1 N2 ND.
  apply nth_error_split in N2. destruct N2 as (l1 & l2 & -> & <-).
  assert (S : exists t' l', ct_step b root str t l t' l').
  { destruct t.
    - destruct (Nat.lt_ge_cases i (length l)) as [L|L]; [|do 2 eexists; apply ct_end, L].
      destruct (Nat.lt_ge_cases 0 j) as [J|J]; [|do 2 eexists; apply ct_next; [exact L|lia]].
      destruct (Z.lt_ge_cases (nth j l 0%Z) (nth (j - 1) l 0%Z)) as [X|X].
      + do 2 eexists. apply ct_less; assumption.
      + do 2 eexists. apply ct_next; [exact L|lia].
    - do 2 eexists. apply ct_read.
    - do 2 eexists. apply ct_write1.
    - do 2 eexists. apply ct_write2.
    - do 2 eexists. apply ct_convert.
    - exfalso. eapply ND. reflexivity. }
  destruct S as (t' & l' & S). eexists. econstructor; eassumption.
Qed.
Print Assumptions C56_never_stuck.

(** On an unsorted slice two overlapping calls can go wrong, for good: a node
    type disappears from the caller's slice, a call converts what it should
    have ignored, and so does every later call.  Here comments (type 25) of
    the package's own bindings, with two more ignored types listed out of
    order. *)
Definition unsorted := [30; 7; 25]%Z.
Definition commented : node :=
  let name p q := Node 18 p q [] in
  let content p q := Node 4 p q [name p q; Node 5 q q []] in
  Node 0 0 2 [Node 25 0 1 [content 0 1]; content 1 2]%Z.
Theorem C56_refuted_unsorted :
  let b := SelfCSTtoASTBindings in
  let calls := [(commented, s2b "ab"); (commented, s2b "ab")] in
  exists r1 r2 l',
    cc_steps b calls (cc_init calls unsorted) ([CDone r1; CDone r2], l') /\
    r2 = ToAST (with_ignored unsorted b) commented (s2b "ab") /\
    r2 = Ok [mkRule (s2b "b") []] /\
    r1 = Ok [mkRule (s2b "a") []; mkRule (s2b "b") []] /\
    ~ In 25%Z l' /\
    ToAST (with_ignored l' b) commented (s2b "ab") = r1.
Proof.
  cbv zeta.
  assert (T : forall x y z, cc_steps SelfCSTtoASTBindings [(commented, s2b "ab"); (commented, s2b "ab")] x y ->
     cc_steps SelfCSTtoASTBindings [(commented, s2b "ab"); (commented, s2b "ab")] y z ->
     cc_steps SelfCSTtoASTBindings [(commented, s2b "ab"); (commented, s2b "ab")] x z).
  { intros x y z H1 H2. induction H2; [exact H1|]. econstructor; [apply IHcc_steps, H1|exact H]. }
  assert (A : forall t l t' l' u c,
     ct_step SelfCSTtoASTBindings commented (s2b "ab") t l t' l' ->
     cc_steps SelfCSTtoASTBindings [(commented, s2b "ab"); (commented, s2b "ab")] ([t'; u], l') c ->
     cc_steps SelfCSTtoASTBindings [(commented, s2b "ab"); (commented, s2b "ab")] ([t; u], l) c).
  { intros t l t' l' u c S H. eapply T; [|exact H]. econstructor; [constructor|].
    apply (ccs _ _ [] t [u] l t' l' commented (s2b "ab")); [reflexivity|exact S]. }
  assert (B : forall t l t' l' u c,
     ct_step SelfCSTtoASTBindings commented (s2b "ab") t l t' l' ->
     cc_steps SelfCSTtoASTBindings [(commented, s2b "ab"); (commented, s2b "ab")] ([u; t'], l') c ->
     cc_steps SelfCSTtoASTBindings [(commented, s2b "ab"); (commented, s2b "ab")] ([u; t], l) c).
  { intros t l t' l' u c S H. eapply T; [|exact H]. econstructor; [constructor|].
    apply (ccs _ _ [u] t [] l t' l' commented (s2b "ab")); [reflexivity|exact S]. }
  do 3 eexists. split.
  - unfold cc_init, unsorted. cbn [map].
    (* the first call compares and reads x[1] and x[0] *)
    eapply A; [apply ct_less; cbn; lia|]. eapply A; [apply ct_read|]. cbn [nth Nat.sub].
    (* the second sorts, and converts *)
    eapply B; [apply ct_less; cbn; lia|]. eapply B; [apply ct_read|]. cbn [nth Nat.sub].
    eapply B; [apply ct_write1|]. eapply B; [apply ct_write2|]. cbn [put firstn skipn app Nat.sub].
    eapply B; [apply ct_next; cbn; lia|].
    eapply B; [apply ct_less; cbn; lia|]. eapply B; [apply ct_read|]. cbn [nth Nat.sub].
    eapply B; [apply ct_write1|]. eapply B; [apply ct_write2|]. cbn [put firstn skipn app Nat.sub].
    eapply B; [apply ct_next; cbn; lia|].
    eapply B; [apply ct_end; cbn; lia|]. eapply B; [apply ct_convert|].
    (* the first goes on with what it has read *)
    eapply A; [apply ct_write1|]. eapply A; [apply ct_write2|]. cbn [put firstn skipn app Nat.sub].
    eapply A; [apply ct_next; cbn; lia|].
    eapply A; [apply ct_next; cbn; lia|].
    eapply A; [apply ct_end; cbn; lia|]. eapply A; [apply ct_convert|].
    constructor.
  - vm_compute. repeat split. intros [H|[H|[H|H]]]; discriminate || exact H.
Qed.
Print Assumptions C56_refuted_unsorted.

(** The package's own bindings list one type: they are always sorted. *)
Example C56_case : Sorted Z.le (IgnoreNodeTypes SelfCSTtoASTBindings).
Proof. repeat constructor. Qed.
