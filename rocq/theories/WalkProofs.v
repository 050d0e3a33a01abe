(** * WalkProofs: cst.Walk visits in pre-order, pruned by the visitor. *)
From Verif Require Import Base Cst.

Section Spec.
  Context {V S : Type}.
  (** One call of Visit: receiver, node, answered visitor. *)
  Record event := mkEvent { ev_visitor : V; ev_node : node; ev_answer : option V }.

  (** [preorder v n log]: [log] is a pruned pre-order traversal of [n] that
      starts with visitor [v]: a node comes first; below a node answered with
      nil nothing is visited; otherwise the logs of all its children follow from
      left to right, each started with the answered visitor. *)
  Inductive preorder : V -> node -> list event -> Prop :=
  | pre_pruned v n : preorder v n [mkEvent v n None]
  | pre_children v w n logs :
      preorder_each w (n_childs n) logs ->
      preorder v n (mkEvent v n (Some w) :: concat logs)
  with preorder_each : V -> list node -> list (list event) -> Prop :=
  | pre_nil w : preorder_each w [] []
  | pre_cons w c l log logs :
      preorder w c log -> preorder_each w l logs -> preorder_each w (c :: l) (log :: logs).

  (** The calls of [log], made one after the other, change the visitor's memory
      from [s] to [s'] and answer as recorded. *)
  Inductive replays (visit : V -> S -> node -> gores Empty_set (S * option V))
    : S -> list event -> S -> Prop :=
  | rep_nil s : replays visit s [] s
  | rep_cons s e s1 log s2 :
      visit (ev_visitor e) s (ev_node e) = Ok (s1, ev_answer e) ->
      replays visit s1 log s2 -> replays visit s (e :: log) s2.
End Spec.

(** All nodes of a tree in pre-order. *)
Fixpoint nodes_of (n : node) : list node :=
  match n with Node _ _ _ childs => n :: flat_map nodes_of childs end.

Section Proofs.
  Context {V S : Type}.
  Variable visit : V -> S -> node -> gores Empty_set (S * option V).
  Notation walk := (walk visit).

  Fixpoint walk_each (w : V) (s : S) (l : list node) : gores Empty_set S :=
    match l with
    | [] => Ok s
    | c :: l' => match walk w s c with Ok s' => walk_each w s' l' | r => r end
    end.

  Lemma walk_eq v s n :
    walk v s n =
    match visit v s n with
    | Ok (s1, None) => Ok s1
    | Ok (s1, Some w) => walk_each w s1 (n_childs n)
    | Err e => Err e
    | Panic p => Panic p
    | NoFuel => NoFuel
    end.
  Proof.
    destruct n as [ty p q childs]. simpl. destruct (visit v s (Node ty p q childs)) as [[s1 [w|]]| | |];
      try reflexivity.
    generalize s1. induction childs as [|c l IH]; intros s2; [reflexivity|]. simpl.
    destruct (walk w s2 c); try reflexivity. apply IH.
  Qed.

  Fixpoint size (n : node) : nat :=
    match n with Node _ _ _ childs => Datatypes.S (fold_right (fun c k => size c + k) 0 childs) end.

  Lemma size_child c n : In c (n_childs n) -> size c < size n.
  Proof.
    destruct n as [ty p q l]. simpl. intros H. induction l as [|d l IH]; [destruct H|].
    simpl. destruct H as [->|H]; [lia|]. specialize (IH H). lia.
  Qed.

  Lemma replays_app a : forall s b s2,
    replays visit s (a ++ b) s2 <-> exists s1, replays visit s a s1 /\ replays visit s1 b s2.
  Proof.
    induction a as [|e a IH]; intros s b s2; simpl.
    - split; [intros H; exists s; split; [constructor|exact H]|].
      intros (s1 & H1 & H2). inversion H1; subst. exact H2.
    - split.
      + intros H. inversion H; subst. apply IH in H5. destruct H5 as (s' & A & B).
        exists s'. split; [econstructor; eassumption|exact B].
      + intros (s' & A & B). inversion A; subst. econstructor; [eassumption|].
        apply IH. exists s'. split; assumption.
  Qed.

  Lemma walk_log k : forall v s n s',
    size n <= k -> walk v s n = Ok s' ->
    exists log, preorder v n log /\ replays visit s log s'.
  Proof.
    induction k as [|k IH]; intros v s n s' Hk H; [destruct n; simpl in Hk; lia|].
    rewrite walk_eq in H. destruct (visit v s n) as [[s1 [w|]]| | |] eqn:E; try discriminate.
    - assert (G : forall l s1 s', (forall c, In c l -> size c <= k) -> walk_each w s1 l = Ok s' ->
               exists logs, preorder_each w l logs /\ replays visit s1 (concat logs) s').
      { clear -IH. induction l as [|c l IHl]; intros s1 s' Hl H; simpl in H.
        - injection H as <-. exists []. split; constructor.
        - destruct (walk w s1 c) as [s2| | |] eqn:Ew; try discriminate.
          destruct (IH _ _ _ _ (Hl c (or_introl eq_refl)) Ew) as (log & H1 & H2).
          destruct (IHl s2 s' (fun d Hd => Hl d (or_intror Hd)) H) as (logs & H3 & H4).
          exists (log :: logs). split; [constructor; assumption|].
          simpl. apply replays_app. exists s2. split; assumption. }
      destruct (G (n_childs n) s1 s') as (logs & H1 & H2).
      + intros c Hc. pose proof (size_child c n Hc). lia.
      + exact H.
      + exists (mkEvent v n (Some w) :: concat logs). split; [constructor; exact H1|].
        econstructor; [exact E|exact H2].
    - injection H as <-. exists [mkEvent v n None]. split; [constructor|].
      econstructor; [exact E|constructor].
  Qed.

  Scheme preorder_ind2 := Induction for preorder Sort Prop
  with preorder_each_ind2 := Induction for preorder_each Sort Prop.
  Combined Scheme preorder_both from preorder_ind2, preorder_each_ind2.

  Lemma log_walk :
    (forall v n log, preorder v n log -> forall s s', replays visit s log s' -> walk v s n = Ok s') /\
    (forall w l logs, preorder_each w l logs ->
       forall s s', replays visit s (concat logs) s' -> walk_each w s l = Ok s').
  Proof.
    apply preorder_both.
    - intros v n s s' H. inversion H; subst. inversion H5; subst. simpl in H3.
      rewrite walk_eq, H3. reflexivity.
    - intros v w n logs _ IH s s' H. inversion H; subst. simpl in H3.
      rewrite walk_eq, H3. apply IH. assumption.
    - intros w s s' H. inversion H; subst. reflexivity.
    - intros w c l log logs _ IH1 _ IH2 s s' H. simpl in H. apply replays_app in H.
      destruct H as (s1 & H1 & H2). simpl. rewrite (IH1 _ _ H1). apply IH2, H2.
  Qed.

  Lemma walk_spec v s n s' :
    walk v s n = Ok s' <-> exists log, preorder v n log /\ replays visit s log s'.
  Proof.
    split; [apply walk_log with (k := size n); lia|].
    intros (log & H1 & H2). eapply log_walk; eassumption.
  Qed.

  (** Without pruning every node is visited exactly once, in pre-order. *)
  Lemma preorder_all :
    (forall (v : V) n log, preorder v n log ->
       Forall (fun e : @event V => ev_answer e <> None) log -> map (@ev_node V) log = nodes_of n) /\
    (forall (w : V) l logs, preorder_each w l logs ->
       Forall (fun e : @event V => ev_answer e <> None) (concat logs) ->
       map (@ev_node V) (concat logs) = flat_map nodes_of l).
  Proof.
    apply (preorder_both V
      (fun v n log _ => Forall (fun e : @event V => ev_answer e <> None) log -> map (@ev_node V) log = nodes_of n)
      (fun w l logs _ => Forall (fun e : @event V => ev_answer e <> None) (concat logs) ->
         map (@ev_node V) (concat logs) = flat_map nodes_of l)).
    - intros v n H. inversion H; subst. simpl in H2. congruence.
    - intros v w n logs _ IH H. inversion H; subst. simpl. rewrite IH by assumption.
      destruct n; reflexivity.
    - reflexivity.
    - intros w c l log logs _ IH1 _ IH2 H. simpl in *. apply Forall_app in H.
      destruct H as [H1 H2]. rewrite map_app, IH1, IH2 by assumption. reflexivity.
  Qed.
End Proofs.

Lemma walk_total {V S} (visit : V -> S -> node -> gores Empty_set (S * option V)) :
  (forall v s n, exists r, visit v s n = Ok r) ->
  forall v s n, exists s', walk visit v s n = Ok s'.
Proof.
  intros HV v s n. remember (size n) as k eqn:Ek.
  assert (Hk : size n <= k) by lia. clear Ek. revert v s n Hk.
  induction k as [|k IH]; intros v s n Hk; [destruct n; simpl in Hk; lia|].
  rewrite walk_eq. destruct (HV v s n) as ([s1 [w|]] & ->); [|eauto].
  assert (Hl : forall c, In c (n_childs n) -> size c <= k).
  { intros c Hc. pose proof (size_child c n Hc). lia. }
  revert s1. induction (n_childs n) as [|c l IHl]; intros s1; simpl; [eauto|].
  destruct (IH w s1 c (Hl c (or_introl eq_refl))) as (s2 & ->).
  apply IHl. intros d Hd. apply Hl. right. exact Hd.
Qed.
