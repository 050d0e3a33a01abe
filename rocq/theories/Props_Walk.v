(** * C76: Walk on any implementation of Node *)
From Verif Require Import Base Cst WalkAny Spec_Walk.

Section Proofs.
  Context {V S N C : Type}.
  Variable visit : V -> S -> N -> gopanic + (S * option V).
  Variable childs : S -> N -> gopanic + (S * list C).
  Variable load : S -> C -> N.
  Notation walk := (walk_any visit childs load).
  Notation step := (visits_next visit childs load).
  Notation panics := (visit_panics visit childs load).
  Notation steps := (visits visit childs load).
  Notation nod := (node_of load).

  Fixpoint each (fuel : nat) (w : V) (s : S) (cells : list C) : gores Empty_set S :=
    match cells with
    | [] => Ok s
    | c :: cells' =>
        match walk fuel w s (load s c) with Ok s' => each fuel w s' cells' | r => r end
    end.

  Lemma walk_S fuel v s n :
    walk (Datatypes.S fuel) v s n =
    match visit v s n with
    | inl p => Panic p
    | inr (s1, None) => Ok s1
    | inr (s1, Some w) =>
        match childs s1 n with
        | inl p => Panic p
        | inr (s2, cells) => each fuel w s2 cells
        end
    end.
  Proof.
    cbn [walk_any]. destruct (visit v s n) as [p|[s1 [w|]]]; try reflexivity.
    destruct (childs s1 n) as [p|[s2 cells]]; [reflexivity|].
    revert s2. induction cells as [|c cells IH]; intros s2; [reflexivity|].
    cbn [each]. destruct (walk fuel w s2 (load s2 c)); try reflexivity. apply IH.
  Qed.

  Lemma walk_mono fuel : forall v s n r,
    walk fuel v s n = r -> r <> NoFuel -> walk (Datatypes.S fuel) v s n = r.
  Proof.
    induction fuel as [|fuel IH]; intros v s n r H Hr; [now subst|].
    rewrite walk_S in *. destruct (visit v s n) as [p|[s1 [w|]]]; try assumption.
    destruct (childs s1 n) as [p|[s2 cells]]; [assumption|].
    revert s2 H. induction cells as [|c cells IHc]; intros s2 H; [assumption|].
    cbn [each] in *. destruct (walk fuel w s2 (load s2 c)) as [s3|e|p|] eqn:E.
    - rewrite (IH _ _ _ _ E) by discriminate. now apply IHc.
    - destruct e.
    - rewrite (IH _ _ _ _ E) by discriminate. exact H.
    - congruence.
  Qed.
  Lemma walk_mono_le f1 f2 v s n r :
    f1 <= f2 -> walk f1 v s n = r -> r <> NoFuel -> walk f2 v s n = r.
  Proof. induction 1; intros H1 H2; [exact H1|]. apply walk_mono; auto. Qed.
  Lemma each_mono_le f1 f2 w : forall cells s r,
    f1 <= f2 -> each f1 w s cells = r -> r <> NoFuel -> each f2 w s cells = r.
  Proof.
    induction cells as [|c cells IH]; intros s r Hf H Hr; [exact H|].
    cbn [each] in *. destruct (walk f1 w s (load s c)) as [s3|e|p|] eqn:E.
    - rewrite (walk_mono_le f1 f2 _ _ _ _ Hf E) by discriminate. now apply IH.
    - destruct e.
    - rewrite (walk_mono_le f1 f2 _ _ _ _ Hf E) by discriminate. exact H.
    - congruence.
  Qed.

  Lemma steps_trans k1 : forall k2 x y z, steps k1 x y -> steps k2 y z -> steps (k1 + k2) x z.
  Proof.
    induction k1 as [|k1 IH]; intros k2 x y z H1 H2; inversion H1; subst; [exact H2|].
    cbn. econstructor; [eassumption|]. eapply IH; eassumption.
  Qed.

  (** From Walk to the work list. *)
  Lemma walk_to_steps fuel : forall v t s r rest,
    walk fuel v s (nod s t) = r ->
    match r with
    | Ok s' => exists k, steps k ((v, t) :: rest, s) (rest, s')
    | Panic p => exists k y, steps k ((v, t) :: rest, s) y /\ panics y p
    | _ => True
    end.
  Proof.
    induction fuel as [|fuel IH]; intros v t s r rest H; [subst; exact I|].
    rewrite walk_S in H. destruct (visit v s (nod s t)) as [p|[s1 [w|]]] eqn:Ev.
    - subst r. exists 0, ((v, t) :: rest, s). split; [constructor|now constructor].
    - destruct (childs s1 (nod s t)) as [p|[s2 cells]] eqn:Ec.
      + subst r. exists 0, ((v, t) :: rest, s). split; [constructor|eapply vp_childs; eassumption].
      + assert (step ((v, t) :: rest, s) (map (fun c => (w, Cell c)) cells ++ rest, s2)) as F
          by (eapply vn_children; eassumption).
        assert (match r with
                | Ok s' => exists k, steps k (map (fun c => (w, Cell c)) cells ++ rest, s2) (rest, s')
                | Panic p => exists k y, steps k (map (fun c => (w, Cell c)) cells ++ rest, s2) y /\ panics y p
                | _ => True
                end) as G.
        { clear Ec F. revert s2 H. induction cells as [|c cells IHc]; intros s2 H; cbn [each map app] in *.
          - subst r. exists 0. constructor.
          - destruct (walk fuel w s2 (load s2 c)) as [s3|e|p|] eqn:E.
            + specialize (IHc s3 H).
              pose proof (IH w (Cell c) s2 _ (map (fun c => (w, Cell c)) cells ++ rest) E) as (k1 & K1).
              destruct r as [s'| |p|]; auto.
              * destruct IHc as (k2 & K2). exists (k1 + k2). eapply steps_trans; eassumption.
              * destruct IHc as (k2 & y & K2 & P). exists (k1 + k2), y. split; [|exact P].
                eapply steps_trans; eassumption.
            + destruct e.
            + subst r. exact (IH w (Cell c) s2 _ (map (fun c => (w, Cell c)) cells ++ rest) E).
            + subst r. exact I. }
        destruct r as [s'| |p|]; auto.
        * destruct G as (k & K). exists (Datatypes.S k). econstructor; eassumption.
        * destruct G as (k & y & K & P). exists (Datatypes.S k), y. split; [econstructor; eassumption|exact P].
    - subst r. exists 1. econstructor; [apply vn_pruned; eassumption|constructor].
  Qed.

  (** From the work list to Walk: within [k] visits either the first entry is
      done with, or all of them belong to it. *)
  Lemma steps_to_walk k : forall v t s rest,
    (exists fuel s' j, j <= k /\ walk fuel v s (nod s t) = Ok s' /\
        steps j ((v, t) :: rest, s) (rest, s')) \/
    (exists fuel p, walk fuel v s (nod s t) = Panic p) \/
    (exists x, steps k ((v, t) :: rest, s) x /\ fst x <> []).
  Proof.
    induction k as [|k IH].
    { intros. right; right. eexists; split; [constructor|discriminate]. }
    intros v t s rest. destruct (visit v s (nod s t)) as [p|[s1 [w|]]] eqn:Ev.
    - right; left. exists 1, p. rewrite walk_S, Ev. reflexivity.
    - destruct (childs s1 (nod s t)) as [p|[s2 cells]] eqn:Ec.
      + right; left. exists 1, p. rewrite walk_S, Ev, Ec. reflexivity.
      + assert (step ((v, t) :: rest, s) (map (fun c => (w, Cell c)) cells ++ rest, s2)) as F
          by (eapply vn_children; eassumption).
        assert (forall m, m <= k -> forall s2,
                  (exists fuel s' j, j <= m /\ each fuel w s2 cells = Ok s' /\
                     steps j (map (fun c => (w, Cell c)) cells ++ rest, s2) (rest, s')) \/
                  (exists fuel p, each fuel w s2 cells = Panic p) \/
                  (exists x, steps m (map (fun c => (w, Cell c)) cells ++ rest, s2) x /\ fst x <> []))
          as G.
        { clear Ec F. induction cells as [|c cells IHc]; intros m Hm u; cbn [each map app].
          - left. exists 0, u, 0. repeat split; [lia|constructor].
          - assert (IHm : forall v t s rest,
              (exists fuel s' j, j <= m /\ walk fuel v s (nod s t) = Ok s' /\
                  steps j ((v, t) :: rest, s) (rest, s')) \/
              (exists fuel p, walk fuel v s (nod s t) = Panic p) \/
              (exists x, steps m ((v, t) :: rest, s) x /\ fst x <> [])).
            { clear -IH Hm. intros v t s rest. destruct (IH v t s rest) as [(f & s' & j & Hj & W & K)|[P|(x & K & X)]].
              - destruct (le_lt_dec j m) as [L|L]; [left; eauto 7|].
                right; right. replace j with (m + (j - m)) in K by lia.
                assert (forall a b x z, 0 < b -> steps (a + b) x z -> exists y, steps a x y /\ fst y <> []) as D.
                { clear. induction a; intros b x z Hb H.
                  - exists x; split; [constructor|]. inversion H; subst; [lia|].
                    inversion H0; subst; discriminate.
                  - cbn in H. inversion H; subst. destruct (IHa _ _ _ Hb H2) as (y' & Y & Z).
                    exists y'; split; [econstructor; eassumption|exact Z]. }
                eapply D; [|exact K]. lia.
              - right; left; exact P.
              - right; right.
                assert (forall a b x z, fst z <> [] -> steps (a + b) x z -> exists y, steps a x y /\ fst y <> []) as D.
                { clear. induction a; intros b x z Hz H.
                  - exists x; split; [constructor|]. inversion H; subst; [exact Hz|].
                    inversion H0; subst; discriminate.
                  - cbn in H. inversion H; subst. destruct (IHa _ _ _ Hz H2) as (y' & Y & Z).
                    exists y'; split; [econstructor; eassumption|exact Z]. }
                replace k with (m + (k - m)) in K by lia. eapply D; eassumption. }
            destruct (IHm w (Cell c) u (map (fun c => (w, Cell c)) cells ++ rest))
              as [(f1 & u1 & j1 & J1 & W1 & K1)|[(f1 & p & W1)|(x & X)]]; cbn [node_of] in *.
            + destruct (IHc (m - j1) ltac:(lia) u1) as [(f2 & u2 & j2 & J2 & W2 & K2)|[(f2 & p & W2)|(x & X & Y)]].
              * left. exists (Nat.max f1 f2), u2, (j1 + j2). repeat split; [lia| |eapply steps_trans; eassumption].
                rewrite (walk_mono_le f1 (Nat.max f1 f2) _ _ _ _ ltac:(lia) W1) by discriminate.
                eapply each_mono_le; [|exact W2|discriminate]. lia.
              * right; left. exists (Nat.max f1 f2), p.
                rewrite (walk_mono_le f1 (Nat.max f1 f2) _ _ _ _ ltac:(lia) W1) by discriminate.
                eapply each_mono_le; [|exact W2|discriminate]. lia.
              * right; right. exists x. split; [|exact Y].
                replace m with (j1 + (m - j1)) by lia. eapply steps_trans; eassumption.
            + right; left. exists f1, p. now rewrite W1.
            + right; right. eauto. }
        destruct (G k (le_n k) s2) as [(f & s' & j & J & W & K)|[(f & p & W)|(x & X & Y)]].
        * left. exists (Datatypes.S f), s', (Datatypes.S j). repeat split; [lia| |econstructor; eassumption].
          rewrite walk_S, Ev, Ec. exact W.
        * right; left. exists (Datatypes.S f), p. rewrite walk_S, Ev, Ec. exact W.
        * right; right. exists x. split; [econstructor; eassumption|exact Y].
    - left. exists 1, s1, 1. repeat split; [lia| |].
      + rewrite walk_S, Ev. reflexivity.
      + econstructor; [apply vn_pruned; eassumption|constructor].
  Qed.

  Lemma step_det x y z : step x y -> step x z -> y = z.
  Proof.
    intros H1 H2. inversion H1; subst; inversion H2; subst; try congruence.
    assert (s1 = s3 /\ w = w0) as (-> & ->) by (split; congruence).
    assert (s2 = s4 /\ cells = cells0) as (-> & ->) by (split; congruence). reflexivity.
  Qed.
  Lemma panic_nostep x p y : panics x p -> step x y -> False.
  Proof. intros H1 H2. inversion H1; subst; inversion H2; subst; congruence. Qed.
  Lemma panic_det x p q : panics x p -> panics x q -> p = q.
  Proof. intros H1 H2. inversion H1; subst; inversion H2; subst; congruence. Qed.
  Lemma done_nostep s y : step ([], s) y -> False.
  Proof. intros H. inversion H. Qed.

  (** A run that cannot go on is the longest. *)
  Lemma steps_stuck k1 : forall k2 x y z,
    steps k1 x y -> (forall w, ~ step y w) -> steps k2 x z ->
    k2 <= k1 /\ steps (k1 - k2) z y.
  Proof.
    induction k1 as [|k1 IH]; intros k2 x y z H1 H2 H3.
    - inversion H1; subst. inversion H3; subst; [split; [lia|constructor]|]. edestruct H2; eassumption.
    - inversion H1; subst. inversion H3; subst; [split; [lia|]; cbn; exact H1|].
      assert (y1 = y0) by (eapply step_det; eassumption). subst y1.
      destruct (IH _ _ _ _ H4 H2 H5) as (A & B). split; [lia|exact B].
  Qed.

  Lemma ok_iff v s n s' :
    (exists fuel, walk fuel v s n = Ok s') <->
    exists k, steps k ([(v, Given n)], s) ([], s').
  Proof.
    split.
    - intros (fuel & W). exact (walk_to_steps fuel v (Given n) s (Ok s') [] W).
    - intros (k & K).
      destruct (steps_to_walk (Datatypes.S k) v (Given n) s []) as [(f & s1 & j & J & W & X)|[(f & p & W)|(x & X & Y)]].
      + destruct (steps_stuck _ _ _ _ _ K (fun w H => done_nostep _ _ H) X) as (A & B).
        exists f. cbn [node_of] in W. rewrite W. inversion B; subst; [reflexivity|]. inversion H0.
      + destruct (walk_to_steps f v (Given n) s (Panic p) [] W) as (k2 & y & Y1 & Y2).
        destruct (steps_stuck _ _ _ _ _ K (fun w H => done_nostep _ _ H) Y1) as (A & B).
        inversion B; subst; [inversion Y2|]. destruct (panic_nostep _ _ _ Y2 H0).
      + destruct (steps_stuck _ _ _ _ _ K (fun w H => done_nostep _ _ H) X) as (A & B). lia.
  Qed.

  Lemma panic_iff v s n p :
    (exists fuel, walk fuel v s n = Panic p) <->
    exists k x, steps k ([(v, Given n)], s) x /\ panics x p.
  Proof.
    split.
    - intros (fuel & W). exact (walk_to_steps fuel v (Given n) s (Panic p) [] W).
    - intros (k & y & K & P).
      assert (ST : forall w, ~ step y w) by (intros w H; exact (panic_nostep _ _ _ P H)).
      destruct (steps_to_walk (Datatypes.S k) v (Given n) s []) as [(f & s1 & j & J & W & X)|[(f & q & W)|(x & X & Y)]].
      + destruct (steps_stuck _ _ _ _ _ K ST X) as (A & B).
        inversion B; subst; [inversion P|]. inversion H0.
      + destruct (walk_to_steps f v (Given n) s (Panic q) [] W) as (k2 & y2 & Y1 & Y2).
        destruct (steps_stuck _ _ _ _ _ K ST Y1) as (A & B).
        inversion B; subst.
        * exists f. cbn [node_of] in W. rewrite W. f_equal. eapply panic_det; eassumption.
        * destruct (panic_nostep _ _ _ Y2 H0).
      + destruct (steps_stuck _ _ _ _ _ K ST X) as (A & B). lia.
  Qed.

  Lemma never_iff v s n :
    (forall fuel, walk fuel v s n = NoFuel) <->
    (forall k, exists x, steps k ([(v, Given n)], s) x /\ fst x <> []).
  Proof.
    split.
    - intros H k. destruct (steps_to_walk k v (Given n) s []) as [(f & s1 & j & J & W & X)|[(f & q & W)|X]].
      + cbn [node_of] in W. rewrite H in W. discriminate.
      + cbn [node_of] in W. rewrite H in W. discriminate.
      + exact X.
    - intros H fuel. destruct (walk fuel v s n) as [s'|e|p|] eqn:E; [| |  |reflexivity].
      + destruct (proj1 (ok_iff v s n s') (ex_intro _ fuel E)) as (k & K).
        destruct (H (Datatypes.S k)) as (x & X & _).
        destruct (steps_stuck _ _ _ _ _ K (fun w H => done_nostep _ _ H) X). lia.
      + destruct e.
      + destruct (proj1 (panic_iff v s n p) (ex_intro _ fuel E)) as (k & y & K & P).
        destruct (H (Datatypes.S k)) as (x & X & _).
        destruct (steps_stuck _ _ _ _ _ K (fun w H => panic_nostep _ _ _ P H) X). lia.
  Qed.
End Proofs.

(** Walk returns, panics or runs forever exactly as the depth-first work list
    does, and with the same effects, whatever the nodes and the visitor do. *)
Theorem C76_walk_any_node :
  forall (V S N C : Type) (visit : V -> S -> N -> gopanic + (S * option V))
         (childs : S -> N -> gopanic + (S * list C)) (load : S -> C -> N) v s n,
    (forall s', (exists fuel, walk_any visit childs load fuel v s n = Ok s') <->
       exists k, visits visit childs load k ([(v, Given n)], s) ([], s')) /\
    (forall p, (exists fuel, walk_any visit childs load fuel v s n = Panic p) <->
       exists k x, visits visit childs load k ([(v, Given n)], s) x /\ visit_panics visit childs load x p) /\
    ((forall fuel, walk_any visit childs load fuel v s n = NoFuel) <->
       forall k, exists x, visits visit childs load k ([(v, Given n)], s) x /\ fst x <> []).
Proof.
  intros. split; [|split].
  - intros. apply ok_iff.
  - intros. apply panic_iff.
  - apply never_iff.
Qed.
Print Assumptions C76_walk_any_node.

(** A nil node (the tree that Parse returns with an error, for instance): Visit
    is called with it, and then Walk panics unless Visit answered nil. *)
Theorem C76_nil_node :
  forall (V S N C : Type) (visit : V -> S -> option N -> gopanic + (S * option V))
         (childs : S -> N -> gopanic + (S * list C)) (load : S -> C -> option N) v s fuel,
    let childs' s n := match n with None => inl PanicNilNode | Some n => childs s n end in
    walk_any visit childs' load (Datatypes.S fuel) v s None =
      match visit v s None with
      | inl p => Panic p
      | inr (s1, None) => Ok s1
      | inr (_, Some _) => Panic PanicNilNode
      end.
Proof.
  intros. rewrite walk_S. destruct (visit v s None) as [p|[s1 [w|]]]; reflexivity.
Qed.
Print Assumptions C76_nil_node.

(** Number of levels of a tree. *)
Fixpoint depth (n : node) : nat :=
  match n with Node _ _ _ cs => S (fold_right (fun c d => Nat.max (depth c) d) 0 cs) end.

(** On finite trees of NewNode values this is [Cst.walk]. *)
Theorem C76_on_trees :
  forall (V S : Type) (visit : V -> S -> node -> gopanic + (S * option V)) v s (n : node) fuel,
    depth n <= fuel ->
      walk_any visit (fun s n => inr (s, n_childs n)) (fun _ c => c) fuel v s n =
      walk (fun v s n => match visit v s n with inl p => Panic p | inr r => Ok r end) v s n.
Proof.
  intros V S visit v s n fuel. revert v s n. induction fuel as [|fuel IH]; intros v s [ty a b cs] H.
  - cbn [depth] in H. lia.
  - rewrite walk_S. cbn [walk]. destruct (visit v s (Node ty a b cs)) as [p|[s1 [w|]]]; try reflexivity.
    cbn [n_childs]. cbn [depth] in H.
    assert (fold_right (fun c d => Nat.max (depth c) d) 0 cs <= fuel) as L by lia. clear H.
    revert s1. induction cs as [|c cs IHc]; intros s1; [reflexivity|].
    cbn [each fold_right] in *. rewrite IH by lia.
    destruct (walk (fun v s n => match visit v s n with inl p => Panic p | inr r => Ok r end) w s1 c);
      try reflexivity.
    apply IHc. lia.
Qed.
Print Assumptions C76_on_trees.

(** A node that is its own child: a visitor that always descends never comes
    back, one that counts down does. *)
Example C76_cycle :
  let selfchild (s : nat) (n : unit) : gopanic + (nat * list unit) := inr (s, [tt]) in
  (forall fuel, walk_any (fun (v : unit) s (n : unit) => inr (S s, Some v)) selfchild (fun _ c => c)
                  fuel tt 0 tt = NoFuel) /\
  walk_any (fun (v : nat) s (n : unit) => inr (S s, match v with 0 => None | S v' => Some v' end))
    selfchild (fun _ c => c) 10 3 0 tt = Ok 4.
Proof.
  split; [|reflexivity]. intros fuel.
  assert (forall s, walk_any (fun (v : unit) s (n : unit) => inr (S s, Some v))
            (fun (s : nat) (n : unit) => inr (s, [tt])) (fun _ c => c) fuel tt s tt = NoFuel) as G;
    [|apply G].
  induction fuel as [|fuel IH]; intros s; [reflexivity|].
  rewrite walk_S. cbn [each]. rewrite IH. reflexivity.
Qed.

(** A visitor that overwrites a sibling before Walk gets to it: the new node is
    visited. Memory: the two cells of the root, and the log. *)
Example C76_overwritten_sibling :
  let visit (v : unit) (s : list nat * list nat) (n : nat) : gopanic + ((list nat * list nat) * option unit) :=
    let '(cells, log) := s in
    inr ((match n with 1 => [1; 7] | _ => cells end, log ++ [n]), match n with 0 => Some v | _ => None end) in
  walk_any visit (fun s n => inr (s, [0; 1])) (fun s c => nth c (fst s) 99) 5 tt ([1; 2], []) 0
  = Ok ([1; 7], [0; 1; 7]).
Proof. reflexivity. Qed.
