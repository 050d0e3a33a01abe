(** * Props_AnyNode: C91 ToAST on any implementation of Node. *)
From Verif Require Import Base Cst Ast Parser FromCst FromCstAny Spec_AnyNode Spec_Size AnyNodeProofs Spec_Tree Spec_Reading Props_Convert Props_Reading.

Section Facts.
  Context {N : Type}.
  Variable typeOf posOf endOf : N -> gopanic + Z.
  Variable childsOf : N -> gopanic + list N.
  Notation is_tree := (is_tree typeOf posOf endOf childsOf).
  Notation looks_like := (looks_like typeOf posOf endOf childsOf).
  Notation reaches := (reaches childsOf).

  Lemma tree_any b str n t k : is_tree n t -> depth t <= k ->
    ToAST_any typeOf posOf endOf childsOf k b n str = ToAST b t str.
  Proof.
    intros T D. rewrite <- (ToAST_tree b str k t D). symmetry.
    refine (ToAST_any_rel _ _ _ _ _ _ _ _ (fun j m j' t => is_tree m t /\ depth t <= j /\ j' = j) (fun _ => False) True
      _ _ b str k n k t _ _).
    - intros m k' t' (_ & H & _). destruct (depth_pos t') as (j & E). lia.
    - intros j m k' t' (H & Hd & ->). destruct H as [m ty pos en l ts E1 E2 E3 E4 F]. repeat split.
      + left. exact E1.
      + left. exact E2.
      + left. exact E3.
      + exists j. split; [reflexivity|]. left. exists l, ts. split; [exact E4|]. split; [reflexivity|].
        pose proof (depth_childs _ _ Hd) as Dc. cbn [n_childs] in Dc. revert Dc. clear -F.
        induction F; intros Dc; constructor; inversion Dc; subst; auto.
    - auto.
    - destruct (ToAST_any typeOf posOf endOf childsOf k b n str); cbn; auto.
  Qed.

  Lemma longer_any b str n k k' :
    ToAST_any typeOf posOf endOf childsOf k b n str <> NoFuel -> k <= k' ->
    ToAST_any typeOf posOf endOf childsOf k' b n str = ToAST_any typeOf posOf endOf childsOf k b n str.
  Proof.
    intros H L.
    refine (ToAST_any_rel _ _ _ _ _ _ _ _ (fun j m j' m' => m = m' /\ j <= j') (fun _ => False) False
      _ _ b str k n k' n _ _).
    - tauto.
    - intros j m j' m' (<- & Hj). repeat (split; [left; reflexivity|]). destruct j' as [|j']; [lia|].
      exists j'. split; [reflexivity|]. destruct (childsOf m) as [p|l].
      + right. exists p. auto.
      + left. exists l, l. split; [reflexivity|]. split; [reflexivity|]. induction l; constructor; auto. split; [reflexivity|lia].
    - auto.
    - destruct (ToAST_any typeOf posOf endOf childsOf k b n str); cbn; auto.
  Qed.

  (** Whether a method of a node down to depth [k] panics with [p]. *)
  Definition panic_eq (p q : gopanic) : {p = q} + {p <> q}.
  Proof. decide equality. Defined.
  Definition is_panic {A} (p : gopanic) (x : gopanic + A) : bool :=
    match x with inl q => if panic_eq p q then true else false | inr _ => false end.
  Fixpoint raises (k : nat) (n : N) (p : gopanic) : bool :=
    match k with
    | O => false
    | S k' =>
        is_panic p (typeOf n) || is_panic p (posOf n) || is_panic p (endOf n) || is_panic p (childsOf n) ||
        match childsOf n with inl _ => false | inr l => existsb (fun c => raises k' c p) l end
    end.
  Lemma is_panic_spec {A} p (x : gopanic + A) : is_panic p x = true <-> x = inl p.
  Proof.
    destruct x as [q|a]; cbn; [|split; discriminate]. destruct (panic_eq p q) as [->|H]; split; try discriminate; auto.
    intros E. injection E as ->. congruence.
  Qed.
  Lemma raises_reaches k : forall n p, raises k n p = true ->
    exists m, reaches n m /\ method_panics typeOf posOf endOf childsOf m p.
  Proof.
    induction k as [|k IH]; intros n p H; [discriminate H|]. cbn [raises] in H.
    rewrite !orb_true_iff, !is_panic_spec in H. unfold method_panics.
    assert (D : (typeOf n = inl p \/ posOf n = inl p \/ endOf n = inl p \/ childsOf n = inl p) \/
      match childsOf n with inl _ => false | inr l => existsb (fun c => raises k c p) l end = true) by tauto.
    destruct D as [D|D]; [exists n; split; [constructor|exact D]|].
    destruct (childsOf n) as [q|l] eqn:El; [discriminate D|].
    apply existsb_exists in D as (c & Hc & D). destruct (IH _ _ D) as (m & Hm & Hp). exists m. split; [|exact Hp].
    econstructor; eassumption.
  Qed.

  Lemma visited_any b str n k t :
    looks_like k n t ->
    ToAST_any typeOf posOf endOf childsOf k b n str <> NoFuel ->
    (forall p, ToAST_any typeOf posOf endOf childsOf k b n str = Panic p -> raises k n p = false) ->
    ToAST b t str = ToAST_any typeOf posOf endOf childsOf k b n str.
  Proof.
    intros L H P. rewrite <- (ToAST_tree b str (depth t) t (Nat.le_refl _)).
    refine (ToAST_any_rel _ _ _ _ _ _ _ _
      (fun j m j' t => looks_like j m t /\ (forall q, raises j m q = true -> raises k n q = true) /\ depth t <= j')
      (fun p => raises k n p = true) False _ _ b str k n _ t _ _).
    - tauto.
    - intros j m j' t' ((Ht & Hp & He & Hc) & HR & Hd).
      assert (X : forall A (f : N -> gopanic + A) (x : A), (forall p, f m = inl p -> raises (S j) m p = true) ->
        (forall y, f m = inr y -> x = y) -> same (fun p => raises k n p = true) (f m) (inr x)).
      { intros A f x Hf Hx. destruct (f m) as [p|y].
        - right. exists p. split; [reflexivity|]. apply HR, Hf. reflexivity.
        - left. rewrite (Hx y eq_refl). reflexivity. }
      assert (Y : forall p, typeOf m = inl p \/ posOf m = inl p \/ endOf m = inl p \/ childsOf m = inl p -> raises (S j) m p = true).
      { intros p Hm. cbn [raises]. rewrite !orb_true_iff, !is_panic_spec. tauto. }
      split; [apply X; [intros; apply Y; auto|exact Ht]|].
      split; [apply X; [intros; apply Y; auto|exact Hp]|].
      split; [apply X; [intros; apply Y; auto|exact He]|].
      destruct (depth_pos t') as (d & Ed). destruct j' as [|j']; [lia|]. exists j'. split; [reflexivity|].
      pose proof (depth_childs _ _ Hd) as Dc.
      destruct (childsOf m) as [p|l] eqn:El.
      + right. exists p. split; [reflexivity|]. left. apply HR, Y. auto.
      + left. exists l, (n_childs t'). split; [reflexivity|]. split; [reflexivity|].
        specialize (Hc l eq_refl).
        assert (HR' : forall c, In c l -> forall q, raises j c q = true -> raises k n q = true).
        { intros c Hin q Hq. apply HR. cbn [raises]. rewrite El. rewrite !orb_true_iff. right.
          apply existsb_exists. exists c. auto. }
        clear - Hc Dc HR'. induction Hc as [|c c' l l' H1 _ IH]; constructor; inversion Dc; subst.
        * split; [exact H1|]. split; [intros x; apply HR'; left; reflexivity|assumption].
        * apply IH; [assumption|]. intros d Hin. apply HR'. right. exact Hin.
    - split; [exact L|]. split; [auto|lia].
    - destruct (ToAST_any typeOf posOf endOf childsOf k b n str) eqn:E; cbn; auto.
      rewrite (P p eq_refl). discriminate.
  Qed.

  (** A tree that looks like a structure always exists. *)
  Definition answer {A} (d : A) (x : gopanic + A) : A := match x with inl _ => d | inr a => a end.
  Fixpoint cut (k : nat) (n : N) : node :=
    match k with
    | O => Node 0 0 0 []
    | S k' => Node (answer 0%Z (typeOf n)) (answer 0%Z (posOf n)) (answer 0%Z (endOf n)) (map (cut k') (answer [] (childsOf n)))
    end.
  Lemma cut_looks k : forall n, looks_like k n (cut k n).
  Proof.
    induction k as [|k IH]; intros n; [exact I|]. cbn [looks_like cut n_type n_pos n_end n_childs].
    repeat split; try (intros x ->; reflexivity).
    intros l ->. cbn [answer]. induction l; constructor; auto.
  Qed.
End Facts.

(** On a structure that is a finite tree, ToAST does what it does on the tree. *)
Theorem C91_trees :
  forall (N : Type) (typeOf posOf endOf : N -> gopanic + Z) (childsOf : N -> gopanic + list N) b str n t fuel,
    is_tree typeOf posOf endOf childsOf n t -> depth t <= fuel ->
    ToAST_any typeOf posOf endOf childsOf fuel b n str = ToAST b t str.
Proof. intros. apply tree_any; assumption. Qed.
Print Assumptions C91_trees.

(** ToAST on any structure has at most one outcome; more room changes nothing. *)
Theorem C91_one_outcome :
  forall (N : Type) (typeOf posOf endOf : N -> gopanic + Z) (childsOf : N -> gopanic + list N) b str n fuel fuel',
    ToAST_any typeOf posOf endOf childsOf fuel b n str <> NoFuel -> fuel <= fuel' ->
    ToAST_any typeOf posOf endOf childsOf fuel' b n str = ToAST_any typeOf posOf endOf childsOf fuel b n str.
Proof. intros. apply longer_any; assumption. Qed.
Print Assumptions C91_one_outcome.

(** When ToAST returns on a structure - with cycles, nil nodes, panicking methods -
    it returns the same for every finite tree that looks like the structure as far
    down as ToAST went: the rest, and what stands in for nil nodes, is not looked at. *)
Theorem C91_only_visited :
  forall (N : Type) (typeOf posOf endOf : N -> gopanic + Z) (childsOf : N -> gopanic + list N) b str n fuel t,
    looks_like typeOf posOf endOf childsOf fuel n t ->
    (forall g, ToAST_any typeOf posOf endOf childsOf fuel b n str = Ok g -> ToAST b t str = Ok g) /\
    (forall e, ToAST_any typeOf posOf endOf childsOf fuel b n str = Err e -> ToAST b t str = Err e).
Proof.
  intros N ty po en ch b str n fuel t L. split; intros x E; rewrite <- E; apply visited_any; try assumption;
    rewrite E; discriminate.
Qed.
Print Assumptions C91_only_visited.

(** A panic of ToAST is one of a method of a node of the structure, or that of
    slicing the text with positions that it does not have. *)
Theorem C91_panics :
  forall (N : Type) (typeOf posOf endOf : N -> gopanic + Z) (childsOf : N -> gopanic + list N) b str n fuel p,
    ToAST_any typeOf posOf endOf childsOf fuel b n str = Panic p ->
    p = PanicSlice \/ exists m, reaches childsOf n m /\ method_panics typeOf posOf endOf childsOf m p.
Proof.
  intros N ty po en ch b str n fuel p E.
  destruct (raises ty po en ch fuel n p) eqn:Er; [right; exact (raises_reaches _ _ _ _ _ _ _ Er)|left].
  assert (T : ToAST b (cut ty po en ch fuel n) str = Panic p).
  { rewrite <- E. apply visited_any; [apply cut_looks|rewrite E; discriminate|].
    intros q Hq. rewrite E in Hq. injection Hq as <-. exact Er. }
  destruct (C55_panics b (cut ty po en ch fuel n) str) as [(g & H)|[(e & H)|(H & _)]].
  - apply C55_reads in H. congruence.
  - apply C55_fails in H. congruence.
  - congruence.
Qed.
Print Assumptions C91_panics.

(** ToAST of a nil Node panics. *)
Theorem C91_nil :
  forall (N : Type) (typeOf posOf endOf : N -> gopanic + Z) (childsOf : N -> gopanic + list N) b str n fuel,
    nil_node typeOf posOf endOf childsOf n -> 0 < fuel ->
    ToAST_any typeOf posOf endOf childsOf fuel b n str = Panic PanicNilNode.
Proof.
  intros N ty po en ch b str n [|fuel] (H & _) L; [lia|].
  unfold ToAST_any, ToAST_any_sorted, b_lrTraverse_any, lrTraverse_any. cbn [walkFlex]. rewrite H. reflexivity.
Qed.
Print Assumptions C91_nil.

(** A descent that never ends: first children of first children, none of them of
    an ignored type or of the rule type. *)
Theorem C91_endless :
  forall (N : Type) (typeOf posOf endOf : N -> gopanic + Z) (childsOf : N -> gopanic + list N) b str (S : N -> Prop) n,
    (forall m, S m -> exists ty c l, typeOf m = inr ty /\ ~ In ty (IgnoreNodeTypes b) /\ ty <> RuleType b /\
                        childsOf m = inr (c :: l) /\ S c) ->
    S n -> forall fuel, ToAST_any typeOf posOf endOf childsOf fuel b n str = NoFuel.
Proof.
  intros N ty po en ch b str S n HS Hn fuel.
  unfold ToAST_any, ToAST_any_sorted, b_lrTraverse_any, lrTraverse_any.
  enough (E : forall m st, S m -> snd st = None -> walkFlex ty ch (isNodeIgnored (IgnoreNodeTypes (sort_bindings b)))
    (fun t => (t =? RuleType (sort_bindings b))%Z)
    (doOnRule_any ty po en ch (sort_bindings b) str) fuel st m = NoFuel) by (rewrite E by auto; reflexivity).
  induction fuel as [|fuel IH]; intros m [s e] Hm E; [reflexivity|]. cbn [snd] in E. subst e. cbn [walkFlex].
  destruct (HS m Hm) as (t & c & l & Et & Hi & Hr & Ec & Hc). rewrite Et, Ec. cbn [call gobind].
  destruct (isNodeIgnored (IgnoreNodeTypes (sort_bindings b)) t) eqn:Ei.
  { exfalso. apply Hi. apply (C41_ignored_iff_listed (IgnoreNodeTypes b) t). exact Ei. }
  destruct (Z.eqb_spec t (RuleType (sort_bindings b))) as [E|_]; [exfalso; exact (Hr E)|].
  rewrite IH by auto. reflexivity.
Qed.
Print Assumptions C91_endless.

(** A structure with cycles and a nil node: a rule <a> ::= 'b' that is also below
    its own blanks (ignored) and below the literal, and whose last child is nil.
    The searches do not get to the nil node. In the second structure, which has
    no name, one does. *)
Inductive loopy := Rule | Blanks | Name | Tail | Alt | Sym | Lit | Part | NilNode | NoName.
Definition loopy_childs (n : loopy) : gopanic + list loopy :=
  match n with
  | Rule => inr [Blanks; Name; Tail; NilNode]
  | Blanks => inr [Rule]
  | Name => inr []
  | Tail => inr [Alt]
  | Alt => inr [Sym]
  | Sym => inr [Lit]
  | Lit => inr [Part]
  | Part => inr [Rule]
  | NilNode => inl PanicNilNode
  | NoName => inr [Blanks; NilNode]
  end.
Definition loopy_type (n : loopy) : gopanic + Z :=
  match n with
  | Rule => inr 4%Z | Blanks => inr 25%Z | Name => inr 18%Z | Tail => inr 5%Z | Alt => inr 7%Z | Sym => inr 9%Z
  | Lit => inr 11%Z | Part => inr (-1)%Z | NilNode => inl PanicNilNode | NoName => inr 4%Z
  end.
Definition loopy_pos (n : loopy) : gopanic + Z :=
  match n with Name => inr 1%Z | Part => inr 9%Z | NilNode => inl PanicNilNode | _ => inr 0%Z end.
Definition loopy_end (n : loopy) : gopanic + Z :=
  match n with Name => inr 2%Z | Part => inr 10%Z | NilNode => inl PanicNilNode | _ => inr 11%Z end.
Example C91_case :
  let conv := ToAST_any loopy_type loopy_pos loopy_end loopy_childs 10 SelfCSTtoASTBindings in
  let text := s2b "<a> ::= 'b'" in
  conv Rule text = Ok [mkRule (s2b "a") [[STerminal (s2b "b")]]] /\
  conv NoName text = Panic PanicNilNode.
Proof. vm_compute. split; reflexivity. Qed.
(** A node that is its own only child. *)
Example C91_case_endless :
  forall fuel str, ToAST_any (fun _ : unit => inr 1%Z) (fun _ => inr 0%Z) (fun _ => inr 0%Z) (fun n => inr [n])
    fuel SelfCSTtoASTBindings tt str = NoFuel.
Proof.
  intros fuel str. apply (C91_endless unit _ _ _ _ _ _ (fun _ => True)); [|exact I].
  intros m _. exists 1%Z, m, []. cbn. repeat split; [intros [H|[]]; discriminate H|discriminate].
Qed.
(** A node that occurs twice: the structure is a tree. *)
Example C91_case_tree :
  is_tree (fun _ : bool => inr 1%Z) (fun _ => inr 0%Z) (fun _ => inr 0%Z) (fun n => inr (if n then [false; false] else []))
    true (Node 1 0 0 [Node 1 0 0 []; Node 1 0 0 []]).
Proof. repeat econstructor. Qed.
