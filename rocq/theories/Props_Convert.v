(** * Props_Convert: properties C40, C41, C44 - C46 of the converter
    pkg/bnf/fromcst and of the example comparing grammars. *)
From Verif Require Import Base Cst Ast Parser FromCst Spec_Tree Spec_Convert WalkProofs ConvertProofs
  Examples.

(** ** C40 *)

Theorem C40_search :
  forall (S : Type) (ignored searched : Z -> bool) (f : callback S) root s,
    lrTraverse ignored searched f root s = each f s (outermost ignored searched root).
Proof. intros S. exact (lrTraverse_each (S := S)). Qed.
Print Assumptions C40_search.

Theorem C40_found_nodes :
  forall ignored searched root m,
    In m (outermost ignored searched root) <->
    visible ignored searched m root /\ ignored (n_type m) = false /\ searched (n_type m) = true.
Proof. exact outermost_spec. Qed.
Print Assumptions C40_found_nodes.

(** An error returned by the search is the one the callback returned, on the
    first node where it did. *)
Theorem C40_first_error :
  forall (S : Type) ignored searched (f : callback S) root s s' e,
    lrTraverse ignored searched f root s = Ok (s', Some e) ->
    exists l1 n l2 s1, outermost ignored searched root = l1 ++ n :: l2 /\
      each f s l1 = Ok (s1, None) /\ f s1 n = Ok (s', Some e).
Proof. intros S ignored searched f root s s' e H. rewrite C40_search in H. eapply each_none, H. Qed.
Print Assumptions C40_first_error.

Example C40_case :
  let t := Node 0 0 9 [Node 5 0 2 [Node 5 0 2 []]; Node 7 2 4 [Node 5 2 4 []]; Node 1 4 9 [Node 5 4 9 []]] in
  map n_pos (outermost (fun t => t =? 7)%Z (fun t => t =? 5)%Z t) = [0; 4]%Z.
Proof. reflexivity. Qed.

(** ** C41 *)

Theorem C41_ignored_is_a_set :
  forall b l l' root str, (forall t, In t l <-> In t l') ->
    ToAST (with_ignored l b) root str = ToAST (with_ignored l' b) root str.
Proof. exact ToAST_ignored. Qed.
Print Assumptions C41_ignored_is_a_set.

(** A node type is ignored exactly when it is listed. *)
Theorem C41_ignored_iff_listed :
  forall l t, isNodeIgnored (sort_ints l) t = true <-> In t l.
Proof. intros l t. rewrite isNodeIgnored_listed. apply listed_iff. Qed.
Print Assumptions C41_ignored_iff_listed.

(** Node types 25 and 7 hide a rule each; order and repetition do not matter. *)
Example C41_case :
  let name p q := Node 18 p q [] in
  let content p q := Node 4 p q [name p q; Node 5 q q []] in
  let t := Node 0 0 3 [Node 25 0 1 [content 0 1]; Node 7 1 2 [content 1 2]; content 2 3]%Z in
  ToAST (with_ignored [25; 7; 25]%Z SelfCSTtoASTBindings) t (s2b "abc") = Ok [mkRule (s2b "c") []] /\
  ToAST (with_ignored [7]%Z SelfCSTtoASTBindings) t (s2b "abc")
    = Ok [mkRule (s2b "a") []; mkRule (s2b "c") []].
Proof. vm_compute. split; reflexivity. Qed.

(** ** C44 *)

Lemma bytes_eqb_eq a b : bytes_eqb a b = true <-> a = b.
Proof.
  revert b. induction a as [|x a IH]; intros [|y b]; cbn; split; try discriminate; try reflexivity.
  - intros H. apply andb_true_iff in H. destruct H as (H1 & H2). apply Ascii.eqb_eq in H1.
    apply IH in H2. congruence.
  - intros H. injection H as -> ->. rewrite Ascii.eqb_refl. apply IH. reflexivity.
Qed.

(** Symbols of the three kinds of the package. *)
Definition known_symbol (s : symbol) : Prop := match s with SUnknown _ => False | _ => True end.
Definition known_grammar (g : grammar) : Prop :=
  Forall (fun r => Forall (Forall known_symbol) (r_tail r)) g.

Lemma all_equal_spec {A} (eq : A -> A -> answer) a b :
  length a = length b ->
  (forall x y, In x a -> exists v, eq x y = Answer v /\ (v = true <-> x = y)) ->
  exists v, all_equal eq a b = Answer v /\ (v = true <-> a = b).
Proof.
  revert b. induction a as [|x a IH]; intros [|y b] L H; try discriminate.
  - exists true. cbn. tauto.
  - cbn. destruct (H x y (or_introl eq_refl)) as (v & E & V). rewrite E.
    destruct v.
    + destruct (IH b) as (w & Ew & W).
      * injection L. auto.
      * intros x' y' Hx. apply H. right. exact Hx.
      * exists w. split; [exact Ew|]. rewrite W. assert (x = y) by (apply V; reflexivity). subst y.
        split; [intros ->; reflexivity|]. intros G. injection G. auto.
    + exists false. split; [reflexivity|]. split; [discriminate|]. intros G. injection G as -> _.
      destruct V as (_ & V). discriminate (V eq_refl).
Qed.
Lemma list_equal_spec {A} (eq : A -> A -> answer) a b :
  (forall x y, In x a -> exists v, eq x y = Answer v /\ (v = true <-> x = y)) ->
  exists v, (if negb (Nat.eqb (length a) (length b)) then Answer false else all_equal eq a b) = Answer v /\
    (v = true <-> a = b).
Proof.
  intros H. destruct (Nat.eqb_spec (length a) (length b)) as [L|L]; cbn [negb].
  - apply all_equal_spec; assumption.
  - exists false. split; [reflexivity|]. split; [discriminate|]. intros ->. destruct (L eq_refl).
Qed.

Theorem C44_comparison :
  forall a b, known_grammar a ->
    exists v, isGrammarsEqual a b = Answer v /\ (v = true <-> a = b).
Proof.
  intros a b K. apply list_equal_spec. intros x y Hx.
  unfold known_grammar in K. rewrite Forall_forall in K. specialize (K x Hx). cbn in K.
  unfold isRulesEqual, isNonTerminalsEqual. destruct x as [h t], y as [h' t']. cbn [r_head r_tail] in *.
  destruct (bytes_eqb h h') eqn:E; cbn [negb].
  - apply bytes_eqb_eq in E. subst h'.
    destruct (list_equal_spec isSequencesEqual t t') as (v & Ev & V).
    + intros s s' Hs. rewrite Forall_forall in K. specialize (K s Hs).
      apply list_equal_spec. intros c d Hc. rewrite Forall_forall in K. specialize (K c Hc).
      destruct c as [n|n| |n]; destruct d as [m|m| |m]; cbn; try (destruct K); eexists;
        (split; [reflexivity|]); try (split; [discriminate|congruence]).
      * unfold isNonTerminalsEqual. rewrite bytes_eqb_eq. split; congruence.
      * unfold isTerminalsEqual. rewrite bytes_eqb_eq. split; congruence.
      * tauto.
    + exists v. split; [exact Ev|]. rewrite V. split; congruence.
  - exists false. split; [reflexivity|]. split; [discriminate|]. intros G. injection G as -> _.
    rewrite (proj2 (bytes_eqb_eq h' h') eq_refl) in E. discriminate.
Qed.
Print Assumptions C44_comparison.

Example C44_case : known_grammar SelfGrammar.SelfGrammar.
Proof. repeat constructor. Qed.

(** ** C45 *)

Theorem C45_no_panic :
  forall b root str, (forall m, subnode m root -> inside str m) ->
    (exists g, ToAST b root str = Ok g) \/ (exists e, ToAST b root str = Err e).
Proof.
  intros b root str H. pose proof (ToAST_returns b root str H) as R.
  destruct (ToAST b root str) as [g|e|p|]; [left; eauto|right; eauto|destruct R|destruct R].
Qed.
Print Assumptions C45_no_panic.

(** Otherwise it may panic: a node that ends behind the text. *)
Theorem C45_refuted_short_text :
  exists root, ToAST SelfCSTtoASTBindings root (s2b "ab") = Panic PanicSlice.
Proof. exists (Node 4 0 3 [Node 18 0 3 []]). vm_compute. reflexivity. Qed.
Print Assumptions C45_refuted_short_text.

Example C45_case :
  let t := Node 4 0 3 [Node 18 0 3 []] in forall m, subnode m t -> inside (s2b "abc") m.
Proof.
  cbn zeta. intros m H. inversion H as [|? ? ? ? c Hc H']; subst.
  - unfold inside. cbn. lia.
  - destruct Hc as [<-|[]]. inversion H' as [|? ? ? ? c' Hc' H'']; subst.
    + unfold inside. cbn. lia.
    + destruct Hc'.
Qed.

(** ** C46 *)

(** Whatever the bindings say about escapes: without a node of type 16 the text
    of the literals is copied as it stands. *)
Theorem C46_verbatim_without_type_16 :
  forall b str n,
    (forall m, subnode m n -> inside str m) -> (forall m, subnode m n -> n_type m <> 16%Z) ->
    parseTerminalName b str n =
    Ok (concat (map (fun m => text_of str (n_pos m) (n_end m)) (literals n))).
Proof. exact terminal_verbatim. Qed.
Print Assumptions C46_verbatim_without_type_16.

(** Bindings for a grammar that numbers the escape rule 30 and its character
    31: the terminal "\n" is read as backslash, n. With 16 instead of 30 it is
    read as a newline. *)
Definition renumbered : bindings :=
  {| IgnoreNodeTypes := []; RuleType := 4; RuleHeadType := 18; RuleTailType := 5;
     ExpressionSequencesType := 7; SequencesSymbolType := 9; SymbolTerminalTypes := [11%Z];
     SymbolNonTerminalType := 18; EscapeCharacterType := 31;
     EscapeMapping := [(s2b "n", [LF])] |}.
Definition escape_tree (ty : Z) : node :=
  Node 4 0 3 [Node 18 0 1 []; Node 5 1 3 [Node 7 1 3 [Node 9 1 3
    [Node 11 1 3 [Node ty 1 3 [Node (-1) 1 2 []; Node 31 2 3 [Node (-1) 2 3 []]]]]]]].
Theorem C46_refuted_bindings :
  ToAST renumbered (escape_tree 30) (s2b "a\n") = Ok [mkRule (s2b "a") [[STerminal (s2b "\n")]]] /\
  ToAST renumbered (escape_tree 16) (s2b "a\n") = Ok [mkRule (s2b "a") [[STerminal [LF]]]].
Proof. vm_compute. split; reflexivity. Qed.
Print Assumptions C46_refuted_bindings.
