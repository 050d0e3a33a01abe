(** * ConvertTime: the counting converter is the converter, and how often it visits. *)
From Verif Require Import Base Cst Ast Parser FromCst FromCstTime Spec_Size Props_Size WalkProofs ConvertProofs.

Lemma tbind_snd {E A B} (x : timed (gores E A)) (f : A -> timed (gores E B)) (g : A -> gores E B) :
  (forall a, snd (f a) = g a) -> snd (tbind x f) = gobind (snd x) g.
Proof.
  intros H. destruct x as [k [a|e|p|]]; cbn [tbind snd gobind]; try reflexivity.
  rewrite <- H. destruct (f a). reflexivity.
Qed.
Lemma tbind_snd' {E A B} (x : timed (gores E A)) (f : A -> timed (gores E B)) :
  snd (tbind x f) = gobind (snd x) (fun a => snd (f a)).
Proof. apply tbind_snd. reflexivity. Qed.
Lemma tbind_erase {E A B} (x : timed (gores E A)) y (f : A -> timed (gores E B)) g :
  snd x = y -> (forall a, snd (f a) = g a) -> snd (tbind x f) = gobind y g.
Proof. intros <-. apply tbind_snd. Qed.
Lemma tbind_fst {E A B} (x : timed (gores E A)) (f : A -> timed (gores E B)) a b :
  fst x <= a -> (forall v, snd x = Ok v -> fst (f v) <= b) -> fst (tbind x f) <= a + b.
Proof.
  intros H K. destruct x as [k [v|e|p|]]; cbn [tbind fst snd] in *; try lia.
  specialize (K v eq_refl). destruct (f v). cbn [fst] in *. lia.
Qed.
Lemma tbind_once {E A B} (x : timed (gores E A)) (f : A -> gores E B) :
  fst (tbind x (fun v => at_once (f v))) = fst x.
Proof. destruct x as [k [v|e|p|]]; cbn [tbind at_once fst]; lia. Qed.

Section Walk.
  Context {S : Type}.
  Variable ign sea : Z -> bool.
  Variable ft : callback_t S.

  (** The children, one after the other. *)
  Definition each_t : S * option fcerror -> list node -> timed (gop (S * option fcerror)) :=
    fix each st l := match l with
                     | [] => (0, Ok st)
                     | c :: l' => tbind (walkFlex_t ign sea ft st c) (fun st' => each st' l')
                     end.
  Lemma walkFlex_t_eq s err t p q l : walkFlex_t ign sea ft (s, err) (Node t p q l) =
    tbind (1, Ok tt) (fun _ =>
      match err with
      | Some _ => (0, Ok (s, err))
      | None => if ign t then (0, Ok (s, err)) else if sea t then ft s (Node t p q l) else each_t (s, err) l
      end).
  Proof. reflexivity. Qed.

  Lemma walk_erase f : (forall s n, snd (ft s n) = f s n) ->
    forall n st, snd (walkFlex_t ign sea ft st n) = walk (flexVisit ign sea f) tt st n.
  Proof.
    intros F. induction n as [t p q l IH] using node_ind'. intros (s, err). rewrite walk_eq, walkFlex_t_eq.
    rewrite (tbind_snd _ _ (fun _ => match err with Some _ => Ok (s, err) | None => if ign t then Ok (s, err) else
      if sea t then f s (Node t p q l) else walk_each (flexVisit ign sea f) tt (s, err) l end)).
    - cbn [snd gobind]. unfold flexVisit at 2. destruct err as [e|]; [reflexivity|]. cbn [n_type n_childs].
      destruct (ign t); [reflexivity|]. destruct (sea t); [|reflexivity].
      destruct (f s (Node t p q l)) as [[]|[]| |]; reflexivity.
    - intros _. destruct err as [e|]; [reflexivity|]. destruct (ign t); [reflexivity|]. destruct (sea t); [apply F|].
      clear F. generalize (s, @None fcerror). induction IH as [|c l Hc _ IHl]; intros st; [reflexivity|].
      cbn [each_t walk_each]. rewrite (tbind_snd _ _ _ IHl), Hc.
      destruct (walk (flexVisit ign sea f) tt st c); reflexivity.
  Qed.

  Lemma walk_cost c : (forall s n, fst (ft s n) <= c * nodes n) ->
    forall n st, fst (walkFlex_t ign sea ft st n) <= (1 + c) * nodes n.
  Proof.
    intros F. induction n as [t p q l IH] using node_ind'. intros (s, err). rewrite walkFlex_t_eq, nodes_node.
    assert (L : forall st, fst (each_t st l) <= (1 + c) * total l).
    { induction IH as [|x l Hx _ IHl]; intros st; [apply Nat.le_0_l|]. cbn [each_t]. rewrite total_cons.
      rewrite Nat.mul_add_distr_l. apply tbind_fst; [apply Hx|]. intros v _. apply IHl. }
    replace ((1 + c) * (1 + total l)) with (1 + (c + (1 + c) * total l)) by (clear; lia). apply tbind_fst; [apply le_n|]. intros _ _.
    destruct err as [e|]; [apply Nat.le_0_l|]. destruct (ign t); [apply Nat.le_0_l|]. destruct (sea t).
    - specialize (F s (Node t p q l)). rewrite nodes_node in F. etransitivity; [exact F|]. clear. rewrite Nat.mul_add_distr_l, Nat.mul_add_distr_r, !Nat.mul_1_r, Nat.mul_1_l. lia.
    - specialize (L (s, None)). etransitivity; [exact L|]. apply Nat.le_add_l.
  Qed.

  (** If every call of the callback ends the traversal, a traversal that was not
      ended has called none. *)
  Lemma walk_ended : (forall s n s', snd (ft s n) <> Ok (s', None)) ->
    forall n st s', snd (walkFlex_t ign sea ft st n) = Ok (s', None) -> fst (walkFlex_t ign sea ft st n) <= nodes n.
  Proof.
    intros F. induction n as [t p q l IH] using node_ind'. intros (s, err) s' E. rewrite walkFlex_t_eq in E |- *.
    rewrite nodes_node.
    assert (L : forall st, snd (each_t st l) = Ok (s', None) -> fst (each_t st l) <= total l).
    { clear E. induction IH as [|x l Hx _ IHl]; intros st H; [apply Nat.le_0_l|]. cbn [each_t] in *. rewrite total_cons.
      specialize (Hx st).
      destruct (walkFlex_t ign sea ft st x) as [k [[s1 [e|]]| | |]]; cbn [snd fst tbind] in *; try discriminate H.
      - exfalso. revert H. clear. revert s1. induction l as [|c l IH]; intros s1 H; [discriminate H|].
        cbn [each_t] in H. destruct c as [t p q cs]. rewrite walkFlex_t_eq in H. cbn [tbind] in H. apply (IH s1).
        destruct (each_t (s1, Some e) l). exact H.
      - specialize (Hx _ eq_refl). specialize (IHl (s1, None)). destruct (each_t (s1, None) l). cbn [fst snd] in *.
        specialize (IHl H). lia. }
    apply tbind_fst; [apply le_n|]. intros _ _. unfold gop in *; rewrite tbind_snd' in E. cbn [snd gobind] in E.
    destruct err as [e|]; [apply Nat.le_0_l|]. destruct (ign t); [apply Nat.le_0_l|]. destruct (sea t); [destruct (F _ _ _ E)|apply L, E].
  Qed.
End Walk.

Lemma on_result_snd {A S} (x : timed (fcres A)) (ok : A -> S * option fcerror) s :
  snd (on_result x ok s) = match snd x with Ok a => Ok (ok a) | Err e => Ok (s, Some e) | Panic p => Panic p | NoFuel => NoFuel end.
Proof. reflexivity. Qed.
Lemma tlift_snd {A} (x : timed (gop A)) : snd (tlift x) = lift (snd x).
Proof. reflexivity. Qed.
Lemma tlift_fst {A} (x : timed (gop A)) : fst (tlift x) = fst x.
Proof. reflexivity. Qed.
Lemma lift_ok {A} (x : gop A) a : lift x = Ok a -> x = Ok a.
Proof. destruct x as [|[]| |]; cbn; intros H; try discriminate. injection H as ->. reflexivity. Qed.

Section Convert.
  Variable b : bindings.
  Variable str : bytes.

  Lemma trav_erase {S} (ft : callback_t S) f root u s : (forall s n, snd (ft s n) = f s n) ->
    snd (b_lrTraverse_t b root u ft s) = b_lrTraverse b root u f s.
  Proof. intros F. apply walk_erase, F. Qed.
  Lemma trav_cost {S} c (ft : callback_t S) root u s : (forall s n, fst (ft s n) <= c * nodes n) ->
    fst (b_lrTraverse_t b root u ft s) <= (1 + c) * nodes root.
  Proof. intros F. apply walk_cost, F. Qed.

  (** ** The results *)
  Lemma trav_lift {S} (ft : callback_t S) f root u s : (forall s n, snd (ft s n) = f s n) ->
    snd (tlift (b_lrTraverse_t b root u ft s)) = lift (b_lrTraverse b root u f s).
  Proof. intros F. rewrite tlift_snd. f_equal. apply trav_erase, F. Qed.
  Lemma escape_erase n : snd (parseEscape_t b str n) = parseEscape b str n.
  Proof. apply tbind_erase; [apply trav_lift; reflexivity|intros [r e]; reflexivity]. Qed.
  Lemma part_erase s n : snd (fOnTerminalPart_t b str s n) = fOnTerminalPart b str s n.
  Proof.
    unfold fOnTerminalPart_t, fOnTerminalPart. destruct (n_type n =? builtinTerminal)%Z; [reflexivity|].
    rewrite on_result_snd, escape_erase. reflexivity.
  Qed.
  Lemma name_erase n : snd (parseTerminalName_t b str n) = parseTerminalName b str n.
  Proof.
    apply tbind_erase; [|intros [r e]; reflexivity]. rewrite tlift_snd. f_equal. apply walk_erase, part_erase.
  Qed.
  Lemma terminal_erase s n : snd (doOnTerminalName_t b str s n) = doOnTerminalName b str s n.
  Proof.
    unfold doOnTerminalName_t, doOnTerminalName. rewrite on_result_snd, name_erase.
    destruct (parseTerminalName b str n) as [a| | |]; try reflexivity. destruct (Nat.eqb (length a) 0); reflexivity.
  Qed.
  Lemma loop_erase types n : snd (symbol_terminal_loop_t b str types n) = symbol_terminal_loop b str types n.
  Proof.
    induction types as [|t types IH]; [reflexivity|]. cbn [symbol_terminal_loop_t symbol_terminal_loop].
    apply tbind_erase; [apply trav_lift, terminal_erase|].
    intros [r [[[]| | | | |]|]]; try reflexivity. exact IH.
  Qed.
  Lemma symbol_erase n : snd (parseSymbol_t b str n) = parseSymbol b str n.
  Proof.
    apply tbind_erase; [apply loop_erase|]. intros [r|]; [reflexivity|].
    apply tbind_erase; [apply trav_lift; reflexivity|intros [r e]; reflexivity].
  Qed.
  Lemma sequence_erase n : snd (parseSequence_t b str n) = parseSequence b str n.
  Proof.
    apply tbind_erase; [apply trav_lift|intros [r e]; reflexivity]. intros s m. rewrite on_result_snd, symbol_erase. reflexivity.
  Qed.
  Lemma substitution_erase n : snd (parseSubstitution_t b str n) = parseSubstitution b str n.
  Proof.
    apply tbind_erase; [apply trav_lift|intros [r e]; reflexivity]. intros s m. rewrite on_result_snd, sequence_erase. reflexivity.
  Qed.
  Lemma rule_erase n : snd (parseRule_t b str n) = parseRule b str n.
  Proof.
    apply tbind_erase; [apply trav_lift; reflexivity|]. intros [r [[[]| | | | |]|]]; try reflexivity.
    apply tbind_erase; [apply trav_lift|intros [r' e]; reflexivity]. intros s m. rewrite on_result_snd, substitution_erase. reflexivity.
  Qed.
  Lemma sorted_erase n : snd (ToAST_sorted_t b str n) = ToAST_sorted b str n.
  Proof.
    apply tbind_erase; [apply trav_lift|intros [r e]; reflexivity]. intros s m. rewrite on_result_snd, rule_erase. reflexivity.
  Qed.

  (** ** The visits *)
  Ltac one_trav := match goal with |- context [fst (tbind ?x ?f)] =>
    assert (fst (tbind x f) <= fst x) by
      (rewrite <- (Nat.add_0_r (fst x)); apply tbind_fst; [apply le_n|]; intros [? ?] _; apply le_n) end.
  Lemma escape_cost n : fst (parseEscape_t b str n) <= 1 * nodes n.
  Proof.
    unfold parseEscape_t. one_trav. etransitivity; [eassumption|]. rewrite tlift_fst. apply (trav_cost 0). intros. apply Nat.le_0_l.
  Qed.
  Lemma name_cost n : fst (parseTerminalName_t b str n) <= 2 * nodes n.
  Proof.
    unfold parseTerminalName_t. one_trav. etransitivity; [eassumption|]. rewrite tlift_fst. apply (walk_cost _ _ _ 1).
    intros s m. unfold fOnTerminalPart_t. destruct (n_type m =? builtinTerminal)%Z; [apply Nat.le_0_l|]. apply escape_cost.
  Qed.
  Lemma terminal_cost s n : fst (doOnTerminalName_t b str s n) <= 2 * nodes n.
  Proof. apply name_cost. Qed.
  Lemma terminal_ends s n s' : snd (doOnTerminalName_t b str s n) <> Ok (s', None).
  Proof.
    rewrite terminal_erase. unfold doOnTerminalName. destruct (parseTerminalName b str n) as [a| | |]; try discriminate.
    destruct (Nat.eqb (length a) 0); discriminate.
  Qed.
  Lemma loop_cost types n : fst (symbol_terminal_loop_t b str types n) <= (length types + 2) * nodes n.
  Proof.
    induction types as [|t types IH]; [apply Nat.le_0_l|].
    pose proof (trav_cost 2 (doOnTerminalName_t b str) n t None terminal_cost) as C.
    pose proof (walk_ended (isNodeIgnored (IgnoreNodeTypes b)) (fun u => (u =? t)%Z) _ terminal_ends n (None, None)) as W.
    cbn [symbol_terminal_loop_t length]. unfold b_lrTraverse_t, lrTraverse_t in *.
    replace ((S (length types) + 2) * nodes n) with (nodes n + (length types + 2) * nodes n) by ring.
    assert (T : (1 + 2) * nodes n <= nodes n + (length types + 2) * nodes n) by (rewrite !Nat.mul_add_distr_r; lia).
    destruct (walkFlex_t (isNodeIgnored (IgnoreNodeTypes b)) (fun u => (u =? t)%Z) (doOnTerminalName_t b str) (None, None) n)
      as [k [[res err]|[]|p|]]; cbn [tlift fst snd lift tbind] in *; try lia.
    destruct err as [e|].
    - destruct e as [[]| | | | |]; cbn [at_once fst]; lia.
    - specialize (W res eq_refl). destruct (symbol_terminal_loop_t b str types n). cbn [fst] in *. lia.
  Qed.
  Notation T := (length (SymbolTerminalTypes b)).
  Lemma symbol_cost n : fst (parseSymbol_t b str n) <= (T + 3) * nodes n.
  Proof.
    unfold parseSymbol_t. replace ((T + 3) * nodes n) with ((T + 2) * nodes n + (1 + 0) * nodes n) by ring.
    apply tbind_fst; [apply loop_cost|]. intros [r|] _; [apply Nat.le_0_l|].
    one_trav. etransitivity; [eassumption|]. rewrite tlift_fst. apply (trav_cost 0). intros. apply Nat.le_0_l.
  Qed.
  Lemma sequence_cost n : fst (parseSequence_t b str n) <= (1 + (T + 3)) * nodes n.
  Proof. unfold parseSequence_t. one_trav. etransitivity; [eassumption|]. rewrite tlift_fst. apply trav_cost. intros. apply symbol_cost. Qed.
  Lemma substitution_cost n : fst (parseSubstitution_t b str n) <= (1 + (1 + (T + 3))) * nodes n.
  Proof. unfold parseSubstitution_t. one_trav. etransitivity; [eassumption|]. rewrite tlift_fst. apply trav_cost. intros. apply sequence_cost. Qed.
  Lemma rule_cost n : fst (parseRule_t b str n) <= (T + 7) * nodes n.
  Proof.
    unfold parseRule_t. replace ((T + 7) * nodes n) with ((1 + 0) * nodes n + (1 + (1 + (1 + (T + 3)))) * nodes n) by ring.
    apply tbind_fst; [rewrite tlift_fst; apply trav_cost; intros; apply Nat.le_0_l|].
    intros [r [[[]| | | | |]|]] _; try apply Nat.le_0_l.
    one_trav. etransitivity; [eassumption|]. rewrite tlift_fst. apply trav_cost. intros. apply substitution_cost.
  Qed.
  Lemma sorted_cost n : fst (ToAST_sorted_t b str n) <= (T + 8) * nodes n.
  Proof.
    unfold ToAST_sorted_t. one_trav. etransitivity; [eassumption|]. rewrite tlift_fst.
    replace (T + 8) with (1 + (T + 7)) by lia. apply trav_cost. intros. apply rule_cost.
  Qed.
End Convert.

Theorem timed_result b root str : snd (ToAST_timed b root str) = ToAST b root str.
Proof. apply sorted_erase. Qed.
Theorem timed_visits b root str :
  fst (ToAST_timed b root str) <= (length (SymbolTerminalTypes b) + 8) * nodes root.
Proof. exact (sorted_cost (sort_bindings b) str root). Qed.
