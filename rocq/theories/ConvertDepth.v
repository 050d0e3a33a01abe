(** * ConvertDepth: the converter with the depth of its recursion is the
    converter, and how deep it gets. *)
From Verif Require Import Base Cst Ast Parser FromCst FromCstDepth Spec_Size WalkProofs ConvertProofs.

Lemma dbind_snd {E A B} (x : deep (gores E A)) (f : A -> deep (gores E B)) (g : A -> gores E B) :
  (forall a, snd (f a) = g a) -> snd (dbind x f) = gobind (snd x) g.
Proof.
  intros H. destruct x as [k [a|e|p|]]; cbn [dbind snd gobind]; try reflexivity.
  rewrite <- H. destruct (f a). reflexivity.
Qed.
Lemma dbind_erase {E A B} (x : deep (gores E A)) y (f : A -> deep (gores E B)) g :
  snd x = y -> (forall a, snd (f a) = g a) -> snd (dbind x f) = gobind y g.
Proof. intros <-. apply dbind_snd. Qed.
Lemma dbind_fst {E A B} (x : deep (gores E A)) (f : A -> deep (gores E B)) a :
  fst x <= a -> (forall v, fst (f v) <= a) -> fst (dbind x f) <= a.
Proof.
  intros H K. destruct x as [k [v|e|p|]]; cbn [dbind fst snd] in *; try lia.
  specialize (K v). destruct (f v). cbn [fst] in *. lia.
Qed.
Lemma dbind_once {E A B} (x : deep (gores E A)) (f : A -> gores E B) :
  fst (dbind x (fun v => at_once (f v))) = fst x.
Proof. destruct x as [k [v|e|p|]]; cbn [dbind at_once fst]; lia. Qed.

Definition deepest (l : list node) : nat := list_max (map depth l).
Lemma depth_node t p q l : depth (Node t p q l) = 1 + deepest l.
Proof. reflexivity. Qed.
Lemma deepest_cons c l : deepest (c :: l) = Nat.max (depth c) (deepest l).
Proof. reflexivity. Qed.

(** ** Walk with any visitor *)
Section Any.
  Context {V S : Type}.
  Variable visit : V -> S -> node -> gores Empty_set (S * option V).

  Definition each_d (w : V) : S -> list node -> deep (gores Empty_set S) :=
    fix each s l := match l with
                    | [] => (0, Ok s)
                    | c :: l' => dbind (walk_d visit w s c) (fun s' => each s' l')
                    end.
  Lemma walk_d_eq v s t p q l : walk_d visit v s (Node t p q l) =
    enter match visit v s (Node t p q l) with
          | Ok (s1, None) => (0, Ok s1)
          | Ok (s1, Some w) => each_d w s1 l
          | Err e => (0, Err e)
          | Panic p => (0, Panic p)
          | NoFuel => (0, NoFuel)
          end.
  Proof. reflexivity. Qed.
  Lemma any_erase : forall n v s, snd (walk_d visit v s n) = walk visit v s n.
  Proof.
    induction n as [t p q l IH] using node_ind'. intros v s. rewrite walk_d_eq, walk_eq. cbn [n_childs].
    destruct (visit v s (Node t p q l)) as [[s1 [w|]]| | |]; try reflexivity. cbn [enter snd].
    clear s. revert s1. induction IH as [|c l Hc _ IHl]; intros s; [reflexivity|].
    cbn [each_d walk_each]. rewrite (dbind_snd _ _ _ IHl), Hc. destruct (walk visit w s c); reflexivity.
  Qed.
  Lemma any_depth : forall n v s, fst (walk_d visit v s n) <= depth n.
  Proof.
    induction n as [t p q l IH] using node_ind'. intros v s. rewrite walk_d_eq, depth_node. cbn [enter fst].
    apply le_n_S. destruct (visit v s (Node t p q l)) as [[s1 [w|]]| | |]; try apply Nat.le_0_l.
    clear s. revert s1. induction IH as [|c l Hc _ IHl]; intros s; [apply Nat.le_0_l|].
    cbn [each_d]. rewrite deepest_cons. apply dbind_fst.
    - etransitivity; [apply Hc|apply Nat.le_max_l].
    - intros v'. etransitivity; [apply IHl|apply Nat.le_max_r].
  Qed.
  Lemma any_full : (forall v s n, exists s' w, visit v s n = Ok (s', Some w)) ->
    forall n v s, fst (walk_d visit v s n) = depth n /\ exists s', snd (walk_d visit v s n) = Ok s'.
  Proof.
    intros F. induction n as [t p q l IH] using node_ind'. intros v s. rewrite walk_d_eq, depth_node. cbn [enter fst snd].
    destruct (F v s (Node t p q l)) as (s1 & w & ->).
    clear s. revert s1.
    assert (L : forall s, fst (each_d w s l) = deepest l /\ exists s', snd (each_d w s l) = Ok s').
    { induction IH as [|c l Hc _ IHl]; intros s; [split; [reflexivity|eexists; reflexivity]|].
      cbn [each_d]. rewrite deepest_cons. destruct (Hc w s) as (D & s' & E).
      destruct (walk_d visit w s c) as [k r]. cbn [fst snd] in *. subst k r. cbn [dbind].
      destruct (IHl s') as (D' & s2 & E'). destruct (each_d w s' l) as [k r]. cbn [fst snd] in *. subst. eauto. }
    intros s1. destruct (L s1) as (-> & E). auto.
  Qed.
End Any.

(** ** ToAST *)
Section Walk.
  Context {S : Type}.
  Variable ign sea : Z -> bool.
  Variable ft : callback_d S.

  Definition flex_each : S * option fcerror -> list node -> deep (gop (S * option fcerror)) :=
    fix each st l := match l with
                     | [] => (0, Ok st)
                     | c :: l' => dbind (walkFlex_d ign sea ft st c) (fun st' => each st' l')
                     end.
  Lemma walkFlex_d_eq s err t p q l : walkFlex_d ign sea ft (s, err) (Node t p q l) =
    enter
      match err with
      | Some _ => (0, Ok (s, err))
      | None => if ign t then (0, Ok (s, err)) else if sea t then ft s (Node t p q l) else flex_each (s, err) l
      end.
  Proof. reflexivity. Qed.

  Lemma walk_erase f : (forall s n, snd (ft s n) = f s n) ->
    forall n st, snd (walkFlex_d ign sea ft st n) = walk (flexVisit ign sea f) tt st n.
  Proof.
    intros F. induction n as [t p q l IH] using node_ind'. intros (s, err). rewrite walk_eq, walkFlex_d_eq.
    cbn [enter snd]. unfold flexVisit at 1. destruct err as [e|]; [reflexivity|]. cbn [n_type n_childs].
    destruct (ign t); [reflexivity|]. destruct (sea t).
    - rewrite F. destruct (f s (Node t p q l)) as [[]|[]| |]; reflexivity.
    - clear F. generalize (s, @None fcerror). induction IH as [|c l Hc _ IHl]; intros st; [reflexivity|].
      cbn [flex_each walk_each]. rewrite (dbind_snd _ _ _ IHl), Hc.
      destruct (walk (flexVisit ign sea f) tt st c); reflexivity.
  Qed.

  Lemma walk_deep c : (forall s n, fst (ft s n) + 1 <= depth n + c) ->
    forall n st, fst (walkFlex_d ign sea ft st n) <= depth n + c.
  Proof.
    intros F. induction n as [t p q l IH] using node_ind'. intros (s, err). rewrite walkFlex_d_eq.
    assert (L : forall st, fst (flex_each st l) <= deepest l + c).
    { induction IH as [|x l Hx _ IHl]; intros st; [apply Nat.le_0_l|]. cbn [flex_each]. rewrite deepest_cons.
      apply dbind_fst.
      - etransitivity; [apply Hx|]. apply Nat.add_le_mono_r, Nat.le_max_l.
      - intros v. etransitivity; [apply IHl|]. apply Nat.add_le_mono_r, Nat.le_max_r. }
    cbn [enter fst]. specialize (F s (Node t p q l)). specialize (L (s, None)). rewrite depth_node in *.
    destruct err as [e|]; [cbn; lia|]. destruct (ign t); [cbn; lia|]. destruct (sea t); unfold gop in *; lia.
  Qed.
End Walk.

Lemma depth_pos n : 1 <= depth n.
Proof. destruct n. rewrite depth_node. lia. Qed.

Lemma on_result_snd {A S} (x : deep (fcres A)) (ok : A -> S * option fcerror) s :
  snd (on_result x ok s) = match snd x with Ok a => Ok (ok a) | Err e => Ok (s, Some e) | Panic p => Panic p | NoFuel => NoFuel end.
Proof. reflexivity. Qed.
Lemma dlift_snd {A} (x : deep (gop A)) : snd (dlift x) = lift (snd x).
Proof. reflexivity. Qed.
Lemma dlift_fst {A} (x : deep (gop A)) : fst (dlift x) = fst x.
Proof. reflexivity. Qed.
Lemma lift_ok' {A} (x : gop A) a : lift x = Ok a -> x = Ok a.
Proof. destruct x as [|[]| |]; cbn; intros H; try discriminate. injection H as ->. reflexivity. Qed.

Section Convert.
  Variable b : bindings.
  Variable str : bytes.

  Lemma trav_erase {S} (ft : callback_d S) f root u s : (forall s n, snd (ft s n) = f s n) ->
    snd (b_lrTraverse_d b root u ft s) = b_lrTraverse b root u f s.
  Proof. intros F. apply walk_erase, F. Qed.
  Lemma trav_deep {S} c (ft : callback_d S) root u s : (forall s n, fst (ft s n) + 1 <= depth n + c) ->
    fst (b_lrTraverse_d b root u ft s) <= depth root + c.
  Proof. intros F. apply walk_deep, F. Qed.

  (** ** The results *)
  Lemma trav_lift {S} (ft : callback_d S) f root u s : (forall s n, snd (ft s n) = f s n) ->
    snd (dlift (b_lrTraverse_d b root u ft s)) = lift (b_lrTraverse b root u f s).
  Proof. intros F. rewrite dlift_snd. f_equal. apply trav_erase, F. Qed.
  Lemma escape_erase n : snd (parseEscape_d b str n) = parseEscape b str n.
  Proof. apply dbind_erase; [apply trav_lift; reflexivity|intros [r e]; reflexivity]. Qed.
  Lemma part_erase s n : snd (fOnTerminalPart_d b str s n) = fOnTerminalPart b str s n.
  Proof.
    unfold fOnTerminalPart_d, fOnTerminalPart. destruct (n_type n =? builtinTerminal)%Z; [reflexivity|].
    rewrite on_result_snd, escape_erase. reflexivity.
  Qed.
  Lemma name_erase n : snd (parseTerminalName_d b str n) = parseTerminalName b str n.
  Proof.
    apply dbind_erase; [|intros [r e]; reflexivity]. rewrite dlift_snd. f_equal. apply walk_erase, part_erase.
  Qed.
  Lemma terminal_erase s n : snd (doOnTerminalName_d b str s n) = doOnTerminalName b str s n.
  Proof.
    unfold doOnTerminalName_d, doOnTerminalName. rewrite on_result_snd, name_erase.
    destruct (parseTerminalName b str n) as [a| | |]; try reflexivity. destruct (Nat.eqb (length a) 0); reflexivity.
  Qed.
  Lemma loop_erase types n : snd (symbol_terminal_loop_d b str types n) = symbol_terminal_loop b str types n.
  Proof.
    induction types as [|t types IH]; [reflexivity|]. cbn [symbol_terminal_loop_d symbol_terminal_loop].
    apply dbind_erase; [apply trav_lift, terminal_erase|].
    intros [r [[[]| | | | |]|]]; try reflexivity. exact IH.
  Qed.
  Lemma symbol_erase n : snd (parseSymbol_d b str n) = parseSymbol b str n.
  Proof.
    apply dbind_erase; [apply loop_erase|]. intros [r|]; [reflexivity|].
    apply dbind_erase; [apply trav_lift; reflexivity|intros [r e]; reflexivity].
  Qed.
  Lemma sequence_erase n : snd (parseSequence_d b str n) = parseSequence b str n.
  Proof.
    apply dbind_erase; [apply trav_lift|intros [r e]; reflexivity]. intros s m. rewrite on_result_snd, symbol_erase. reflexivity.
  Qed.
  Lemma substitution_erase n : snd (parseSubstitution_d b str n) = parseSubstitution b str n.
  Proof.
    apply dbind_erase; [apply trav_lift|intros [r e]; reflexivity]. intros s m. rewrite on_result_snd, sequence_erase. reflexivity.
  Qed.
  Lemma rule_erase n : snd (parseRule_d b str n) = parseRule b str n.
  Proof.
    apply dbind_erase; [apply trav_lift; reflexivity|]. intros [r [[[]| | | | |]|]]; try reflexivity.
    apply dbind_erase; [apply trav_lift|intros [r' e]; reflexivity]. intros s m. rewrite on_result_snd, substitution_erase. reflexivity.
  Qed.
  Lemma sorted_erase n : snd (ToAST_sorted_d b str n) = ToAST_sorted b str n.
  Proof.
    apply dbind_erase; [apply trav_lift|intros [r e]; reflexivity]. intros s m. rewrite on_result_snd, rule_erase. reflexivity.
  Qed.

  (** ** The depth *)
  Ltac one_trav := match goal with |- fst (dbind _ _) <= _ =>
    apply dbind_fst; [|intros [? ?]; apply Nat.le_0_l] end; rewrite dlift_fst.
  Lemma flat_deep {S : Type} (f : S -> node -> gop (S * option fcerror)) root u s :
    fst (b_lrTraverse_d b root u (fun s n => at_once (f s n)) s) <= depth root + 0.
  Proof. apply trav_deep. intros s' n. pose proof (depth_pos n). cbn [at_once fst]. lia. Qed.
  Lemma escape_deep n : fst (parseEscape_d b str n) <= depth n + 0.
  Proof. unfold parseEscape_d. one_trav. apply flat_deep. Qed.
  Lemma name_deep n : fst (parseTerminalName_d b str n) <= depth n + 1.
  Proof.
    unfold parseTerminalName_d. one_trav. apply walk_deep. intros s m. unfold fOnTerminalPart_d.
    pose proof (depth_pos m). destruct (n_type m =? builtinTerminal)%Z; [cbn [at_once fst]; lia|].
    cbn [on_result fst]. pose proof (escape_deep m). lia.
  Qed.
  Lemma terminal_deep s n : fst (doOnTerminalName_d b str s n) + 1 <= depth n + 2.
  Proof. pose proof (name_deep n). unfold doOnTerminalName_d. cbn [on_result fst]. lia. Qed.
  Lemma loop_deep types n : fst (symbol_terminal_loop_d b str types n) <= depth n + 2.
  Proof.
    induction types as [|t types IH]; [apply Nat.le_0_l|]. cbn [symbol_terminal_loop_d].
    apply dbind_fst; [rewrite dlift_fst; apply trav_deep, terminal_deep|].
    intros [r [[[]| | | | |]|]]; try apply Nat.le_0_l. exact IH.
  Qed.
  Lemma symbol_deep n : fst (parseSymbol_d b str n) <= depth n + 2.
  Proof.
    unfold parseSymbol_d. apply dbind_fst; [apply loop_deep|]. intros [r|]; [apply Nat.le_0_l|].
    one_trav. etransitivity; [apply flat_deep|lia].
  Qed.
  Lemma sequence_deep n : fst (parseSequence_d b str n) <= depth n + 3.
  Proof.
    unfold parseSequence_d. one_trav. apply trav_deep. intros s m. cbn [on_result fst]. pose proof (symbol_deep m). lia.
  Qed.
  Lemma substitution_deep n : fst (parseSubstitution_d b str n) <= depth n + 4.
  Proof.
    unfold parseSubstitution_d. one_trav. apply trav_deep. intros s m. cbn [on_result fst]. pose proof (sequence_deep m). lia.
  Qed.
  Lemma rule_deep n : fst (parseRule_d b str n) <= depth n + 5.
  Proof.
    unfold parseRule_d. apply dbind_fst; [rewrite dlift_fst; etransitivity; [apply flat_deep|lia]|].
    intros [r [[[]| | | | |]|]]; try apply Nat.le_0_l.
    one_trav. apply trav_deep. intros s m. cbn [on_result fst]. pose proof (substitution_deep m). lia.
  Qed.
  Lemma sorted_deep n : fst (ToAST_sorted_d b str n) <= depth n + 6.
  Proof.
    unfold ToAST_sorted_d. one_trav. apply trav_deep. intros s m. cbn [on_result fst]. pose proof (rule_deep m). lia.
  Qed.
End Convert.

Theorem deep_result b root str : snd (ToAST_deep b root str) = ToAST b root str.
Proof. apply sorted_erase. Qed.
Theorem deep_bound b root str : fst (ToAST_deep b root str) <= depth root + 6.
Proof. exact (sorted_deep (sort_bindings b) str root). Qed.
