(** * Renumber: ToAST on trees and bindings with other type numbers. *)
From Verif Require Import Base Cst Ast Parser FromCst Spec_Grammar Spec_Reorder Spec_Renumber WalkProofs ConvertProofs Props_Convert.

Lemma same_role_eqb R x x' a a' : same_role R x x' -> R a a' -> (a =? x)%Z = (a' =? x')%Z.
Proof.
  intros H Ha. specialize (H a a' Ha). destruct (Z.eqb_spec a x), (Z.eqb_spec a' x'); tauto.
Qed.

Section Renumber.
  Variable R : Z -> Z -> Prop.

  Lemma alike_type n n' : alike R n n' -> R (n_type n) (n_type n').
  Proof. intros []. assumption. Qed.
  Lemma alike_pos n n' : alike R n n' -> n_pos n = n_pos n' /\ n_end n = n_end n'.
  Proof. intros []. auto. Qed.

  Definition same_cb {S} (f f' : callback S) : Prop := forall s n n', alike R n n' -> f' s n' = f s n.

  Lemma walk_alike {S} ign ign' sea sea' (f f' : callback S) :
    same_cb f f' -> (forall a a', R a a' -> ign a = ign' a') -> (forall a a', R a a' -> sea a = sea' a') ->
    forall n n' st, alike R n n' -> walk (flexVisit ign' sea' f') tt st n' = walk (flexVisit ign sea f) tt st n.
  Proof.
    intros F Hi Hs. induction n as [t p q l IH] using node_ind'. intros n' (s, err) H.
    pose proof H as H0. inversion H as [ty ty' ? ? ? l' HR Hl]. subst. rewrite !walk_eq. unfold flexVisit at 1 3.
    destruct err as [e|]; [reflexivity|]. cbn [n_type n_childs]. rewrite <- (Hi _ _ HR), <- (Hs _ _ HR).
    destruct (ign t); [reflexivity|]. destruct (sea t).
    - rewrite (F s _ _ H0). destruct (f s (Node t p q l)) as [[]|[]| |]; reflexivity.
    - clear H H0. generalize (s, @None fcerror). revert l' Hl.
      induction IH as [|c l Hc _ IHl]; intros l' Hl st; inversion Hl as [|? c' ? k' Hcc Hk]; subst; [reflexivity|].
      cbn [walk_each]. rewrite (Hc _ st Hcc). destruct (walk (flexVisit ign sea f) tt st c); try reflexivity. apply IHl, Hk.
  Qed.

  Variables b b' : bindings.
  Variable str : bytes.
  Hypothesis B : same_bindings R b b'.
  Hypothesis H16 : same_role R 16 16.
  Hypothesis Hterm : same_role R builtinTerminal builtinTerminal.

  Notation sb := (sort_bindings b).
  Notation sb' := (sort_bindings b').

  Lemma ignored_alike a a' : R a a' -> isNodeIgnored (IgnoreNodeTypes sb) a = isNodeIgnored (IgnoreNodeTypes sb') a'.
  Proof.
    intros H. pose proof (sb_ignored _ _ _ B a a' H) as I. cbn [sort_bindings IgnoreNodeTypes].
    pose proof (C41_ignored_iff_listed (IgnoreNodeTypes b) a) as X. pose proof (C41_ignored_iff_listed (IgnoreNodeTypes b') a') as Y.
    destruct (isNodeIgnored (sort_ints (IgnoreNodeTypes b)) a), (isNodeIgnored (sort_ints (IgnoreNodeTypes b')) a'); intuition congruence.
  Qed.
  Lemma trav_alike {S} (f f' : callback S) x x' n n' s : same_cb f f' -> same_role R x x' -> alike R n n' ->
    b_lrTraverse sb' n' x' f' s = b_lrTraverse sb n x f s.
  Proof.
    intros F Hx H. apply walk_alike; try assumption; [apply ignored_alike|]. intros a a' Ha. apply (same_role_eqb R); assumption.
  Qed.
  Lemma name_alike n n' : alike R n n' -> nodeName n' str = nodeName n str.
  Proof. intros H. unfold nodeName. destruct (alike_pos _ _ H) as (-> & ->). reflexivity. Qed.

  Lemma escChar_alike : same_cb (doOnEscapedChar sb str) (doOnEscapedChar sb' str).
  Proof.
    intros s n n' H. unfold doOnEscapedChar. destruct (alike_pos _ _ H) as (-> & ->). cbn [sort_bindings EscapeMapping].
    rewrite (sb_mapping _ _ _ B). reflexivity.
  Qed.
  Lemma escape_alike n n' : alike R n n' -> parseEscape sb' str n' = parseEscape sb str n.
  Proof.
    intros H. unfold parseEscape. rewrite (trav_alike _ _ (EscapeCharacterType sb) _ n n' _ escChar_alike (sb_escape _ _ _ B) H). reflexivity.
  Qed.
  Lemma part_alike : same_cb (fOnTerminalPart sb str) (fOnTerminalPart sb' str).
  Proof.
    intros s n n' H. unfold fOnTerminalPart. rewrite <- (same_role_eqb R _ _ _ _ Hterm (alike_type _ _ H)).
    destruct (alike_pos _ _ H) as (-> & ->). destruct (n_type n =? builtinTerminal)%Z; [reflexivity|].
    rewrite (escape_alike _ _ H). reflexivity.
  Qed.
  Lemma terminalName_alike n n' : alike R n n' -> parseTerminalName sb' str n' = parseTerminalName sb str n.
  Proof.
    intros H. unfold parseTerminalName, lrTraverse. erewrite walk_alike; [reflexivity|exact part_alike|reflexivity| |exact H].
    intros a a' Ha. cbv beta. rewrite (same_role_eqb R _ _ _ _ H16 Ha), (same_role_eqb R _ _ _ _ Hterm Ha). reflexivity.
  Qed.
  Lemma onTerminal_alike : same_cb (doOnTerminalName sb str) (doOnTerminalName sb' str).
  Proof. intros s n n' H. unfold doOnTerminalName. rewrite (terminalName_alike _ _ H). reflexivity. Qed.
  Lemma loop_alike types types' n n' : Forall2 (same_role R) types types' -> alike R n n' ->
    symbol_terminal_loop sb' str types' n' = symbol_terminal_loop sb str types n.
  Proof.
    intros F H. induction F as [|x x' l l' Hx _ IH]; [reflexivity|]. cbn [symbol_terminal_loop].
    rewrite (trav_alike _ _ _ _ _ _ _ onTerminal_alike Hx H), IH. reflexivity.
  Qed.
  Lemma nonTerminal_alike : same_cb (doOnNonTerminalName str) (doOnNonTerminalName str).
  Proof. intros s n n' H. unfold doOnNonTerminalName. rewrite (name_alike _ _ H). reflexivity. Qed.
  Lemma symbol_alike n n' : alike R n n' -> parseSymbol sb' str n' = parseSymbol sb str n.
  Proof.
    intros H. unfold parseSymbol, symbol_type_error. rewrite (name_alike _ _ H).
    rewrite (loop_alike (SymbolTerminalTypes sb) (SymbolTerminalTypes sb') n n' (sb_terminal _ _ _ B) H).
    rewrite (trav_alike _ _ (SymbolNonTerminalType sb) _ n n' _ nonTerminal_alike (sb_nonterminal _ _ _ B) H). reflexivity.
  Qed.
  Lemma onSymbol_alike : same_cb (doOnSymbol sb str) (doOnSymbol sb' str).
  Proof. intros s n n' H. unfold doOnSymbol. rewrite (symbol_alike _ _ H). reflexivity. Qed.
  Lemma sequence_alike n n' : alike R n n' -> parseSequence sb' str n' = parseSequence sb str n.
  Proof.
    intros H. unfold parseSequence. rewrite (trav_alike _ _ (SequencesSymbolType sb) _ n n' _ onSymbol_alike (sb_symbol _ _ _ B) H). reflexivity.
  Qed.
  Lemma onSequence_alike : same_cb (doOnSequence sb str) (doOnSequence sb' str).
  Proof. intros s n n' H. unfold doOnSequence. rewrite (sequence_alike _ _ H). reflexivity. Qed.
  Lemma substitution_alike n n' : alike R n n' -> parseSubstitution sb' str n' = parseSubstitution sb str n.
  Proof.
    intros H. unfold parseSubstitution. rewrite (trav_alike _ _ (ExpressionSequencesType sb) _ n n' _ onSequence_alike (sb_sequences _ _ _ B) H). reflexivity.
  Qed.
  Lemma onSubstitution_alike : same_cb (doOnSubstitution sb str) (doOnSubstitution sb' str).
  Proof. intros s n n' H. unfold doOnSubstitution. rewrite (substitution_alike _ _ H). reflexivity. Qed.
  Lemma onHead_alike : same_cb (doOnHead str) (doOnHead str).
  Proof. intros s n n' H. unfold doOnHead. rewrite (name_alike _ _ H). reflexivity. Qed.
  Lemma rule_alike n n' : alike R n n' -> parseRule sb' str n' = parseRule sb str n.
  Proof.
    intros H. unfold parseRule. rewrite (name_alike _ _ H).
    rewrite (trav_alike _ _ (RuleHeadType sb) _ n n' _ onHead_alike (sb_head _ _ _ B) H).
    rewrite (trav_alike _ _ (RuleTailType sb) _ n n' _ onSubstitution_alike (sb_tail _ _ _ B) H). reflexivity.
  Qed.
  Lemma onRule_alike : same_cb (doOnRule sb str) (doOnRule sb' str).
  Proof. intros s n n' H. unfold doOnRule. rewrite (rule_alike _ _ H). reflexivity. Qed.
  Lemma ToAST_alike n n' : alike R n n' -> ToAST b' n' str = ToAST b n str.
  Proof.
    intros H. unfold ToAST, ToAST_sorted.
    rewrite (trav_alike _ _ (RuleType sb) _ n n' _ onRule_alike (sb_rule _ _ _ B) H). reflexivity.
  Qed.
End Renumber.

Lemma same_tree_alike f names names' : (forall t t', same_tree f names names' t t' -> alike (same_type f names names') t t').
Proof.
  induction t as [ty p q l IH] using node_ind'. intros t' H. inversion H as [? ty' ? ? ? l' HR Hl]. subst.
  constructor; [exact HR|]. clear H HR. revert l' Hl.
  induction IH as [|c l Hc _ IHl]; intros l' Hl; inversion Hl; subst; constructor; auto.
Qed.

Lemma Forall2_find {A B} (P : A -> B -> Prop) l l' : Forall2 P l l' -> forall a, In a l -> exists b, In b l' /\ P a b.
Proof. induction 1 as [|x y l l' H _ IH]; intros a []; [subst; exists y; split; [left; reflexivity|exact H]|]. destruct (IH a) as (b & I & Hb); [assumption|]. exists b. split; [right; exact I|exact Hb]. Qed.
Lemma Forall2_find_back {A B} (P : A -> B -> Prop) l l' : Forall2 P l l' -> forall b, In b l' -> exists a, In a l /\ P a b.
Proof. induction 1 as [|x y l l' H _ IH]; intros b []; [subst; exists x; split; [left; reflexivity|exact H]|]. destruct (IH b) as (a & I & Ha); [assumption|]. exists a. split; [right; exact I|exact Ha]. Qed.

Section Moved.
  Variables (f h : bytes -> bytes) (g g' : grammar) (names names' : list (Z * bytes)).
  Hypothesis FH : renaming f h.
  Hypothesis D : NoDup (heads g).
  Hypothesis D' : NoDup (heads g').
  Hypothesis N : forall i, map_get Z.eqb (Z.of_nat i) names = nth_error (heads g) i.
  Hypothesis N' : forall i, map_get Z.eqb (Z.of_nat i) names' = nth_error (heads g') i.

  Lemma names_inj (hs : list bytes) nm x y n : NoDup hs -> (forall i, map_get Z.eqb (Z.of_nat i) nm = nth_error hs i) ->
    (0 <= x)%Z -> (0 <= y)%Z -> map_get Z.eqb x nm = Some n -> map_get Z.eqb y nm = Some n -> x = y.
  Proof.
    intros Nd Nm Hx Hy Ex Ey. rewrite <- (Z2Nat.id x Hx) in *. rewrite <- (Z2Nat.id y Hy) in *. rewrite Nm in Ex, Ey.
    f_equal. apply (proj1 (NoDup_nth_error hs) Nd); [|congruence]. apply nth_error_Some. congruence.
  Qed.

  Lemma moved_role x x' : same_type f names names' x x' -> same_role (same_type f names names') x x'.
  Proof.
    intros Hx a a' Ha. destruct Hx as [[Lx <-]|(n & X & X' & En & En')], Ha as [[La <-]|(m & A & A' & Em & Em')].
    - tauto.
    - lia.
    - lia.
    - split; intros ->.
      + rewrite En in Em. injection Em as <-. exact (names_inj _ _ _ _ _ D' N' A' X' Em' En').
      + rewrite En' in Em'. injection Em' as Em'. assert (n = m) as <- by (rewrite <- (proj1 FH n), <- (proj1 FH m); congruence).
        exact (names_inj _ _ _ _ _ D N A X Em En).
  Qed.

  Lemma moved_same b b' : bindings_moved f names names' b b' -> same_bindings (same_type f names names') b b'.
  Proof.
    intros [H1 H2 H3 H4 H5 H6 H7 H8 H9 H10]. constructor; try (apply moved_role; assumption); [| |exact H10].
    - intros a a' Ha. split; intros I.
      + destruct (Forall2_find _ _ _ H1 _ I) as (y & Iy & Hy). rewrite (proj1 (moved_role _ _ Hy _ _ Ha) eq_refl). exact Iy.
      + destruct (Forall2_find_back _ _ _ H1 _ I) as (y & Iy & Hy). rewrite (proj2 (moved_role _ _ Hy _ _ Ha) eq_refl). exact Iy.
    - clear - H7 FH D D' N N'. induction H7; constructor; [apply moved_role; assumption|assumption].
  Qed.

  Lemma moved_16 : (forall n, map_get Z.eqb 16%Z names = Some n <-> map_get Z.eqb 16%Z names' = Some (f n)) ->
    same_role (same_type f names names') 16 16.
  Proof.
    intros H. destruct (map_get Z.eqb 16%Z names) as [n|] eqn:E.
    - apply moved_role. right. exists n. repeat split; try lia; [exact E|]. apply H. reflexivity.
    - intros a a' [[L <-]|(n & A & A' & Em & Em')]; [tauto|]. split; intros ->; [congruence|]. apply H in Em'. discriminate.
  Qed.
End Moved.

Lemma type_back f h names names' : renaming f h -> forall x x', same_type f names names' x x' -> same_type h names' names x' x.
Proof.
  intros FH x x' [[L E]|(n & A & B & C & E)]; [left; split; [lia|congruence]|]. right. exists (f n). rewrite (proj1 FH). auto.
Qed.
Lemma moved_back f h names names' : renaming f h -> forall b b', bindings_moved f names names' b b' -> bindings_moved h names' names b' b.
Proof.
  intros FH b b' [H1 H2 H3 H4 H5 H6 H7 H8 H9 H10].
  assert (FB : forall l l', Forall2 (same_type f names names') l l' -> Forall2 (same_type h names' names) l' l).
  { induction 1; constructor; [apply (type_back f h _ _ FH); assumption|assumption]. }
  constructor; try (apply (type_back f h _ _ FH); assumption); [apply FB, H1|apply FB, H7|congruence].
Qed.
