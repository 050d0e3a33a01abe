(** * Props_Lookup: property C69, a parser looks at its maps only by lookups of
    what parsing can get to. *)
From Verif Require Import Base ByteSet Ast Cst Parser TableGen Spec_Parse Spec_Tree Spec_Grammar Spec_Table Spec_Lookup
  GrammarProofs ParserProofs ParseApi ParseApi2 TGFirsts TGMain TGCells TGClosed TGParse Props_Parser Props_TableGen.

Section Agree.
  Variable t1 t2 : table.
  Hypothesis Ag : forall n, (0 <= n)%Z -> reached t1 n -> same_row (table_get n t1) (table_get n t2).
  Variable src : bytes.
  Variable m1 m2 : names_map.
  Hypothesis Nm : same_names m1 m2.

  Definition sound_op (op : ParserOp) : Prop :=
    match op with OpNonTerminal n => reached t1 n | _ => True end.

  Lemma typeName_same n : nodeTypeName m1 n = nodeTypeName m2 n.
  Proof. unfold nodeTypeName. rewrite (proj2 Nm). reflexivity. Qed.

  Definition same_step (x y : stepres) : Prop :=
    match x, y with
    | SNext s1, SNext s2 => s1 = s2 /\ Forall sound_op (ps_ops s1)
    | SReturn r1 n1, SReturn r2 n2 => same_return r1 r2 /\ same_names n1 n2
    | SPanic p1, SPanic p2 => p1 = p2
    | _, _ => False
    end.

  Lemma err_same e : same_return (ret_err e) (ret_err e).
  Proof. repeat split. Qed.

  Lemma step_same st : Forall sound_op (ps_ops st) -> same_step (step t1 src m1 st) (step t2 src m2 st).
  Proof.
    intros F. unfold step. destruct (ps_ops st) as [|op ops] eqn:Eo; [reflexivity|].
    inversion F as [|? ? Ho Fo]; subst. destruct op as [n|v|n p a| |c| |].
    - unfold processNonTerminal. destruct (n <? 0)%Z eqn:En.
      + unfold processBuiltinNonTerminal. destruct (n =? -2)%Z.
        * destruct (Ascii.eqb (peek src (ps_off st)) LF); [split; [reflexivity|repeat constructor; exact Fo]|].
          destruct (Ascii.eqb (peek src (ps_off st)) CR); [split; [reflexivity|repeat constructor; exact Fo]|].
          split; [apply err_same|exact Nm].
        * split; [apply err_same|exact Nm].
      + apply Z.ltb_ge in En. unfold processTableNonTerminal. rewrite typeName_same.
        pose proof (Ag n En Ho) as A. destruct (table_get n t1) as [r1|] eqn:E1, (table_get n t2) as [r2|];
          cbn [same_row] in A; try contradiction.
        * rewrite <- A. destruct (row_get (peek src (ps_off st)) r1) as [l|] eqn:El.
          -- split; [reflexivity|]. cbn [ps_ops]. rewrite push_all_app. apply Forall_app. split.
             ++ apply Forall_forall. intros x Hx. destruct x as [m|v|? ? ?| |c| |]; try exact I.
                eapply rc_cell; eassumption.
             ++ constructor; [exact I|exact Fo].
          -- split; [apply err_same|exact Nm].
        * split; [apply err_same|exact Nm].
    - split; [reflexivity|]. cbn [ps_ops]. rewrite push_all_app. apply Forall_app. split.
      + apply Forall_forall. intros x Hx. apply in_map_iff in Hx. destruct Hx as (c & <- & _). exact I.
      + constructor; [exact I|exact Fo].
    - unfold processFunction. destruct (Nat.eqb a 0); [split; [reflexivity|exact Fo]|].
      destruct (pop_childs (n =? builtinTerminal)%Z a (ps_prods st) []) as [[ch pr]|[]|q|]; try reflexivity.
      split; [reflexivity|exact Fo].
    - unfold processEOS. destruct (negb (Ascii.eqb (peek src (ps_off st)) NUL)); [split; [apply err_same|exact Nm]|].
      destruct (ps_prods st) as [|x prods]; [split; [apply err_same|exact Nm]|].
      pose proof Nm as (Nn & Ng). destruct m1 as [a|] eqn:Ea, m2 as [b|] eqn:Eb.
      + set (k1 := map_set Z.eqb builtinNothing (s2b "_nothing") (map_set Z.eqb builtinTerminal (s2b "_literal") a)).
        set (k2 := map_set Z.eqb builtinNothing (s2b "_nothing") (map_set Z.eqb builtinTerminal (s2b "_literal") b)).
        assert (K : same_names (Some k1) (Some k2)).
        { split; [split; discriminate|]. intros n. cbn [names_get] in *. unfold k1, k2.
          rewrite !(map_get_set Z.eqb Z.eqb_eq). rewrite Ng. reflexivity. }
        split; [|exact K]. split; [reflexivity|]. split; [reflexivity|exact K].
      + destruct Nn as (_ & X). discriminate (X eq_refl).
      + destruct Nn as (X & _). discriminate (X eq_refl).
      + reflexivity.
    - unfold processChar. destruct (negb (Ascii.eqb c (peek src (ps_off st)))).
      + split; [apply err_same|exact Nm].
      + split; [reflexivity|exact Fo].
    - reflexivity.
    - reflexivity.
  Qed.

  Lemma run_same fuel : forall st, Forall sound_op (ps_ops st) ->
    match fst (run t1 src m1 fuel st), fst (run t2 src m2 fuel st) with
    | Ok r1, Ok r2 => same_return r1 r2
    | Panic p1, Panic p2 => p1 = p2
    | NoFuel, NoFuel => True
    | _, _ => False
    end /\ same_names (snd (run t1 src m1 fuel st)) (snd (run t2 src m2 fuel st)).
  Proof.
    induction fuel as [|fuel IH]; intros st F; cbn [run]; [split; [exact I|exact Nm]|].
    pose proof (step_same st F) as S.
    destruct (step t1 src m1 st) as [s1|r1 n1|p1], (step t2 src m2 st) as [s2|r2 n2|p2]; cbn [same_step] in S; try contradiction.
    - destruct S as (<- & F1). apply IH, F1.
    - exact S.
    - subst p2. split; [reflexivity|exact Nm].
  Qed.
End Agree.

(** Rows that cannot be reached, the order in which the maps list their
    entries and entries hidden by others make no difference. *)
Theorem C69_lookups :
  forall t1 t2 m1 m2 fuel src,
    table_get 0 t1 <> None ->
    (forall n, (0 <= n)%Z -> reached t1 n -> same_row (table_get n t1) (table_get n t2)) ->
    same_names m1 m2 ->
    same_outcome (Parse fuel (NewLL1Parser t1 m1) src) (Parse fuel (NewLL1Parser t2 m2) src).
Proof.
  intros t1 t2 m1 m2 fuel src H0 Ag Nm. unfold Parse, NewLL1Parser. cbn [p_table p_names].
  pose proof (Ag 0%Z ltac:(lia) (rc_start t1)) as A0.
  destruct (table_get 0 t1) as [r1|] eqn:E1; [|congruence].
  destruct (table_get 0 t2) as [r2|] eqn:E2; [|contradiction].
  destruct t1 as [|x1 t1']; [discriminate|]. destruct t2 as [|x2 t2']; [discriminate|].
  destruct (readSource src) as [[text|e|q|] src'].
  - pose proof (run_same _ _ Ag text m1 m2 Nm fuel init_state) as R.
    assert (F : Forall (sound_op (x1 :: t1')) (ps_ops init_state)).
    { constructor; [apply rc_start|]. constructor; [exact I|constructor]. }
    destruct (R F) as (R1 & R2).
    destruct (run (x1 :: t1') text m1 fuel init_state) as [a1 n1].
    destruct (run (x2 :: t2') text m2 fuel init_state) as [a2 n2]. cbn [fst snd] in *.
    split; [exact R1|]. split; [exact R2|reflexivity].
  - split; [apply err_same|]. split; [exact Nm|reflexivity].
  - split; [reflexivity|]. split; [exact Nm|reflexivity].
  - split; [exact I|]. split; [exact Nm|reflexivity].
Qed.
Print Assumptions C69_lookups.

(** S ::= "a" S | <nothing>, written in two orders, one with an unreachable row
    and a second, hidden entry for the same byte. *)
Definition listed1 : table :=
  [(0%Z, [("a"%char, [OpTerminal (s2b "a"); OpNonTerminal 0]); (NUL, [])])].
Definition listed2 : table :=
  [(7%Z, [("b"%char, [OpNonTerminal 3])]);
   (0%Z, [(NUL, []); ("a"%char, [OpTerminal (s2b "a"); OpNonTerminal 0]); ("a"%char, [OpNil])])].
Example C69_case :
  table_get 0 listed1 <> None /\
  (forall n, (0 <= n)%Z -> reached listed1 n -> same_row (table_get n listed1) (table_get n listed2)) /\
  same_names (Some [(0%Z, s2b "S")]) (Some [(0%Z, s2b "S"); (0%Z, s2b "T")]) /\
  listed1 <> listed2 /\
  (exists t, parses_to 100 listed2 (Some [(0%Z, s2b "S")]) (SrcString (s2b "aa")) t) /\
  fails_with 100 listed2 (Some [(0%Z, s2b "S"); (0%Z, s2b "T")]) (SrcString (s2b "ab"))
    (ENoRulesForByte "b"%char (s2b "S")).
Proof.
  split; [discriminate|]. split.
  - intros n Hn R. assert (n = 0%Z) as ->.
    { clear Hn. induction R as [|n rw b ops m _ IH Hn Ht Hr Hin]; [reflexivity|]. subst n.
      cbn in Ht. injection Ht as <-. unfold row_get in Hr. cbn [map_get] in Hr.
      destruct (Ascii.eqb b "a"); [|destruct (Ascii.eqb b NUL)]; try discriminate; injection Hr as <-; cbn in Hin.
      - destruct Hin as [Hin|[Hin|[]]]; [discriminate|]. injection Hin as <-. reflexivity.
      - destruct Hin. }
    cbn. intros c. unfold row_get. cbn [map_get].
    destruct (Ascii.eqb c NUL) eqn:E1, (Ascii.eqb c "a") eqn:E2; try reflexivity.
    apply Ascii.eqb_eq in E1. subst c. discriminate.
  - split.
    + split; [split; discriminate|]. intros n. cbn [names_get map_get]. destruct (n =? 0)%Z; reflexivity.
    + split; [discriminate|]. split; [eexists; eexists; vm_compute; reflexivity|vm_compute; reflexivity].
Qed.
