(** * Props_Cells: C90 adding cells to a table. *)
From Verif Require Import Base Cst Parser Spec_Parse Spec_Tree Spec_Cells ParserProofs TreeProofs ParseApi ParseApi2
  TGLeftRec Props_Parser.

Section More.
  Variable t1 t2 : table.
  Hypothesis M : more_cells t1 t2.
  Variable text : bytes.
  Variable names : names_map.

  Lemma step_more st :
    step t2 text names st = step t1 text names st \/
    exists e, missing_cell e /\ step t1 text names st = SReturn (ret_err e) names.
  Proof.
    unfold step. destruct (ps_ops st) as [|op ops]; [left; reflexivity|].
    destruct op as [n|v|n p a| |c| |]; try (left; reflexivity).
    unfold processNonTerminal. destruct (n <? 0)%Z; [left; reflexivity|]. unfold processTableNonTerminal.
    destruct (table_get n t1) as [r1|] eqn:E1.
    - destruct (M n r1 E1) as (r2 & -> & H). destruct (row_get (peek text (ps_off st)) r1) as [l|] eqn:El.
      + left. rewrite (H _ _ El). reflexivity.
      + right. eexists. split; [right; eexists _, _; reflexivity|reflexivity].
    - right. eexists. split; [left; eexists; reflexivity|reflexivity].
  Qed.

  Lemma run_more fuel : forall st,
    run t2 text names fuel st = run t1 text names fuel st \/
    exists e, missing_cell e /\ run t1 text names fuel st = (Ok (ret_err e), names).
  Proof.
    induction fuel as [|fuel IH]; intros st; cbn [run]; [left; reflexivity|].
    destruct (step_more st) as [->|(e & He & ->)]; [|right; exists e; auto].
    destruct (step t1 text names st) as [st'| |]; [apply IH|left; reflexivity|left; reflexivity].
  Qed.

  Lemma rewrites_more a b : rewrites t1 text a b -> rewrites t2 text a b.
  Proof.
    intros H. destruct H as [| n ops k form Hn (r & Hr & Hc)| |]; try (constructor; assumption).
    destruct (M n r Hr) as (r2 & Hr2 & H2). apply rw_row; [exact Hn|]. exists r2. split; [exact Hr2|]. apply H2, Hc.
  Qed.
  Lemma rewrites_star_more a b : rewrites_star t1 text a b -> rewrites_star t2 text a b.
  Proof. induction 1 as [|a b c H _ IH]; [constructor|]. econstructor; [apply rewrites_more, H|exact IH]. Qed.
End More.

Lemma rewrites_forward tbl text a b : rewrites tbl text a b -> fst a <= fst b.
Proof. intros []; cbn; lia. Qed.
Lemma rewrites_star_forward tbl text a b : rewrites_star tbl text a b -> fst a <= fst b.
Proof. induction 1 as [|a b c H _ IH]; [lia|]. apply rewrites_forward in H. lia. Qed.

Lemma before_final tbl text a b c : rewrites_star tbl text a b -> rewrites_star tbl text a c ->
  (forall d, ~ rewrites tbl text c d) -> rewrites_star tbl text b c.
Proof.
  intros H. revert c. induction H as [a|a b d R H IH]; intros c Hc F; [exact Hc|].
  destruct Hc as [a|a b' c R' Hc].
  - exfalso. exact (F _ R).
  - rewrite (rewrites_det _ _ _ _ _ R R') in H, IH. apply IH; assumption.
Qed.

Lemma stuck_final tbl text names k form e : stuck tbl text names k form e -> forall d, ~ rewrites tbl text (k, form) d.
Proof.
  intros S d R. inversion S; subst; inversion R; subst; try congruence; try lia;
    match goal with H : cell _ _ _ _ |- _ => destruct H as (r9 & Hx & Hy) end; congruence.
Qed.

(** A call with the larger table does the same as with the smaller one, step by
    step - same tree, error, panic, naming map, source left, running time -
    unless with the smaller one it fails for want of a cell or row. *)
Theorem C90_added_cells :
  forall t1 t2 names src fuel,
    has_row0 t1 -> more_cells t1 t2 ->
    Parse fuel (NewLL1Parser t2 names) src = Parse fuel (NewLL1Parser t1 names) src \/
    exists e, missing_cell e /\ fails_with fuel t1 names src e.
Proof.
  intros t1 t2 names src fuel H1 M.
  assert (H2 : has_row0 t2) by (destruct H1 as (r & Hr); destruct (M 0%Z r Hr) as (r2 & Hr2 & _); exists r2; exact Hr2).
  destruct (readSource_cases src) as [(text & Hd & _)|(e & He & _)].
  - unfold fails_with, result. rewrite !(Parse_usable _ _ _ _ _ H1 Hd), (Parse_usable _ _ _ _ _ H2 Hd). cbn [po_result].
    destruct (run_more t1 t2 M text names fuel init_state) as [->|(e & He & ->)]; [left; reflexivity|].
    right. exists e. auto.
  - left. destruct H1 as (r1 & Hr1). destruct H2 as (r2 & Hr2). unfold Parse, NewLL1Parser. cbn [p_table p_names].
    destruct t1 as [|x1 t1]; [discriminate Hr1|]. destruct t2 as [|x2 t2]; [discriminate Hr2|].
    unfold table_get. rewrite Hr1, Hr2. destruct (readSource src) as [o s']. cbn [fst] in He. subst o. reflexivity.
Qed.
Print Assumptions C90_added_cells.

(** When the smaller table fails, the larger one gets at least as far: its
    error is about the same byte or a later one, and a tree it returns goes at
    least up to that byte. *)
Theorem C90_gets_as_far :
  forall t1 t2 m src text fuel e,
    table_public t1 -> table_public t2 -> has_row0 t1 -> more_cells t1 t2 -> delivers src text ->
    fails_with fuel t1 (Some m) src e ->
    exists k, refuses t1 text (Some m) k e /\
      (forall fuel' e', fails_with fuel' t2 (Some m) src e' ->
         exists k', k <= k' /\ refuses t2 text (Some m) k' e') /\
      (forall fuel' t, parses_to fuel' t2 (Some m) src t -> (Z.of_nat k <= n_end t)%Z).
Proof.
  intros t1 t2 m src text fuel e P1 P2 H1 M Hd Hf.
  assert (H2 : has_row0 t2) by (destruct H1 as (r & Hr); destruct (M 0%Z r Hr) as (r2 & Hr2 & _); exists r2; exact Hr2).
  destruct (proj1 (C19_error_diagnosis t1 m src text e P1 H1 Hd)) as (k & R); [exists fuel; exact Hf|].
  exists k. split; [exact R|]. destruct R as (form & R & _). apply (rewrites_star_more _ _ M) in R. split.
  - intros fuel' e' Hf'.
    destruct (proj1 (C19_error_diagnosis t2 m src text e' P2 H2 Hd)) as (k' & R'); [exists fuel'; exact Hf'|].
    exists k'. split; [|exact R']. destruct R' as (form' & R' & S).
    exact (rewrites_star_forward _ _ _ _ (before_final _ _ _ _ _ R R' (stuck_final _ _ _ _ _ _ S))).
  - intros fuel' t Hp.
    assert (D : derives_text t2 text t) by (apply (C11_parse_iff_derivation t2 m src text t P2 Hd); exists fuel'; exact Hp).
    destruct D as (q & D & Hq).
    pose proof (proj1 (derives_rws_both t2 text) _ _ _ _ D []) as R'. cbn [items_of items flat_map app] in R'.
    destruct (derives_root _ _ _ _ _ _ D) as (_ & -> & _).
    pose proof (rewrites_star_forward _ _ _ _ (before_final _ _ _ _ _ R R' ltac:(intros d X; inversion X))) as L. cbn [fst] in L. lia.
Qed.
Print Assumptions C90_gets_as_far.

(** A table for one x, and one for any number of them. *)
Definition one_x : table := [(0%Z, [("x"%char, [OpTerminal (s2b "x"); OpNonTerminal 1])]); (1%Z, [(NUL, [])])].
Definition many_x : table :=
  [(0%Z, [("x"%char, [OpTerminal (s2b "x"); OpNonTerminal 1])]);
   (1%Z, [(NUL, []); ("x"%char, [OpTerminal (s2b "x"); OpNonTerminal 1])])].
Example C90_case :
  has_row0 one_x /\ more_cells one_x many_x /\
  (exists t, parses_to 20 one_x (Some []) (SrcString (s2b "x")) t) /\
  fails_with 20 one_x (Some []) (SrcString (s2b "xxy")) (ENoRulesForByte "x"%char (s2b "Unknown_1")) /\
  fails_with 20 many_x (Some []) (SrcString (s2b "xxy")) (ENoRulesForByte "y"%char (s2b "Unknown_1")) /\
  exists t, parses_to 20 many_x (Some []) (SrcString (s2b "xx")) t.
Proof.
  split; [eexists; reflexivity|]. split.
  { intros n r1 H. unfold table_get, one_x in H. cbn [map_get] in H. unfold many_x, table_get. cbn [map_get].
    destruct (n =? 0)%Z; [injection H as <-; eexists; split; [reflexivity|auto]|].
    destruct (n =? 1)%Z; [|discriminate H]. injection H as <-. eexists. split; [reflexivity|].
    intros c ops Hc. unfold row_get in *. cbn [map_get] in *. destruct (Ascii.eqb c NUL); [exact Hc|discriminate Hc]. }
  split; [eexists _, _; vm_compute; reflexivity|]. split; [vm_compute; reflexivity|]. split; [vm_compute; reflexivity|].
  eexists _, _. vm_compute. reflexivity.
Qed.
