(** * Props_Size: property C70, the size of trees. *)
From Verif Require Import Base ByteSet Ast Cst Parser TableGen Spec_Parse Spec_Tree Spec_Grammar Spec_Table Spec_Time
  Spec_Size GrammarProofs ParserProofs TreeProofs ParseApi ParseApi2 TGFirsts TGMain TGCells TGClosed TGParse
  Props_Parser Props_TableGen Props_Trees.

Definition total (l : list node) : nat := list_sum (map nodes l).
Lemma total_app a b : total (a ++ b) = total a + total b.
Proof. unfold total. rewrite map_app, list_sum_app. reflexivity. Qed.
Lemma total_cons n l : total (n :: l) = nodes n + total l.
Proof. reflexivity. Qed.
Lemma nodes_node ty p q l : nodes (Node ty p q l) = 1 + total l.
Proof. reflexivity. Qed.
Lemma pop_childs_total d amount : forall prods childs ch pr,
  pop_childs d amount prods childs = Ok (ch, pr) -> total ch + total pr <= total childs + total prods.
Proof.
  induction amount as [|a IH]; intros prods childs ch pr H; cbn [pop_childs] in H.
  - injection H as <- <-. lia.
  - destruct prods as [|n prods]; [discriminate|]. destruct d; cbn [negb] in H.
    + destruct (n_type n =? builtinTerminal)%Z; cbn [negb] in H; [|discriminate].
      apply IH in H. rewrite total_cons. lia.
    + apply IH in H. rewrite total_cons in *. lia.
Qed.
Lemma step_total tbl src m st st' : step tbl src m st = SNext st' -> total (ps_prods st') <= total (ps_prods st) + 2.
Proof.
  unfold step. destruct (ps_ops st) as [|op ops]; [discriminate|]. destruct op as [n|v|n p a| |c| |].
  - unfold processNonTerminal. destruct (n <? 0)%Z.
    + unfold processBuiltinNonTerminal. destruct (n =? -2)%Z; [|discriminate].
      destruct (Ascii.eqb (peek src (ps_off st)) LF); [intros H; injection H as <-; cbn [ps_prods]; lia|].
      destruct (Ascii.eqb (peek src (ps_off st)) CR); [intros H; injection H as <-; cbn [ps_prods]; lia|discriminate].
    + unfold processTableNonTerminal. destruct (table_get n tbl) as [r|]; [|discriminate].
      destruct (row_get (peek src (ps_off st)) r); [|discriminate]. intros H; injection H as <-; cbn [ps_prods]; lia.
  - intros H; injection H as <-; cbn [ps_prods]; lia.
  - unfold processFunction. destruct (Nat.eqb a 0); [intros H; injection H as <-; cbn [ps_prods]; rewrite total_cons, nodes_node, total_cons, nodes_node; change (total []) with 0; lia|].
    destruct (pop_childs (n =? builtinTerminal)%Z a (ps_prods st) []) as [[ch pr]|[]|q|] eqn:E; try discriminate.
    apply pop_childs_total in E. intros H; injection H as <-. cbn [ps_prods]. rewrite total_cons, nodes_node. change (total []) with 0 in E. lia.
  - unfold processEOS. destruct (negb (Ascii.eqb (peek src (ps_off st)) NUL)); [discriminate|].
    destruct (ps_prods st); [discriminate|]. destruct m; discriminate.
  - unfold processChar. destruct (negb (Ascii.eqb c (peek src (ps_off st)))); [discriminate|].
    intros H; injection H as <-. cbn [ps_prods]. rewrite total_cons, nodes_node. change (total []) with 0. lia.
  - discriminate.
  - discriminate.
Qed.
Lemma step_tree tbl src m st r m' t : step tbl src m st = SReturn r m' -> r_tree r = Some t -> nodes t <= total (ps_prods st).
Proof.
  unfold step. destruct (ps_ops st) as [|op ops]; [discriminate|]. destruct op as [n|v|n p a| |c| |]; try discriminate.
  - unfold processNonTerminal. destruct (n <? 0)%Z.
    + unfold processBuiltinNonTerminal. destruct (n =? -2)%Z.
      * destruct (Ascii.eqb (peek src (ps_off st)) LF); [discriminate|].
        destruct (Ascii.eqb (peek src (ps_off st)) CR); [discriminate|]. intros H; injection H as <- <-; discriminate.
      * intros H; injection H as <- <-; discriminate.
    + unfold processTableNonTerminal. destruct (table_get n tbl) as [rw|]; [|intros H; injection H as <- <-; discriminate].
      destruct (row_get (peek src (ps_off st)) rw); [discriminate|]. intros H; injection H as <- <-; discriminate.
  - unfold processFunction. destruct (Nat.eqb a 0); [discriminate|].
    destruct (pop_childs (n =? builtinTerminal)%Z a (ps_prods st) []) as [[ch pr]|[]|q|]; discriminate.
  - unfold processEOS. destruct (negb (Ascii.eqb (peek src (ps_off st)) NUL)); [intros H; injection H as <- <-; discriminate|].
    destruct (ps_prods st) as [|x prods]; [intros H; injection H as <- <-; discriminate|].
    destruct m as [mm|]; [|discriminate]. intros H Ht. injection H as <- <-. cbn in Ht. injection Ht as <-. rewrite total_cons. lia.
  - unfold processChar. destruct (negb (Ascii.eqb c (peek src (ps_off st)))); [|discriminate].
    intros H; injection H as <- <-; discriminate.
Qed.
Lemma run_total tbl src m fuel : forall st r t, fst (run tbl src m fuel st) = Ok r -> r_tree r = Some t ->
  nodes t + 2 <= 2 * fuel + total (ps_prods st).
Proof.
  induction fuel as [|fuel IH]; intros st r t H Ht; cbn [run] in H; [discriminate|].
  destruct (step tbl src m st) as [st'|r' m'|p] eqn:E; try discriminate.
  - apply step_total in E. specialize (IH _ _ _ H Ht). lia.
  - cbn in H. injection H as <-. pose proof (step_tree _ _ _ _ _ _ _ E Ht). lia.
Qed.

Lemma depth_nodes : forall t, depth t <= nodes t.
Proof.
  fix IH 1. intros [ty p q childs]. cbn [depth nodes]. apply le_n_S.
  induction childs as [|c l IHl]; [reflexivity|]. cbn. pose proof (IH c). unfold list_sum, list_max in *. cbn in *. lia.
Qed.

(** For any table: a tree returned within [k] iterations of the loop has at
    most 2 (k - 1) nodes. *)
Theorem C70_nodes :
  forall k tbl m src t, parses_to k tbl m src t -> nodes t + 2 <= 2 * k.
Proof.
  intros k tbl m src t (nm & H). unfold result, Parse, NewLL1Parser in H. cbn [p_table p_names] in H.
  destruct tbl as [|x tbl]; [discriminate|]. destruct (table_get 0 (x :: tbl)); [|discriminate].
  destruct (readSource src) as [[text|e|q|] src']; try discriminate.
  pose proof (run_total (x :: tbl) text m k init_state) as R.
  destruct (run (x :: tbl) text m k init_state) as [a m']. cbn in H. subst a.
  specialize (R _ t eq_refl eq_refl). cbn in R. lia.
Qed.
Print Assumptions C70_nodes.

(** For LL(1) grammars the tree, and with it the depth of recursion over it, is
    linear in the length of the text. *)
Theorem C70_linear :
  forall order fuel0 fuel g tbl names m src text t,
    wf_grammar g -> LL1 g -> FromGrammar_order order fuel0 g = Ok (tbl, names) ->
    delivers src text -> parses_to fuel tbl (Some m) src t ->
    depth t <= nodes t /\ nodes t <= 4 + 2 * (length g * largest_alternative g * length text).
Proof.
  intros order fuel0 fuel g tbl names m src text t W L E Hd (nm & Hp). split; [apply depth_nodes|].
  pose proof (C54_linear order fuel0 g tbl names (Some m) src text W L E Hd) as Nf.
  set (k := 3 + length g * largest_alternative g * length text) in *.
  assert (X : parses_to k tbl (Some m) src t).
  { exists nm. destruct (Nat.le_ge_cases fuel k) as [Le|Le].
    - unfold result in *. rewrite (result_mono fuel k); [exact Hp|unfold result; rewrite Hp; discriminate|exact Le].
    - pose proof (result_mono k fuel tbl (Some m) src Nf Le) as Y. unfold result in *. rewrite <- Y. exact Hp. }
  apply C70_nodes in X. unfold k in X. lia.
Qed.
Print Assumptions C70_linear.

Example C70_case :
  wf_grammar demo /\ LL1 demo /\ FromGrammar (256 * length demo + 1) demo = Ok (gen_of demo) /\
  exists t, parses_to 100 (fst (gen_of demo)) (Some (snd (gen_of demo))) (SrcString (s2b "abab")) t /\ nodes t = 10.
Proof.
  split; [exact demo_wf|]. split; [exact demo_LL1|]. split; [vm_compute; reflexivity|].
  eexists. split; [eexists; vm_compute; reflexivity|vm_compute; reflexivity].
Qed.
