(** * Props_Stack: C74, what Parse keeps in memory while it runs. *)
From Verif Require Import Base ByteSet Ast Cst Parser TableGen Spec_Parse Spec_Tree Spec_Grammar Spec_Table Spec_Time
  Spec_Size Spec_Stack GrammarProofs ParserProofs TreeProofs ParseApi ParseApi2 TGFirsts TGMain TGCells TGClosed TGParse
  Props_Parser Props_TableGen Props_Trees Props_Size.

Section Height.
  Variable tbl : table.
  Variable text : bytes.
  Variable names : names_map.
  Variable w : nat.
  Hypothesis W : width_at_most w tbl.
  Hypothesis Pub : table_public tbl.

  Definition short (op : ParserOp) : Prop := match op with OpTerminal t => length t <= max w 1 | _ => True end.

  Lemma step_height st st' : Forall short (ps_ops st) -> step tbl text names st = SNext st' ->
    Forall short (ps_ops st') /\ waiting st' <= waiting st + max w 2.
  Proof.
    unfold step, waiting. destruct (ps_ops st) as [|op ops]; [discriminate|]. intros F. inversion F as [|? ? F1 F2]; subst.
    cbn [length]. destruct op as [n|v|n p a| |c| |].
    - unfold processNonTerminal. destruct (n <? 0)%Z.
      + unfold processBuiltinNonTerminal. destruct (n =? -2)%Z; [|discriminate].
        destruct (Ascii.eqb (peek text (ps_off st)) LF).
        { intros H; injection H as <-. cbn [ps_ops length]. split; [|lia]. constructor; [cbn; lia|]. constructor; [exact I|exact F2]. }
        destruct (Ascii.eqb (peek text (ps_off st)) CR); [|discriminate].
        intros H; injection H as <-. cbn [ps_ops length]. split; [|lia].
        constructor; [cbn; lia|]. constructor; [cbn; lia|]. constructor; [exact I|exact F2].
      + unfold processTableNonTerminal. destruct (table_get n tbl) as [rw|] eqn:Et; [|discriminate].
        destruct (row_get (peek text (ps_off st)) rw) as [o|] eqn:Er; [|discriminate]. intros H; injection H as <-.
        cbn [ps_ops]. rewrite push_all_app, app_length. cbn [length].
        destruct (W _ _ _ _ Et Er) as [L T]. split; [|lia].
        apply Forall_app. split; [|constructor; [exact I|exact F2]].
        rewrite Forall_forall. intros op Hop. destruct op as [|t| | | | |]; cbn; auto.
        specialize (T t Hop). lia.
    - unfold processTerminal. intros H; injection H as <-. cbn [ps_ops]. rewrite push_all_app, app_length, map_length. cbn [length].
      cbn in F1. split; [|lia]. apply Forall_app. split; [|constructor; [exact I|exact F2]].
      rewrite Forall_forall. intros op Hop. apply in_map_iff in Hop. destruct Hop as (c & <- & Hc). exact I.
    - unfold processFunction. destruct (Nat.eqb a 0); [intros H; injection H as <-; cbn [ps_ops]; split; [exact F2|lia]|].
      destruct (pop_childs (n =? builtinTerminal)%Z a (ps_prods st) []) as [[ch pr]|[]|q|]; try discriminate.
      intros H; injection H as <-; cbn [ps_ops]; split; [exact F2|lia].
    - unfold processEOS. destruct (negb (Ascii.eqb (peek text (ps_off st)) NUL)); [discriminate|].
      destruct (ps_prods st); [discriminate|]. destruct names; discriminate.
    - unfold processChar. destruct (Ascii.eqb c (peek text (ps_off st))); cbn; [|discriminate].
      intros H; injection H as <-. cbn [ps_ops]; split; [exact F2|lia].
    - discriminate.
    - discriminate.
  Qed.

  Lemma after_height k st : after tbl text names k st ->
    Forall short (ps_ops st) /\ waiting st <= 2 + k * max w 2 /\ nodes_made st <= 2 * k.
  Proof.
    induction 1 as [|k st st' A (IH1 & IH2 & IH3) E].
    - split; [repeat constructor|]. cbn. lia.
    - destruct (step_height _ _ IH1 E) as (H1 & H2). split; [exact H1|]. split; [cbn [Nat.mul]; lia|].
      pose proof (step_total _ _ _ _ _ E) as T. unfold total in T. unfold nodes_made in *. lia.
  Qed.
End Height.

(** ** C74: while Parse runs, its stacks grow by a constant amount per
    iteration; with an LL(1) grammar they stay linear in the length of the text. *)

(** After k iterations, with a table whose cells have at most w operands and
    whose terminals at most w bytes (w at least 2), at most 2 + k w operands
    wait, and at most 2 k nodes have been made. *)
Theorem C74_stacks : forall w tbl text names k st,
  2 <= w -> width_at_most w tbl -> after tbl text names k st ->
  waiting st <= 2 + k * w /\ nodes_made st <= 2 * k.
Proof.
  intros w tbl text names k st L W A.
  destruct (after_height tbl text names w W k st A) as (_ & H1 & H2). rewrite Nat.max_l in H1 by lia. auto.
Qed.
Print Assumptions C74_stacks.

(** The states of [after] are those Parse goes through: while it has not
    returned within k iterations, there is exactly one after k iterations. *)
Lemma after_run tbl text names : forall k st, after tbl text names k st ->
  forall f, run tbl text names (k + f) init_state = run tbl text names f st.
Proof.
  induction 1 as [|k st st' A IH E]; intros f; [reflexivity|].
  replace (S k + f) with (k + S f) by lia. rewrite IH. cbn [run]. rewrite E. reflexivity.
Qed.
Theorem C74_states : forall k tbl names src text, has_row0 tbl -> delivers src text ->
  (result k tbl names src = NoFuel <-> exists st, after tbl text names k st) /\
  forall st st', after tbl text names k st -> after tbl text names k st' -> st = st'.
Proof.
  intros k tbl names src text R Hd. split.
  - unfold result. rewrite (Parse_usable _ tbl names src text R Hd). cbn [po_result]. split.
    + induction k as [|k IH]; intros H; [eexists; constructor|].
      assert (H' : fst (run tbl text names k init_state) = NoFuel).
      { clear IH. revert H. generalize init_state as st. induction k as [|k IH]; intros st H; [reflexivity|].
        cbn [run]. change (run tbl text names (S (S k)) st) with
          (match step tbl text names st with SNext st' => run tbl text names (S k) st' | SReturn r n => (Ok r, n) | SPanic p => (Panic p, names) end) in H.
        destruct (step tbl text names st); [apply IH, H|exact H|exact H]. }
      destruct (IH H') as (st & A). pose proof (after_run _ _ _ _ _ A 1) as E.
      replace (k + 1) with (S k) in E by lia. rewrite E in H. cbn [run] in H.
      destruct (step tbl text names st) as [st'| |] eqn:Es; try discriminate. exists st'. econstructor; eassumption.
    + intros (st & A). pose proof (after_run _ _ _ _ _ A 0) as E. rewrite Nat.add_0_r in E. rewrite E. reflexivity.
  - intros st st' A. revert st'. induction A as [|k st st1 A IH E]; intros st' A'.
    + inversion A'; reflexivity.
    + inversion A' as [|? st0 ? A0 E0]; subst. specialize (IH _ A0). subst st0. congruence.
Qed.
Print Assumptions C74_states.

(** The width of a table generated from a grammar with disjoint alternatives is
    at most the size of the largest alternative. *)
Lemma cost_le s : forall x, In x s -> symbol_cost x <= sequence_cost s.
Proof.
  unfold sequence_cost. induction s as [|y s IH]; intros x H; [contradiction|]. cbn [map list_sum fold_right].
  destruct H as [->|H]; [lia|]. specialize (IH x H). unfold list_sum in *. lia.
Qed.
Lemma cost_length s : length s <= sequence_cost s.
Proof. induction s as [|x s IH]; [reflexivity|]. unfold sequence_cost in *. cbn [map list_sum fold_right length]. unfold list_sum in IH. destruct x; cbn [symbol_cost]; lia. Qed.
Lemma alternative_cost g n s : alternative g n s -> sequence_cost s <= largest_alternative g.
Proof.
  intros (r & H1 & _ & H2). unfold largest_alternative.
  pose proof (proj1 (list_max_le (map sequence_cost (flat_map r_tail g)) _) (le_n _)) as F.
  rewrite Forall_forall in F. apply F, in_map, in_flat_map. exists r. auto.
Qed.
Lemma generated_width order fuel g tbl names :
  wf_grammar g -> first_disjoint g -> FromGrammar_order order fuel g = Ok (tbl, names) ->
  width_at_most (largest_alternative g) tbl.
Proof.
  intros W D E n r c ops Hn Hc.
  assert (exists i nm, n = Z.of_nat i /\ nth_error (heads g) i = Some nm) as (i & nm & -> & Hi).
  { pose proof (proj1 (FromGrammar_table _ _ _ _ _ (wf_distinct _ W) (wf_nulfree _ W) E)) as M.
    pose proof (map_get_in _ Z.eqb_eq _ _ _ Hn) as I. apply (in_map fst) in I. cbn in I. rewrite M in I.
    apply in_map_iff in I. destruct I as (i & <- & I). apply in_seq in I.
    destruct (nth_error (heads g) i) as [nm|] eqn:X; [eauto|]. apply nth_error_None in X. unfold heads in X.
    rewrite map_length in X. lia. }
  destruct (proj1 (C26_textbook _ _ _ _ _ W D E i nm c Hi) ops) as [(s & A & _ & O & _)|(-> & _)].
  - exists r. split; assumption.
  - pose proof (alternative_cost _ _ _ A) as L. pose proof (cost_length s) as Ls. split.
    + assert (length s = length ops) by (clear -O; induction O; cbn; congruence). lia.
    + intros t Ht. assert (In (STerminal t) s).
      { clear -O Ht. induction O as [|x o s ops Hx O IH]; [contradiction|]. destruct Ht as [->|Ht]; [|right; auto].
        inversion Hx; subst. left. reflexivity. }
      pose proof (cost_le _ _ H) as C. cbn in C. lia.
  - split; [cbn; lia|]. contradiction.
Qed.

(** With an LL(1) grammar of r rules with alternatives of size at most a, while
    Parse runs on a text of n bytes at most 2 + (2 + r a n) max(a,2) operands
    wait and at most 4 + 2 r a n nodes have been made. *)
Theorem C74_linear : forall order fuel0 g tbl names m src text k st,
  wf_grammar g -> LL1 g -> FromGrammar_order order fuel0 g = Ok (tbl, names) ->
  delivers src text -> after tbl text m k st ->
  waiting st <= 2 + (2 + length g * largest_alternative g * length text) * max (largest_alternative g) 2 /\
  nodes_made st <= 4 + 2 * (length g * largest_alternative g * length text).
Proof.
  intros order fuel0 g tbl names m src text k st Wf L E Hd A.
  pose proof (C54_linear order fuel0 g tbl names m src text Wf L E Hd) as Nf.
  assert (R0 : has_row0 tbl) by (eapply FromGrammar_row0, E).
  assert (W : width_at_most (max (largest_alternative g) 2) tbl).
  { intros n r c ops H1 H2. destruct (generated_width _ _ _ _ _ Wf (ll1_first _ _ L) E n r c ops H1 H2) as [X Y].
    split; [lia|]. intros t Ht. specialize (Y t Ht). lia. }
  set (c := length g * largest_alternative g * length text) in *.
  assert (Lk : k <= 2 + c).
  { destruct (Nat.le_gt_cases k (2 + c)) as [X|X]; [exact X|exfalso]. apply Nf.
    apply (proj1 (C74_states (3 + c) tbl m src text R0 Hd)).
    assert (G : forall d k st, after tbl text m k st -> d <= k -> exists st', after tbl text m d st').
    { clear. intros d k st A. induction A as [|k st st' A IH E]; intros Ld.
      - assert (d = 0) as -> by lia. eexists. constructor.
      - destruct (Nat.eq_dec d (S k)) as [->|N]; [eexists; econstructor; eassumption|]. apply IH. lia. }
    apply (G _ _ _ A). lia. }
  destruct (C74_stacks _ tbl text m k st (Nat.le_max_r _ _) W A) as (H1 & H2). split.
  - etransitivity; [exact H1|]. apply Nat.add_le_mono_l, Nat.mul_le_mono_r, Lk.
  - lia.
Qed.
Print Assumptions C74_linear.

Example C74_case : width_at_most (largest_alternative demo) (fst (gen_of demo)) /\
  exists st, after (fst (gen_of demo)) (s2b "ab") None 2 st /\ waiting st = 6.
Proof.
  split.
  - apply (generated_width (fun l => l) (256 * length demo + 1) demo _ (snd (gen_of demo)) demo_wf (ll1_first _ _ demo_LL1)).
    vm_compute. reflexivity.
  - eexists. split; [eapply af_step; [eapply af_step; [constructor|vm_compute; reflexivity]|vm_compute; reflexivity]|reflexivity].
Qed.
