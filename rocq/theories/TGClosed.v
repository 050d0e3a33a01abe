(** * TGClosed: generated tables are closed (any grammar). *)
From Verif Require Import Base ByteSet Ast Cst Parser TableGen Spec_Parse Spec_Tree Spec_Grammar Spec_Table
  ByteSetProofs GrammarProofs ParserProofs TreeProofs ParseApi ParseApi2
  TGFirsts TGFollows TGTable TGMain TGCells.

Lemma map_set_in {K V} (eqb : K -> K -> bool) k (v : V) m x y :
  In (x, y) (map_set eqb k v m) -> y = v \/ In (x, y) m.
Proof.
  induction m as [|[k1 v1] m IH]; simpl.
  - intros [E|[]]. injection E as _ ->. auto.
  - destruct (eqb k k1); simpl.
    + intros [E|H]; [injection E as _ ->; auto|auto].
    + intros [E|H]; [auto|]. destruct (IH H); auto.
Qed.
Lemma map_get_in' {K V} (eqb : K -> K -> bool) k (m : list (K * V)) v :
  map_get eqb k m = Some v -> exists k', In (k', v) m.
Proof.
  induction m as [|[k1 v1] m IH]; simpl; [discriminate|].
  destruct (eqb k k1).
  - intros E. injection E as ->. exists k1. left. reflexivity.
  - intros E. destruct (IH E) as (k' & Hk). exists k'. right. exact Hk.
Qed.

Local Opaque bs_contains bs_remove bs_union bs_bytes sequenceFirsts.
Section Rows.
  Variable g : grammar.
  Variable Q : ParserOp -> Prop.
  Hypothesis HQ : forall n s x op, alternative g n s -> In x s -> In op (op_of g x) -> Q op.
  Definition row_ok (r : row) : Prop := forall c ops, In (c, ops) r -> Forall Q ops.

  Lemma row_get_ok b r ops : row_ok r -> row_get b r = Some ops -> Forall Q ops.
  Proof. intros H E. apply map_get_in' in E. destruct E as (k & Hk). eapply H, Hk. Qed.
  Lemma row_set_ok b ops r : row_ok r -> Forall Q ops -> row_ok (map_set Ascii.eqb b ops r).
  Proof. intros H Ho c o Hin. apply map_set_in in Hin. destruct Hin as [->|Hin]; [exact Ho|eapply H, Hin]. Qed.

  Lemma fill_symbols_row_ok n s t : alternative g n s -> forall syms r out,
    (forall x, In x syms -> In x s) -> row_ok r ->
    fill_symbols (enumerate (heads g)) t syms r = Ok out -> row_ok out.
  Proof.
    intros Ha. induction syms as [|x syms IH]; intros r out Hin Hr H; cbn [fill_symbols] in H.
    - injection H as <-. exact Hr.
    - assert (G : forall op, In op (op_of g x) -> row_ok (row_append t op r)).
      { intros op Hop. unfold row_append. apply row_set_ok; [exact Hr|].
        apply Forall_app. split.
        - destruct (row_get t r) eqn:E; [eapply row_get_ok; eassumption|constructor].
        - constructor; [|constructor]. eapply HQ; [exact Ha|apply Hin; left; reflexivity|exact Hop]. }
      destruct x as [v|w| |str]; try discriminate.
      + cbn [op_of] in G. destruct (rm_get (enumerate (heads g)) v) as [i|]; [|discriminate].
        eapply IH; [|apply G; left; reflexivity|exact H]. intros y Hy. apply Hin. right. exact Hy.
      + eapply IH; [|apply G; left; reflexivity|exact H]. intros y Hy. apply Hin. right. exact Hy.
  Qed.

  Lemma row_loop_row_ok n firsts fol seqs : forall res out,
    (forall s, In s seqs -> alternative g n s) -> row_ok res ->
    row_loop (enumerate (heads g)) firsts fol seqs res = Ok out -> row_ok out.
  Proof.
    assert (FO : forall terms res out, row_ok res -> fill_follows terms res = Ok out -> row_ok out).
    { induction terms as [|t terms IH]; intros res out Hr H; cbn [fill_follows] in H.
      - injection H as <-. exact Hr.
      - destruct (row_get t res); [discriminate|]. eapply IH; [|exact H].
        apply row_set_ok; [exact Hr|constructor]. }
    assert (FI : forall s terms res out, alternative g n s -> row_ok res ->
      fill_firsts (enumerate (heads g)) terms s res = Ok out -> row_ok out).
    { intros s. induction terms as [|t terms IH]; intros res out Ha Hr H; cbn [fill_firsts] in H.
      - injection H as <-. exact Hr.
      - destruct (fill_symbols (enumerate (heads g)) t s res) as [r1| | |] eqn:E; try discriminate.
        cbn [gobind] in H. eapply IH; [exact Ha| |exact H].
        eapply fill_symbols_row_ok; [exact Ha| |exact Hr|exact E]. auto. }
    induction seqs as [|s seqs IH]; intros res out Hin Hr H.
    - injection H as <-. exact Hr.
    - cbn [row_loop] in H.
      destruct (sequenceFirsts (enumerate (heads g)) firsts s) as [sf| | |]; try discriminate.
      cbn [gobind] in H.
      match type of H with gobind ?m _ = _ => destruct m as [[r1 f1]| | |] eqn:E1 end; try discriminate.
      cbn [gobind] in H.
      assert (Hr1 : row_ok r1).
      { destruct (bs_contains sf EOS); [|injection E1 as <- _; exact Hr].
        destruct (bs_range fol) as [terms| | |]; try discriminate. cbn [gobind] in E1.
        destruct (fill_follows terms res) as [r2| | |] eqn:E2; try discriminate. cbn [gobind] in E1.
        injection E1 as <- _. eapply FO; [exact Hr|exact E2]. }
      destruct (bs_range f1) as [terms| | |]; try discriminate. cbn [gobind] in H.
      destruct (fill_firsts (enumerate (heads g)) terms s r1) as [r2| | |] eqn:E2; try discriminate.
      cbn [gobind] in H. eapply IH; [| |exact H].
      + intros s' Hs'. apply Hin. right. exact Hs'.
      + eapply FI; [apply Hin; left; reflexivity|exact Hr1|exact E2].
  Qed.

  Lemma table_rows_ok order fuel tbl names :
    FromGrammar_order order fuel g = Ok (tbl, names) ->
    forall n r c ops, In (n, r) tbl -> In (c, ops) r -> Forall Q ops.
  Proof.
    rewrite FromGrammar_unfold. intros H.
    destruct (findFirsts g _ fuel _) as [firsts| | |]; try discriminate. cbn [gobind] in H.
    destruct (findFollows g _ fuel firsts _) as [follows| | |]; try discriminate. cbn [gobind] in H.
    destruct (makeTable g (enumerate (heads g)) firsts follows) as [tbl'| | |] eqn:Et; try discriminate.
    cbn [gobind] in H. injection H as <- _.
    assert (G : forall idxs t0 out, (forall n r, In (n, r) t0 -> row_ok r) ->
      makeTable_loop g (enumerate (heads g)) firsts follows idxs t0 = Ok out ->
      forall n r, In (n, r) out -> row_ok r).
    { induction idxs as [|i idxs IH]; intros t0 out H0 H; cbn [makeTable_loop] in H.
      - injection H as <-. exact H0.
      - destruct (makeTableRow g (enumerate (heads g)) firsts follows i) as [rw| | |] eqn:Er; try discriminate.
        cbn [gobind] in H. eapply IH; [|exact H]. intros n r Hin. apply map_set_in in Hin.
        destruct Hin as [->|Hin]; [|eapply H0, Hin].
        unfold makeTableRow, index in Er. destruct (nth_error g i) as [rl|] eqn:Hrl; [|discriminate].
        cbn [gobind] in Er. destruct (nth_error follows i); [|discriminate]. cbn [gobind] in Er.
        eapply row_loop_row_ok; [| |exact Er].
        + intros s Hs. eapply alt_of; eassumption.
        + intros c o []. }
    intros n r c ops Hn. eapply (G _ [] _) in Et; [|intros ? ? []|exact Hn]. apply Et.
  Qed.
End Rows.

(** Operands of a generated table. *)
Definition grammar_op (g : grammar) (op : ParserOp) : Prop :=
  (exists i, op = OpNonTerminal (Z.of_nat i) /\ i < length g) \/
  (exists n s t, op = OpTerminal t /\ alternative g n s /\ In (STerminal t) s).

Lemma table_ops order fuel g tbl names :
  FromGrammar_order order fuel g = Ok (tbl, names) ->
  forall n r c ops, In (n, r) tbl -> In (c, ops) r -> Forall (grammar_op g) ops.
Proof.
  apply table_rows_ok. intros n s x op Ha Hx Hop. destruct x as [v|t| |str]; simpl in Hop; try destruct Hop.
  - destruct (rm_get (enumerate (heads g)) v) as [i|] eqn:E; [|destruct Hop].
    destruct Hop as [<-|[]]. left. exists i. split; [reflexivity|]. eapply rm_get_lt, E.
  - subst op. right. exists n, s, t. auto.
  - destruct H.
Qed.

Lemma FromGrammar_public order fuel g tbl names :
  FromGrammar_order order fuel g = Ok (tbl, names) -> table_public tbl.
Proof.
  intros H n r c ops Hn Hc. pose proof (table_ops _ _ _ _ _ H _ _ _ _ Hn Hc) as X.
  eapply Forall_impl; [|exact X]. intros op [(i & -> & _)|(m & s & t & -> & _)]; reflexivity.
Qed.

Lemma FromGrammar_nulfree order fuel g tbl names :
  terminals_nulfree g -> FromGrammar_order order fuel g = Ok (tbl, names) -> table_nulfree tbl.
Proof.
  intros T H n r c ops t Hn Hc Ht. pose proof (table_ops _ _ _ _ _ H _ _ _ _ Hn Hc) as X.
  rewrite Forall_forall in X. destruct (X _ Ht) as [(i & E & _)|(m & s & t' & E & Ha & Hin)]; [discriminate|].
  injection E as ->. eapply T; eassumption.
Qed.

Lemma FromGrammar_nonempty order fuel g x : FromGrammar_order order fuel g = Ok x -> g <> [].
Proof.
  rewrite FromGrammar_unfold. intros H ->.
  destruct (findFirsts [] _ fuel _) as [firsts| | |]; discriminate.
Qed.

Lemma FromGrammar_keys order fuel g tbl names :
  FromGrammar_order order fuel g = Ok (tbl, names) -> map fst tbl = map Z.of_nat (seq 0 (length g)).
Proof.
  intros H. destruct (FromGrammar_generated _ _ _ _ _ H) as (f & o & _ & _ & G & _). exact (gn_keys _ _ _ _ G).
Qed.

Lemma FromGrammar_row0 order fuel g tbl names :
  FromGrammar_order order fuel g = Ok (tbl, names) -> has_row0 tbl.
Proof.
  intros H. pose proof (FromGrammar_nonempty _ _ _ _ H) as Hg.
  pose proof (FromGrammar_keys _ _ _ _ _ H) as K. destruct g as [|r g']; [congruence|].
  destruct (map_get Z.eqb 0%Z tbl) as [rw|] eqn:E; [exists rw; exact E|].
  exfalso. apply (map_get_notin _ zeqb_ok) in E. apply E. rewrite K. left. reflexivity.
Qed.

Lemma keys_get (g : grammar) (tbl : table) n :
  map fst tbl = map Z.of_nat (seq 0 (length g)) ->
  (exists r, map_get Z.eqb n tbl = Some r) <-> (0 <= n < Z.of_nat (length g))%Z.
Proof.
  intros K. split.
  - intros (r & Hr). destruct (in_dec Z.eq_dec n (map fst tbl)) as [Hin|Hin].
    + rewrite K in Hin. apply in_map_iff in Hin. destruct Hin as (i & <- & Hi). apply in_seq in Hi. lia.
    + apply (map_get_notin _ zeqb_ok) in Hin. congruence.
  - intros Hn. destruct (map_get Z.eqb n tbl) as [r|] eqn:E; [eauto|].
    apply (map_get_notin _ zeqb_ok) in E. exfalso. apply E. rewrite K. apply in_map_iff.
    exists (Z.to_nat n). split; [lia|]. apply in_seq. lia.
Qed.

Lemma closed_refuses order fuel g tbl names0 text names k e :
  FromGrammar_order order fuel g = Ok (tbl, names0) ->
  refuses tbl text names k e -> input_error e.
Proof.
  intros H (form & Hr & Hs).
  pose proof (FromGrammar_keys _ _ _ _ _ H) as K. pose proof (table_ops _ _ _ _ _ H) as Ops.
  pose proof (FromGrammar_nonempty _ _ _ _ H) as Hg.
  set (ok := fun i : item => match i with Row n => (0 <= n < Z.of_nat (length g))%Z | Byte _ => True end).
  assert (Inv : Forall ok form).
  { assert (G : forall a b, rewrites_star tbl text a b -> Forall ok (snd a) -> Forall ok (snd b)).
    { intros a b HR. induction HR as [c|a b c R _ IH]; [auto|]. intros Ha. apply IH.
      inversion R; subst; cbn [snd] in *; inversion Ha; subst.
      - assumption.
      - apply Forall_app. split; [|assumption].
        match goal with HC : cell _ _ _ _ |- _ => destruct HC as (rw & H1 & H2) end.
        apply (map_get_in _ zeqb_ok) in H1. apply (map_get_in _ aeqb_ok) in H2.
        pose proof (Ops _ _ _ _ H1 H2) as X. clear -X. induction X as [|op ops Hop _ IH]; [constructor|].
        simpl. apply Forall_app. split; [|exact IH].
        destruct Hop as [(i & -> & Hi)|(m & s & t & -> & _)]; simpl.
        + constructor; [simpl; lia|constructor].
        + apply Forall_forall. intros it Hit. apply in_map_iff in Hit. destruct Hit as (c & <- & _). exact I.
      - simpl in *. lia.
      - simpl in *. lia. }
    apply (G _ _ Hr). cbn [snd]. constructor; [|constructor]. simpl. destruct g; [congruence|simpl; lia]. }
  destruct Hs; try exact I.
  - inversion Inv; subst. match goal with HO : ok _ |- _ => simpl in HO;
      apply (keys_get _ _ _ K) in HO; destruct HO as (r & HO); congruence end.
  - inversion Inv; subst. match goal with HO : ok _ |- _ => simpl in HO; lia end.
  - inversion Inv; subst. match goal with HO : ok _ |- _ => simpl in HO; lia end.
Qed.
