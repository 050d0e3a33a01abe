(** * Props_Combine: property C104: grammars put together. *)
From Verif Require Import Base Ast Cst Parser TableGen Spec_Parse Spec_Tree Spec_Grammar Spec_Table Spec_Combine Spec_Extend
  GrammarProofs ParseApi TGFirsts TGCells TGMain TGParse TGTrees TGExtend TGCheck Props_TableGen Combine.

Lemma inside_nt g u n : inside g (u ++ [NT n]) -> defined g n.
Proof. intros H. apply H, in_or_app. right. left. reflexivity. Qed.
Lemma inside_mid g a n b : inside g (a ++ NT n :: b) -> defined g n.
Proof. intros H. apply H, in_or_app. right. left. reflexivity. Qed.
Lemma alt_three top g1 g2 tops n s : alternative (mkRule top tops :: g1 ++ g2) n s ->
  n = top /\ In s tops \/ alternative g1 n s \/ alternative g2 n s.
Proof.
  intros (r & [<-|Hr] & <- & Hs); [left; auto|right]. apply in_app_or in Hr. destruct Hr as [Hr|Hr]; [left|right]; exists r; auto.
Qed.
Lemma alt_def g n s : alternative g n s -> defined g n.
Proof. intros (r & Hr & <- & _). apply in_map, Hr. Qed.
Lemma alt_in g A a B b : wf_grammar g -> alternative g A (a ++ SNonTerminal B :: b) -> defined g B.
Proof. intros W H. apply (wf_closed _ W _ _ B H). apply in_or_app. right. left. reflexivity. Qed.
Lemma alt_in2 g A a B X b : wf_grammar g -> alternative g A (a ++ SNonTerminal B :: X :: b) -> inside g (sym_form X).
Proof.
  intros W H m Hm. destruct X as [k|t| |str]; cbn in Hm; try (destruct Hm; fail).
  - destruct Hm as [E|[]]. injection E as ->. apply (wf_closed _ W _ _ m H). apply in_or_app. right. right. left. reflexivity.
  - apply in_map_iff in Hm. destruct Hm as (c & Hc & _). discriminate.
Qed.
Lemma chars_inv w a b : chars w = a ++ b -> exists w1 w2, w = w1 ++ w2 /\ a = chars w1 /\ b = chars w2.
Proof.
  revert a. induction w as [|c w IH]; intros a E; cbn in E.
  - symmetry in E. apply app_eq_nil in E. destruct E as (-> & ->). exists [], []. auto.
  - destruct a as [|x a]; cbn in E.
    + subst b. exists [], (c :: w). auto.
    + injection E as <- E. destruct (IH _ E) as (w1 & w2 & -> & -> & ->). exists (c :: w1), w2. auto.
Qed.

Section Two.
  Variables (top : bytes) (g1 g2 : grammar).
  Hypothesis W1 : wf_grammar g1.
  Hypothesis W2 : wf_grammar g2.
  Hypothesis A : apart top g1 g2.

  (** ** Choice *)
  Let tc := [[SNonTerminal (start g1)]; [SNonTerminal (start g2)]].
  Let C := mkRule top tc :: g1 ++ g2.
  Lemma tc_ok s : In s tc -> s <> [] /\ forall x, In x s -> x = SNonTerminal (start g1) \/ x = SNonTerminal (start g2).
  Proof.
    intros [<-|[<-|[]]]; (split; [discriminate|]); intros x [<-|[]]; auto.
  Qed.
  Lemma choice_wf : wf_grammar C.
  Proof. apply (com_wf top g1 g2 tc W1 W2 A tc_ok). discriminate. Qed.
  Lemma choice_from v : yields C [NT top] v <->
    v = [NT top] \/ (yields g1 [NT (start g1)] v /\ inside g1 v) \/ (yields g2 [NT (start g2)] v /\ inside g2 v).
  Proof.
    unfold C. rewrite (com_from_top top g1 g2 tc A). split.
    - intros [H|(s & [<-|[<-|[]]] & Y)]; [left; exact H|right; left|right; right]; cbn in Y.
      + apply (in_yields_back _ _ (com_back1 top g1 g2 tc A) (wf_closed _ W1) _ _ Y (start_inside _ W1)).
      + apply (in_yields_back _ _ (com_back2 top g1 g2 tc A) (wf_closed _ W2) _ _ Y (start_inside _ W2)).
    - intros [H|[(Y & _)|(Y & _)]]; [left; exact H|right; exists [SNonTerminal (start g1)]|right; exists [SNonTerminal (start g2)]].
      + split; [left; reflexivity|]. exact (in_yields _ _ (com_into1 top g1 g2 tc) _ _ Y).
      + split; [right; left; reflexivity|]. exact (in_yields _ _ (com_into2 top g1 g2 tc) _ _ Y).
  Qed.
  Lemma choice_follow : (forall n x, defined g1 n -> (follow C n x <-> follow g1 n x)) /\
    (forall n x, defined g2 n -> (follow C n x <-> follow g2 n x)) /\ (forall x, follow C top x <-> x = None).
  Proof.
    destruct (apart_facts top g1 g2 A) as (N1 & N2 & N).
    assert (X : forall n a b, yields C [NT top] (a ++ NT n :: b) ->
      n = top /\ a = [] /\ b = [] \/ defined g1 n /\ yields g1 [NT (start g1)] (a ++ NT n :: b) \/
      defined g2 n /\ yields g2 [NT (start g2)] (a ++ NT n :: b)).
    { intros n a b Y. apply choice_from in Y. destruct Y as [E|[(Y & I)|(Y & I)]].
      - destruct a as [|? [|]]; try discriminate. injection E as <- <-. left. auto.
      - right. left. split; [eapply inside_mid, I|exact Y].
      - right. right. split; [eapply inside_mid, I|exact Y]. }
    split; [|split].
    - intros n x D. destruct x as [c|]; cbn [follow start C r_head]; split.
      + intros (a & b & Y). destruct (X _ _ _ Y) as [(-> & _)|[(_ & Y')|(D' & _)]]; [contradiction|exists a, b; exact Y'|destruct (N _ D D')].
      + intros (a & b & Y). exists a, b. apply choice_from. right. left. split; [exact Y|].
        apply (in_yields_back g1 g1 (fun _ _ _ H => H) (wf_closed _ W1) _ _ Y (start_inside _ W1)).
      + intros (a & Y). destruct (X _ _ _ Y) as [(-> & _)|[(_ & Y')|(D' & _)]]; [contradiction|exists a; exact Y'|destruct (N _ D D')].
      + intros (a & Y). exists a. apply choice_from. right. left. split; [exact Y|].
        apply (in_yields_back g1 g1 (fun _ _ _ H => H) (wf_closed _ W1) _ _ Y (start_inside _ W1)).
    - intros n x D. destruct x as [c|]; cbn [follow start C r_head]; split.
      + intros (a & b & Y). destruct (X _ _ _ Y) as [(-> & _)|[(D' & _)|(_ & Y')]]; [contradiction|destruct (N _ D' D)|exists a, b; exact Y'].
      + intros (a & b & Y). exists a, b. apply choice_from. right. right. split; [exact Y|].
        apply (in_yields_back g2 g2 (fun _ _ _ H => H) (wf_closed _ W2) _ _ Y (start_inside _ W2)).
      + intros (a & Y). destruct (X _ _ _ Y) as [(-> & _)|[(D' & _)|(_ & Y')]]; [contradiction|destruct (N _ D' D)|exists a; exact Y'].
      + intros (a & Y). exists a. apply choice_from. right. right. split; [exact Y|].
        apply (in_yields_back g2 g2 (fun _ _ _ H => H) (wf_closed _ W2) _ _ Y (start_inside _ W2)).
    - intros x. split.
      + destruct x as [c|]; [|reflexivity]. intros (a & b & Y).
        destruct (X _ _ _ Y) as [(_ & _ & E)|[(D & _)|(D & _)]]; [discriminate|contradiction|contradiction].
      + intros ->. exists []. constructor.
  Qed.
  Lemma choice_word w : word C w <-> word g1 w \/ word g2 w.
  Proof.
    unfold word. cbn [start C r_head]. rewrite choice_from. split.
    - intros (_ & [E|[(Y & _)|(Y & _)]]); [destruct w; discriminate|left|right]; (split; [apply wf_nonempty; assumption|exact Y]).
    - intros [(_ & Y)|(_ & Y)]; (split; [discriminate|]); right; [left|right]; (split; [exact Y|]);
        intros n H; apply in_map_iff in H; destruct H as (? & ? & _); discriminate.
  Qed.
  Lemma choice_LL1 : LL1 C <-> LL1 g1 /\ LL1 g2 /\
    (forall c, first g1 [NT (start g1)] c -> ~ first g2 [NT (start g2)] c) /\
    ~ (nullable g1 [NT (start g1)] /\ nullable g2 [NT (start g2)]).
  Proof.
    destruct choice_follow as (F1 & F2 & Ft). unfold C.
    rewrite (com_LL1 top g1 g2 tc W1 W2 A (follow g1) (follow g2));
      [|intros n c D; apply F1, D|intros n c D; apply F2, D|intros c H; apply Ft in H; discriminate].
    assert (X : (forall l1 s1 l2 s2 l3, tc = l1 ++ s1 :: l2 ++ s2 :: l3 ->
        (forall c, first C (seq_form s1) c -> ~ first C (seq_form s2) c) /\ ~ (nullable C (seq_form s1) /\ nullable C (seq_form s2))) <->
      (forall c, first g1 [NT (start g1)] c -> ~ first g2 [NT (start g2)] c) /\
      ~ (nullable g1 [NT (start g1)] /\ nullable g2 [NT (start g2)])).
    { assert (Y1 : forall c, first C [NT (start g1)] c <-> first g1 [NT (start g1)] c)
        by (intros c; apply (com_first1 top g1 g2 tc W1 A), start_inside, W1).
      assert (Y2 : forall c, first C [NT (start g2)] c <-> first g2 [NT (start g2)] c)
        by (intros c; apply (com_first2 top g1 g2 tc W2 A), start_inside, W2).
      assert (Z1 : nullable C [NT (start g1)] <-> nullable g1 [NT (start g1)])
        by (apply (com_null1 top g1 g2 tc W1 A), start_inside, W1).
      assert (Z2 : nullable C [NT (start g2)] <-> nullable g2 [NT (start g2)])
        by (apply (com_null2 top g1 g2 tc W2 A), start_inside, W2).
      split.
      - intros H. destruct (H [] _ [] _ [] eq_refl) as (H1 & H2). split.
        + intros c Ha Hb. apply (H1 c); [apply Y1, Ha|apply Y2, Hb].
        + intros (Ha & Hb). apply H2. split; [apply Z1, Ha|apply Z2, Hb].
      - intros (H1 & H2) l1 s1 l2 s2 l3 E.
        assert (s1 = [SNonTerminal (start g1)] /\ s2 = [SNonTerminal (start g2)]) as (-> & ->).
        { unfold tc in E. destruct l1 as [|a l1]; cbn in E; injection E as E1 E.
          - destruct l2 as [|b l2]; cbn in E; [injection E as E2 _; auto|injection E as _ E; destruct l2; discriminate].
          - destruct l1 as [|b l1]; cbn in E; [injection E as _ E; destruct l2; discriminate|injection E as _ E; destruct l1; discriminate]. }
        split.
        + intros c Ha Hb. apply (H1 c); [apply Y1, Ha|apply Y2, Hb].
        + intros (Ha & Hb). apply H2. split; [apply Z1, Ha|apply Z2, Hb]. }
    unfold C in X. rewrite X. tauto.
  Qed.
  Lemma choice_code : (forall n x, defined g1 n -> (follow_code C n x <-> follow_code g1 n x)) /\
    (forall n x, defined g2 n -> (follow_code C n x <-> follow_code g2 n x)) /\ (forall x, follow_code C top x <-> x = None).
  Proof.
    destruct (apart_facts top g1 g2 A) as (N1 & N2 & N).
    assert (T : follow_code C top None) by (apply (fc_rule1 C); discriminate).
    assert (X : forall n x, follow_code C n x ->
      (defined g1 n -> follow_code g1 n x) /\ (defined g2 n -> follow_code g2 n x) /\ (n = top -> x = None)).
    { induction 1 as [_|A0 a B X b c Ha Hf|A0 a B x Ha _ IH|A0 a B X b x Ha Hn _ IH].
      - cbn. repeat split; intros; try contradiction; reflexivity.
      - apply alt_three in Ha. destruct Ha as [(-> & [E|[E|[]]])|[Ha|Ha]].
        + destruct a as [|? [|]]; discriminate.
        + destruct a as [|? [|]]; discriminate.
        + pose proof (alt_in _ _ _ _ _ W1 Ha) as D. pose proof (alt_in2 _ _ _ _ _ _ W1 Ha) as I.
          apply (com_first1 top g1 g2 tc W1 A _ _ I) in Hf. split; [|split].
          * intros _. eapply fc_rule2; eassumption.
          * intros D'. destruct (N _ D D').
          * intros ->. contradiction.
        + pose proof (alt_in _ _ _ _ _ W2 Ha) as D. pose proof (alt_in2 _ _ _ _ _ _ W2 Ha) as I.
          apply (com_first2 top g1 g2 tc W2 A _ _ I) in Hf. split; [|split].
          * intros D'. destruct (N _ D' D).
          * intros _. eapply fc_rule2; eassumption.
          * intros ->. contradiction.
      - apply alt_three in Ha. destruct IH as (I1 & I2 & I3). destruct Ha as [(-> & [E|[E|[]]])|[Ha|Ha]].
        + destruct a as [|? [|]]; try discriminate. injection E as <-. rewrite (I3 eq_refl).
          pose proof (start_defined _ W1) as D. split; [|split; [intros D'; destruct (N _ D D')|reflexivity]].
          intros _. apply fc_rule1, wf_nonempty, W1.
        + destruct a as [|? [|]]; try discriminate. injection E as <-. rewrite (I3 eq_refl).
          pose proof (start_defined _ W2) as D. split; [intros D'; destruct (N _ D' D)|split; [|reflexivity]].
          intros _. apply fc_rule1, wf_nonempty, W2.
        + pose proof (alt_in _ _ _ _ _ W1 Ha) as D. pose proof (I1 (alt_def _ _ _ Ha)) as H1. split; [|split].
          * intros _. eapply fc_rule3; eassumption.
          * intros D'. destruct (N _ D D').
          * intros ->. contradiction.
        + pose proof (alt_in _ _ _ _ _ W2 Ha) as D. pose proof (I2 (alt_def _ _ _ Ha)) as H1. split; [|split].
          * intros D'. destruct (N _ D' D).
          * intros _. eapply fc_rule3; eassumption.
          * intros ->. contradiction.
      - apply alt_three in Ha. destruct IH as (I1 & I2 & I3). destruct Ha as [(-> & [E|[E|[]]])|[Ha|Ha]].
        + destruct a as [|? [|]]; discriminate.
        + destruct a as [|? [|]]; discriminate.
        + pose proof (alt_in _ _ _ _ _ W1 Ha) as D. pose proof (alt_in2 _ _ _ _ _ _ W1 Ha) as I.
          apply (com_null1 top g1 g2 tc W1 A _ I) in Hn. pose proof (I1 (alt_def _ _ _ Ha)) as H1. split; [|split].
          * intros _. eapply fc_rule4; eassumption.
          * intros D'. destruct (N _ D D').
          * intros ->. contradiction.
        + pose proof (alt_in _ _ _ _ _ W2 Ha) as D. pose proof (alt_in2 _ _ _ _ _ _ W2 Ha) as I.
          apply (com_null2 top g1 g2 tc W2 A _ I) in Hn. pose proof (I2 (alt_def _ _ _ Ha)) as H1. split; [|split].
          * intros D'. destruct (N _ D' D).
          * intros _. eapply fc_rule4; eassumption.
          * intros ->. contradiction. }
    split; [|split].
    - intros n x D. split; [intros H; apply (X _ _ H), D|]. clear D.
      induction 1 as [_|A0 a B Y b c Ha Hf|A0 a B x Ha _ IH|A0 a B Y b x Ha Hn _ IH].
      + apply (fc_rule3 C top []); [|exact T]. apply (com_top top g1 g2 tc A). left. reflexivity.
      + eapply fc_rule2; [apply (com_into1 top g1 g2 tc), Ha|]. apply (com_first1 top g1 g2 tc W1 A _ _ (alt_in2 _ _ _ _ _ _ W1 Ha)), Hf.
      + eapply fc_rule3; [apply (com_into1 top g1 g2 tc), Ha|exact IH].
      + eapply fc_rule4; [apply (com_into1 top g1 g2 tc), Ha| |exact IH]. apply (com_null1 top g1 g2 tc W1 A _ (alt_in2 _ _ _ _ _ _ W1 Ha)), Hn.
    - intros n x D. split; [intros H; apply (X _ _ H), D|]. clear D.
      induction 1 as [_|A0 a B Y b c Ha Hf|A0 a B x Ha _ IH|A0 a B Y b x Ha Hn _ IH].
      + apply (fc_rule3 C top []); [|exact T]. apply (com_top top g1 g2 tc A). right. left. reflexivity.
      + eapply fc_rule2; [apply (com_into2 top g1 g2 tc), Ha|]. apply (com_first2 top g1 g2 tc W2 A _ _ (alt_in2 _ _ _ _ _ _ W2 Ha)), Hf.
      + eapply fc_rule3; [apply (com_into2 top g1 g2 tc), Ha|exact IH].
      + eapply fc_rule4; [apply (com_into2 top g1 g2 tc), Ha| |exact IH]. apply (com_null2 top g1 g2 tc W2 A _ (alt_in2 _ _ _ _ _ _ W2 Ha)), Hn.
    - intros x. split; [intros H; apply (X _ _ H), eq_refl|intros ->; exact T].
  Qed.

  (** ** Sequence *)
  Let ts := [[SNonTerminal (start g1); SNonTerminal (start g2)]].
  Let Q := mkRule top ts :: g1 ++ g2.
  Lemma ts_ok s : In s ts -> s <> [] /\ forall x, In x s -> x = SNonTerminal (start g1) \/ x = SNonTerminal (start g2).
  Proof. intros [<-|[]]. split; [discriminate|]. intros x [<-|[<-|[]]]; auto. Qed.
  Lemma seq_wf : wf_grammar Q.
  Proof. apply (com_wf top g1 g2 ts W1 W2 A ts_ok). discriminate. Qed.
  Lemma keeps_inside g v : wf_grammar g -> yields g [NT (start g)] v -> inside g v.
  Proof. intros W Y. apply (in_yields_back g g (fun _ _ _ H => H) (wf_closed _ W) _ _ Y (start_inside _ W)). Qed.
  Lemma seq_from v : yields Q [NT top] v <->
    v = [NT top] \/ exists v1 v2, v = v1 ++ v2 /\ yields g1 [NT (start g1)] v1 /\ yields g2 [NT (start g2)] v2.
  Proof.
    unfold Q. rewrite (com_from_top top g1 g2 ts A). split.
    - intros [H|(s & [<-|[]] & Y)]; [left; exact H|right]. cbn in Y.
      change [NT (start g1); NT (start g2)] with ([NT (start g1)] ++ [NT (start g2)]) in Y.
      apply yields_app_inv in Y. destruct Y as (v1 & v2 & -> & Y1 & Y2). exists v1, v2. split; [reflexivity|]. split.
      + apply (com_yields1 top g1 g2 ts W1 A _ _ (start_inside _ W1)), Y1.
      + apply (com_yields2 top g1 g2 ts W2 A _ _ (start_inside _ W2)), Y2.
    - intros [H|(v1 & v2 & -> & Y1 & Y2)]; [left; exact H|right]. eexists. split; [left; reflexivity|].
      apply (yields_app _ [NT (start g1)] [NT (start g2)]).
      + apply (com_yields1 top g1 g2 ts W1 A _ _ (start_inside _ W1)), Y1.
      + apply (com_yields2 top g1 g2 ts W2 A _ _ (start_inside _ W2)), Y2.
  Qed.
  Lemma seq_split n a b : n <> top -> yields Q [NT top] (a ++ NT n :: b) ->
    (exists v1 v2, b = v1 ++ v2 /\ defined g1 n /\ yields g1 [NT (start g1)] (a ++ NT n :: v1) /\ yields g2 [NT (start g2)] v2) \/
    (exists v1 v2, a = v1 ++ v2 /\ defined g2 n /\ yields g2 [NT (start g2)] (v2 ++ NT n :: b)).
  Proof.
    intros Nt Y. apply seq_from in Y. destruct Y as [E|(v1 & v2 & E & Y1 & Y2)].
    - destruct a as [|? [|]]; try discriminate. injection E as E _. contradiction.
    - assert (Right : forall l, a = v1 ++ l -> v2 = l ++ NT n :: b ->
        exists v1 v2, a = v1 ++ v2 /\ defined g2 n /\ yields g2 [NT (start g2)] (v2 ++ NT n :: b)).
      { intros l -> ->. exists v1, l. split; [reflexivity|]. split; [|exact Y2]. eapply inside_mid, keeps_inside, Y2. exact W2. }
      apply app_eq_app in E. destruct E as (l & [(E1 & E2)|(E1 & E2)]); [right; eapply Right; eassumption|].
      destruct l as [|k l]; [right; apply (Right []); [rewrite app_nil_r in *; congruence|cbn in *; congruence]|].
      cbn in E2. injection E2 as <- ->. subst v1. left. exists l, v2. split; [reflexivity|]. split; [|auto].
      eapply inside_mid, keeps_inside, Y1. exact W1.
  Qed.
  Lemma seq_follow : (forall n x, defined g1 n -> (follow Q n x <-> followed_by g1 g2 n x)) /\
    (forall n x, defined g2 n -> (follow Q n x <-> follow g2 n x)) /\ (forall x, follow Q top x <-> x = None).
  Proof.
    destruct (apart_facts top g1 g2 A) as (N1 & N2 & N). split; [|split].
    - intros n x D. assert (Nt : n <> top) by (intros ->; contradiction).
      destruct x as [c|]; cbn [follow followed_by start Q r_head]; split.
      + intros (a & b & Y). destruct (seq_split _ _ _ Nt Y) as [(v1 & v2 & E & _ & Y1 & Y2)|(v1 & v2 & _ & D' & _)]; [|destruct (N _ D D')].
        destruct v1 as [|x v1]; cbn in E.
        * right. subst v2. split; [exists a; exact Y1|exists b; exact Y2].
        * injection E as <- ->. left. exists a, v1. exact Y1.
      + intros [(a & b & Y)|((a & Y) & (b & Y'))].
        * exists a, (b ++ [NT (start g2)]). apply seq_from. right. exists (a ++ NT n :: Ch c :: b), [NT (start g2)].
          split; [rewrite <- app_assoc; reflexivity|]. split; [exact Y|constructor].
        * exists a, b. apply seq_from. right. exists (a ++ [NT n]), (Ch c :: b).
          split; [rewrite <- app_assoc; reflexivity|]. auto.
      + intros (a & Y). destruct (seq_split _ _ _ Nt Y) as [(v1 & v2 & E & _ & Y1 & Y2)|(v1 & v2 & _ & D' & _)]; [|destruct (N _ D D')].
        symmetry in E. apply app_eq_nil in E. destruct E as (-> & ->). split; [exists a; exact Y1|exact Y2].
      + intros ((a & Y) & Y'). exists a. apply seq_from. right. exists (a ++ [NT n]), []. rewrite app_nil_r. auto.
    - intros n x D. assert (Nt : n <> top) by (intros ->; contradiction).
      assert (B : forall b, (exists a, yields Q [NT top] (a ++ NT n :: b)) <-> (exists a, yields g2 [NT (start g2)] (a ++ NT n :: b))).
      { intros b. split.
        - intros (a & Y). destruct (seq_split _ _ _ Nt Y) as [(v1 & v2 & E & D' & _)|(v1 & v2 & _ & _ & Y2)]; [destruct (N _ D' D)|].
          exists v2. exact Y2.
        - intros (a & Y). exists (NT (start g1) :: a). apply seq_from. right. exists [NT (start g1)], (a ++ NT n :: b).
          split; [reflexivity|]. split; [constructor|exact Y]. }
      destruct x as [c|]; cbn [follow start Q r_head]; [|apply B]. split; intros (a & b & Y).
      + destruct (proj1 (B _) (ex_intro _ a Y)) as (a' & Y'). exists a', b. exact Y'.
      + destruct (proj2 (B _) (ex_intro _ a Y)) as (a' & Y'). exists a', b. exact Y'.
    - intros x. split.
      + destruct x as [c|]; [|reflexivity]. intros (a & b & Y). apply seq_from in Y. destruct Y as [E|(v1 & v2 & E & Y1 & Y2)].
        * destruct a as [|? [|]]; discriminate.
        * assert (H : In (NT top) (v1 ++ v2)) by (rewrite <- E; apply in_or_app; right; left; reflexivity).
          apply in_app_or in H. destruct H as [H|H]; [destruct (N1 (keeps_inside _ _ W1 Y1 _ H))|destruct (N2 (keeps_inside _ _ W2 Y2 _ H))].
      + intros ->. exists []. constructor.
  Qed.
  Lemma seq_word w : word Q w <-> exists u v, w = u ++ v /\ word g1 u /\ word g2 v.
  Proof.
    unfold word. cbn [start Q r_head]. rewrite seq_from. split.
    - intros (_ & [E|(v1 & v2 & E & Y1 & Y2)]); [destruct w; discriminate|]. apply chars_inv in E.
      destruct E as (u & v & -> & -> & ->). exists u, v. split; [reflexivity|].
      split; (split; [apply wf_nonempty; assumption|assumption]).
    - intros (u & v & -> & (_ & Y1) & (_ & Y2)). split; [discriminate|]. right. exists (chars u), (chars v).
      split; [apply map_app|]. auto.
  Qed.
  Lemma seq_LL1 : LL1 Q <-> LL1_wrt (followed_by g1 g2) g1 /\ LL1 g2.
  Proof.
    destruct seq_follow as (F1 & F2 & Ft). unfold Q.
    rewrite (com_LL1 top g1 g2 ts W1 W2 A (followed_by g1 g2) (follow g2));
      [|intros n c D; apply F1, D|intros n c D; apply F2, D|intros c H; apply Ft in H; discriminate].
    split; [tauto|]. intros (L1 & L2). split; [exact L1|]. split; [exact L2|].
    intros l1 s1 l2 s2 l3 E. destruct l1 as [|a l1]; cbn in E; [injection E as _ E; destruct l2; discriminate|].
    injection E as _ E. destruct l1; discriminate.
  Qed.
  (** What the generator puts behind the rules of [g1]. *)
  Definition code_by (n : bytes) (x : option ascii) : Prop :=
    match x with
    | Some c => follow_code g1 n (Some c) \/ follow_code g1 n None /\ first g2 [NT (start g2)] c
    | None => follow_code g1 n None /\ nullable g2 [NT (start g2)]
    end.
  Lemma top_parts a B X b : [SNonTerminal (start g1); SNonTerminal (start g2)] = a ++ SNonTerminal B :: X :: b ->
    a = [] /\ B = start g1 /\ X = SNonTerminal (start g2) /\ b = [].
  Proof.
    intros E. destruct a as [|? [|? [|]]]; try discriminate. injection E as <- <- <-. auto.
  Qed.
  Lemma seq_code : (forall n x, defined g1 n -> (follow_code Q n x <-> code_by n x)) /\
    (forall n x, defined g2 n -> (follow_code Q n x <-> follow_code g2 n x)) /\ (forall x, follow_code Q top x <-> x = None).
  Proof.
    destruct (apart_facts top g1 g2 A) as (N1 & N2 & N).
    assert (T : follow_code Q top None) by (apply (fc_rule1 Q); discriminate).
    assert (S1 : forall c, first Q [NT (start g2)] c <-> first g2 [NT (start g2)] c)
      by (intros c; apply (com_first2 top g1 g2 ts W2 A), start_inside, W2).
    assert (S2 : nullable Q [NT (start g2)] <-> nullable g2 [NT (start g2)])
      by (apply (com_null2 top g1 g2 ts W2 A), start_inside, W2).
    assert (Hs : alternative Q top ([] ++ [SNonTerminal (start g1); SNonTerminal (start g2)]))
      by (apply (com_top top g1 g2 ts A); left; reflexivity).
    assert (X : forall n x, follow_code Q n x ->
      (defined g1 n -> code_by n x) /\ (defined g2 n -> follow_code g2 n x) /\ (n = top -> x = None)).
    { induction 1 as [_|A0 a B X b c Ha Hf|A0 a B x Ha _ IH|A0 a B X b x Ha Hn _ IH].
      - cbn. repeat split; intros; try contradiction; reflexivity.
      - apply alt_three in Ha. destruct Ha as [(-> & [E|[]])|[Ha|Ha]].
        + apply top_parts in E. destruct E as (-> & -> & -> & ->). pose proof (start_defined _ W1) as D. split; [|split].
          * intros _. right. split; [apply fc_rule1, wf_nonempty, W1|apply S1, Hf].
          * intros D'. destruct (N _ D D').
          * intros E. rewrite E in D. contradiction.
        + pose proof (alt_in _ _ _ _ _ W1 Ha) as D. pose proof (alt_in2 _ _ _ _ _ _ W1 Ha) as I.
          apply (com_first1 top g1 g2 ts W1 A _ _ I) in Hf. split; [|split].
          * intros _. left. eapply fc_rule2; eassumption.
          * intros D'. destruct (N _ D D').
          * intros ->. contradiction.
        + pose proof (alt_in _ _ _ _ _ W2 Ha) as D. pose proof (alt_in2 _ _ _ _ _ _ W2 Ha) as I.
          apply (com_first2 top g1 g2 ts W2 A _ _ I) in Hf. split; [|split].
          * intros D'. destruct (N _ D' D).
          * intros _. eapply fc_rule2; eassumption.
          * intros ->. contradiction.
      - apply alt_three in Ha. destruct IH as (I1 & I2 & I3). destruct Ha as [(-> & [E|[]])|[Ha|Ha]].
        + destruct a as [|? [|? [|]]]; try discriminate. injection E as <- <-. rewrite (I3 eq_refl).
          pose proof (start_defined _ W2) as D. split; [intros D'; destruct (N _ D' D)|split; [|reflexivity]].
          intros _. apply fc_rule1, wf_nonempty, W2.
        + pose proof (alt_in _ _ _ _ _ W1 Ha) as D. pose proof (I1 (alt_def _ _ _ Ha)) as H1. split; [|split].
          * intros _. destruct x as [c|]; cbn in *.
            -- destruct H1 as [H1|(H1 & H2)]; [left|right; split; [|exact H2]]; eapply fc_rule3; eassumption.
            -- destruct H1 as (H1 & H2). split; [|exact H2]. eapply fc_rule3; eassumption.
          * intros D'. destruct (N _ D D').
          * intros ->. contradiction.
        + pose proof (alt_in _ _ _ _ _ W2 Ha) as D. pose proof (I2 (alt_def _ _ _ Ha)) as H1. split; [|split].
          * intros D'. destruct (N _ D' D).
          * intros _. eapply fc_rule3; eassumption.
          * intros ->. contradiction.
      - apply alt_three in Ha. destruct IH as (I1 & I2 & I3). destruct Ha as [(-> & [E|[]])|[Ha|Ha]].
        + apply top_parts in E. destruct E as (-> & -> & -> & ->). pose proof (start_defined _ W1) as D. rewrite (I3 eq_refl).
          split; [|split; [intros D'; destruct (N _ D D')|reflexivity]].
          intros _. split; [apply fc_rule1, wf_nonempty, W1|apply S2, Hn].
        + pose proof (alt_in _ _ _ _ _ W1 Ha) as D. pose proof (alt_in2 _ _ _ _ _ _ W1 Ha) as I.
          apply (com_null1 top g1 g2 ts W1 A _ I) in Hn. pose proof (I1 (alt_def _ _ _ Ha)) as H1. split; [|split].
          * intros _. destruct x as [c|]; cbn in *.
            -- destruct H1 as [H1|(H1 & H2)]; [left|right; split; [|exact H2]]; eapply fc_rule4; eassumption.
            -- destruct H1 as (H1 & H2). split; [|exact H2]. eapply fc_rule4; eassumption.
          * intros D'. destruct (N _ D D').
          * intros ->. contradiction.
        + pose proof (alt_in _ _ _ _ _ W2 Ha) as D. pose proof (alt_in2 _ _ _ _ _ _ W2 Ha) as I.
          apply (com_null2 top g1 g2 ts W2 A _ I) in Hn. pose proof (I2 (alt_def _ _ _ Ha)) as H1. split; [|split].
          * intros D'. destruct (N _ D' D).
          * intros _. eapply fc_rule4; eassumption.
          * intros ->. contradiction. }
    split; [|split].
    - intros n x D. split; [intros H; apply (X _ _ H), D|].
      assert (B : forall n x, follow_code g1 n x ->
        match x with
        | Some c => follow_code Q n (Some c)
        | None => (forall c, first g2 [NT (start g2)] c -> follow_code Q n (Some c)) /\
                  (nullable g2 [NT (start g2)] -> follow_code Q n None)
        end).
      { clear n x D X. induction 1 as [_|A0 a B Y b c Ha Hf|A0 a B x Ha _ IH|A0 a B Y b x Ha Hn _ IH].
        - split.
          + intros c Hc. eapply fc_rule2; [exact Hs|]. apply S1, Hc.
          + intros Hn. eapply fc_rule4; [exact Hs|apply S2, Hn|exact T].
        - eapply fc_rule2; [apply (com_into1 top g1 g2 ts), Ha|]. apply (com_first1 top g1 g2 ts W1 A _ _ (alt_in2 _ _ _ _ _ _ W1 Ha)), Hf.
        - assert (St : forall y, follow_code Q A0 y -> follow_code Q B y)
            by (intros y Hy; eapply fc_rule3; [apply (com_into1 top g1 g2 ts), Ha|exact Hy]).
          destruct x as [c|]; [apply St, IH|]. destruct IH as (J1 & J2). split; auto.
        - assert (St : forall y, follow_code Q A0 y -> follow_code Q B y).
          { intros y Hy; eapply fc_rule4; [apply (com_into1 top g1 g2 ts), Ha| |exact Hy].
            apply (com_null1 top g1 g2 ts W1 A _ (alt_in2 _ _ _ _ _ _ W1 Ha)), Hn. }
          destruct x as [c|]; [apply St, IH|]. destruct IH as (J1 & J2). split; auto. }
      destruct x as [c|]; cbn [code_by].
      + intros [H|(H & Hc)]; [exact (B _ _ H)|apply (B _ _ H), Hc].
      + intros (H & Hc). apply (B _ _ H), Hc.
    - intros n x D. split; [intros H; apply (X _ _ H), D|]. clear D.
      induction 1 as [_|A0 a B Y b c Ha Hf|A0 a B x Ha _ IH|A0 a B Y b x Ha Hn _ IH].
      + apply (fc_rule3 Q top [SNonTerminal (start g1)]); [|exact T]. exact Hs.
      + eapply fc_rule2; [apply (com_into2 top g1 g2 ts), Ha|]. apply (com_first2 top g1 g2 ts W2 A _ _ (alt_in2 _ _ _ _ _ _ W2 Ha)), Hf.
      + eapply fc_rule3; [apply (com_into2 top g1 g2 ts), Ha|exact IH].
      + eapply fc_rule4; [apply (com_into2 top g1 g2 ts), Ha| |exact IH]. apply (com_null2 top g1 g2 ts W2 A _ (alt_in2 _ _ _ _ _ _ W2 Ha)), Hn.
    - intros x. split; [intros H; apply (X _ _ H), eq_refl|intros ->; exact T].
  Qed.
End Two.

(** ** C104 *)

(** [top ::= start1 | start2] derives the words of both grammars. It is LL(1)
    exactly when both are, no byte starts words of both, and the empty word is
    not in both. *)
Theorem C104_choice :
  forall top g1 g2, wf_grammar g1 -> wf_grammar g2 -> apart top g1 g2 ->
    wf_grammar (choice top g1 g2) /\
    (forall w, word (choice top g1 g2) w <-> word g1 w \/ word g2 w) /\
    (LL1 (choice top g1 g2) <->
       LL1 g1 /\ LL1 g2 /\ (forall c, first g1 [NT (start g1)] c -> ~ first g2 [NT (start g2)] c) /\
       ~ (nullable g1 [NT (start g1)] /\ nullable g2 [NT (start g2)])).
Proof.
  intros top g1 g2 W1 W2 A. split; [exact (choice_wf top g1 g2 W1 W2 A)|]. split; [exact (choice_word top g1 g2 W1 W2 A)|].
  exact (choice_LL1 top g1 g2 W1 W2 A).
Qed.
Print Assumptions C104_choice.

(** [top ::= start1 start2] derives the words of the first grammar with words of
    the second behind them. It is LL(1) exactly when the second grammar is and
    the first one is with what the second can start with among what follows. *)
Theorem C104_sequence :
  forall top g1 g2, wf_grammar g1 -> wf_grammar g2 -> apart top g1 g2 ->
    wf_grammar (in_sequence top g1 g2) /\
    (forall w, word (in_sequence top g1 g2) w <-> exists u v, w = u ++ v /\ word g1 u /\ word g2 v) /\
    (LL1 (in_sequence top g1 g2) <-> LL1_wrt (followed_by g1 g2) g1 /\ LL1 g2).
Proof.
  intros top g1 g2 W1 W2 A. split; [exact (seq_wf top g1 g2 W1 W2 A)|]. split; [exact (seq_word top g1 g2 W1 W2 A)|].
  exact (seq_LL1 top g1 g2 W1 W2 A).
Qed.
Print Assumptions C104_sequence.

Lemma nullable_defined g n : nullable g [NT n] -> defined g n.
Proof. intros H. apply nullable_nt in H. destruct H as (s & Hs & _). eapply alt_def, Hs. Qed.
Lemma choice_exact top g1 g2 : wf_grammar g1 -> wf_grammar g2 -> apart top g1 g2 ->
  follow_exact g1 -> follow_exact g2 -> follow_exact (choice top g1 g2).
Proof.
  intros W1 W2 A E1 E2 n x Hn. destruct (choice_follow top g1 g2 W1 W2 A) as (F1 & F2 & Ft).
  destruct (choice_code top g1 g2 W1 W2 A) as (C1 & C2 & Ct). set (tc := [[SNonTerminal (start g1)]; [SNonTerminal (start g2)]]) in *.
  pose proof (nullable_defined _ _ Hn) as D. apply (com_defined top g1 g2 tc) in D. unfold choice in *. fold tc in Hn |- *.
  destruct D as [->|[D|D]].
  - rewrite Ft, Ct. tauto.
  - rewrite (F1 _ x D), (C1 _ x D). apply E1. apply (com_null1 top g1 g2 tc W1 A) in Hn; [exact Hn|].
    intros m [Em|[]]. injection Em as <-. exact D.
  - rewrite (F2 _ x D), (C2 _ x D). apply E2. apply (com_null2 top g1 g2 tc W2 A) in Hn; [exact Hn|].
    intros m [Em|[]]. injection Em as <-. exact D.
Qed.
Lemma seq_exact top g1 g2 : wf_grammar g1 -> wf_grammar g2 -> apart top g1 g2 ->
  follow_exact g1 -> follow_exact g2 -> follow_exact (in_sequence top g1 g2).
Proof.
  intros W1 W2 A E1 E2 n x Hn. destruct (seq_follow top g1 g2 W1 W2 A) as (F1 & F2 & Ft).
  destruct (seq_code top g1 g2 W1 W2 A) as (C1 & C2 & Ct). set (ts := [[SNonTerminal (start g1); SNonTerminal (start g2)]]) in *.
  pose proof (nullable_defined _ _ Hn) as D. apply (com_defined top g1 g2 ts) in D. unfold in_sequence in *. fold ts in Hn |- *.
  destruct D as [->|[D|D]].
  - rewrite Ft, Ct. tauto.
  - rewrite (F1 _ x D), (C1 _ x D). assert (N1 : nullable g1 [NT n]).
    { apply (com_null1 top g1 g2 ts W1 A) in Hn; [exact Hn|]. intros m [Em|[]]. injection Em as <-. exact D. }
    destruct x as [c|]; cbn [code_by followed_by]; rewrite ?(E1 n _ N1); tauto.
  - rewrite (F2 _ x D), (C2 _ x D). apply E2. apply (com_null2 top g1 g2 ts W2 A) in Hn; [exact Hn|].
    intros m [Em|[]]. injection Em as <-. exact D.
Qed.
Lemma exact_parser order g : wf_grammar g -> LL1 g -> follow_exact g ->
  exists tbl names, (forall fuel, 256 * length g + 1 <= fuel -> FromGrammar_order order fuel g = Ok (tbl, names)) /\
    forall m src text, delivers src text -> ~ In NUL text ->
      ((exists fuel t, parses_to fuel tbl (Some m) src t) <-> word g text).
Proof.
  intros W L E. destruct (C28_complete order g W L E) as (tbl & names & F & P). exists tbl, names. split; [exact F|].
  intros m src text Hd Nn. split; [|apply P, Hd]. intros (fuel & t & Hp).
  eapply C27_sound; [exact W|apply (ll1_first _ _ L)|apply (F _ (le_n _))|exact Hd|exact Nn|exact Hp].
Qed.

(** If FromGrammar handles both grammars, it handles the combination, and the
    parser it makes accepts what it should. *)
Theorem C104_parsers :
  forall order top g1 g2, wf_grammar g1 -> wf_grammar g2 -> apart top g1 g2 -> follow_exact g1 -> follow_exact g2 ->
    (LL1 g1 -> LL1 g2 -> (forall c, first g1 [NT (start g1)] c -> ~ first g2 [NT (start g2)] c) ->
     ~ (nullable g1 [NT (start g1)] /\ nullable g2 [NT (start g2)]) ->
       exists fuel0 tbl names, FromGrammar_order order fuel0 (choice top g1 g2) = Ok (tbl, names) /\
         forall m src text, delivers src text -> ~ In NUL text ->
           ((exists fuel t, parses_to fuel tbl (Some m) src t) <-> word g1 text \/ word g2 text)) /\
    (LL1_wrt (followed_by g1 g2) g1 -> LL1 g2 ->
       exists fuel0 tbl names, FromGrammar_order order fuel0 (in_sequence top g1 g2) = Ok (tbl, names) /\
         forall m src text, delivers src text -> ~ In NUL text ->
           ((exists fuel t, parses_to fuel tbl (Some m) src t) <-> exists u v, text = u ++ v /\ word g1 u /\ word g2 v)).
Proof.
  intros order top g1 g2 W1 W2 A E1 E2. split.
  - intros L1 L2 Df Dn. destruct (C104_choice top g1 g2 W1 W2 A) as (W & Wd & L).
    destruct (exact_parser order _ W (proj2 L ltac:(auto)) (choice_exact top g1 g2 W1 W2 A E1 E2)) as (tbl & names & F & P).
    exists (256 * length (choice top g1 g2) + 1), tbl, names. split; [apply F, le_n|].
    intros m src text Hd Nn. rewrite (P m src text Hd Nn). apply Wd.
  - intros L1 L2. destruct (C104_sequence top g1 g2 W1 W2 A) as (W & Wd & L).
    destruct (exact_parser order _ W (proj2 L ltac:(auto)) (seq_exact top g1 g2 W1 W2 A E1 E2)) as (tbl & names & F & P).
    exists (256 * length (in_sequence top g1 g2) + 1), tbl, names. split; [apply F, le_n|].
    intros m src text Hd Nn. rewrite (P m src text Hd Nn). apply Wd.
Qed.
Print Assumptions C104_parsers.

(** P ::= "(" P ")" | "x" *)
Definition parens : grammar := [ru "P" [[tm "("; nt "P"; tm ")"]; [tm "x"]]].
Example C104_case :
  wf_grammar demo /\ wf_grammar parens /\ apart (s2b "T") demo parens /\ follow_exact demo /\ follow_exact parens /\
  (LL1 demo /\ LL1 parens /\ (forall c, first demo [NT (start demo)] c -> ~ first parens [NT (start parens)] c) /\
   ~ (nullable demo [NT (start demo)] /\ nullable parens [NT (start parens)])) /\
  (LL1_wrt (followed_by demo parens) demo /\ LL1 parens) /\
  (exists t, parses_to 100 (fst (gen_of (in_sequence (s2b "T") demo parens))) (Some []) (SrcString (s2b "abb((x))")) t) /\
  (exists t, parses_to 100 (fst (gen_of (choice (s2b "T") demo parens))) (Some []) (SrcString (s2b "((x))")) t).
Proof.
  assert (W : wf_grammar parens) by (apply wfb_spec; vm_compute; reflexivity).
  assert (A : apart (s2b "T") demo parens) by (apply nodupb_spec; vm_compute; reflexivity).
  assert (P : passes (choice (s2b "T") demo parens) (auto_cert (choice (s2b "T") demo parens)) = true) by (vm_compute; reflexivity).
  assert (P' : passes (in_sequence (s2b "T") demo parens) (auto_cert (in_sequence (s2b "T") demo parens)) = true) by (vm_compute; reflexivity).
  split; [exact demo_wf|]. split; [exact W|]. split; [exact A|].
  split; [intros n x _; apply C23_textbook; [discriminate|apply C28_case|apply C28_case]|].
  split.
  { intros n x H. exfalso. apply nullable_nt in H. destruct H as (s & (r & [<-|[]] & _ & Hs) & H). cbn in Hs.
    destruct Hs as [<-|[<-|[]]]; exact (nullable_ch parens _ _ H). }
  split.
  { apply (C104_choice _ _ _ demo_wf W A). apply rules_LL1; [discriminate|]. apply (dg_ll1 _ (proj1 (passes_ok _ _ P))). }
  split.
  { apply (C104_sequence _ _ _ demo_wf W A). apply rules_LL1; [discriminate|]. apply (dg_ll1 _ (proj1 (passes_ok _ _ P'))). }
  split; eexists; eexists; vm_compute; reflexivity.
Qed.
