(** * Reduce: proofs about grammars without unreachable rules. *)
From Verif Require Import Base Ast Cst Parser TableGen Spec_Parse Spec_Tree Spec_Grammar Spec_Table Spec_ParseTree Spec_Reorder Spec_Predict Spec_Reduce
  GrammarProofs ParserProofs TGFirsts TGTrees TGPredict TGExtend.

Section Reduce.
  Variables g g0 : grammar.
  Hypothesis Ne : g <> [].
  Hypothesis R : reduced g g0.

  Lemma red_in r : In r g0 <-> In r g /\ reachable g (r_head r).
  Proof.
    destruct R as (keep & -> & K). rewrite filter_In. split.
    - intros (Hr & E). split; [exact Hr|]. apply K; assumption.
    - intros (Hr & E). split; [exact Hr|]. apply K; assumption.
  Qed.
  Lemma red_start : start g0 = start g.
  Proof.
    destruct R as (keep & -> & K). destruct g as [|r l] eqn:E; [congruence|]. cbn.
    assert (X : keep r = true). { apply K; [left; reflexivity|]. apply reachable_start. }
    rewrite X. reflexivity.
  Qed.
  Lemma red_nonempty : g0 <> [].
  Proof.
    destruct R as (keep & -> & K). destruct g as [|r l] eqn:E; [congruence|]. cbn.
    assert (X : keep r = true). { apply K; [left; reflexivity|]. apply reachable_start. }
    rewrite X. discriminate.
  Qed.
  Lemma red_alt n s : alternative g0 n s <-> alternative g n s /\ reachable g n.
  Proof.
    split.
    - intros (r & Hr & <- & Hs). apply red_in in Hr. destruct Hr. split; [exists r; auto|assumption].
    - intros ((r & Hr & <- & Hs) & Hn). exists r. split; [apply red_in; auto|auto].
  Qed.
  Lemma red_defined n : defined g0 n <-> defined g n /\ reachable g n.
  Proof.
    unfold defined, heads. rewrite !in_map_iff. split.
    - intros (r & <- & Hr). apply red_in in Hr. destruct Hr. split; [exists r; auto|assumption].
    - intros ((r & <- & Hr) & Hn). exists r. split; [reflexivity|]. apply red_in. auto.
  Qed.

  (** Forms whose names can all be reached. *)
  Definition live (u : form) : Prop := forall n, In (NT n) u -> reachable g n.
  Lemma live_app u v : live (u ++ v) <-> live u /\ live v.
  Proof.
    unfold live. split.
    - intros H. split; intros n Hn; apply H, in_or_app; [left|right]; exact Hn.
    - intros (A & B) n Hn. apply in_app_or in Hn. destruct Hn; auto.
  Qed.
  Lemma live_alt n s : reachable g n -> alternative g n s -> live (seq_form s).
  Proof.
    intros Hn A m Hm. apply in_seq_form in Hm. apply in_split in Hm. destruct Hm as (a & b & ->).
    eapply reachable_alt; eassumption.
  Qed.
  Lemma live_start : live [NT (start g)].
  Proof. intros n [E|[]]. injection E as <-. apply reachable_start. Qed.
  Lemma red_yields u v : yields g0 u v -> yields g u v.
  Proof.
    induction 1 as [u|u v w [a n s b Ha] _ IH]; [constructor|].
    eapply ys_step; [apply y1, (proj1 (red_alt _ _)), Ha|exact IH].
  Qed.
  Lemma red_yields_back u v : yields g u v -> live u -> yields g0 u v /\ live v.
  Proof.
    induction 1 as [u|u v w [a n s b Ha] _ IH]; intros Hi; [split; [constructor|exact Hi]|].
    assert (Hi' := Hi). apply live_app in Hi'. destruct Hi' as (I1 & I2).
    assert (Hn : reachable g n) by (apply I2; left; reflexivity).
    destruct IH as (Y & I).
    { apply live_app. split; [exact I1|]. apply live_app. split; [eapply live_alt; eassumption|].
      intros m Hm. apply I2. right. exact Hm. }
    split; [|exact I]. eapply ys_step; [apply y1, red_alt; split; eassumption|exact Y].
  Qed.
  Lemma red_word w : word g0 w <-> word g w.
  Proof.
    unfold word. rewrite red_start. split; intros (N & Y).
    - split; [exact Ne|]. apply red_yields, Y.
    - split; [exact red_nonempty|]. apply (red_yields_back _ _ Y live_start).
  Qed.
  Lemma red_reachable n : reachable g0 n <-> reachable g n.
  Proof.
    unfold reachable. rewrite red_start. split; intros (a & b & Y); exists a, b; [apply red_yields, Y|].
    apply (red_yields_back _ _ Y live_start).
  Qed.
  Lemma red_follow n x : follow g0 n x <-> follow g n x.
  Proof.
    destruct x as [c|]; cbn [follow]; rewrite red_start; split.
    - intros (a & b & Y). exists a, b. apply red_yields, Y.
    - intros (a & b & Y). exists a, b. apply (red_yields_back _ _ Y live_start).
    - intros (a & Y). exists a. apply red_yields, Y.
    - intros (a & Y). exists a. apply (red_yields_back _ _ Y live_start).
  Qed.
  Lemma red_first u c : first g0 u c -> first g u c.
  Proof. intros (v & Y). exists v. apply red_yields, Y. Qed.
  Lemma red_two n s1 s2 : two_alternatives g0 n s1 s2 -> two_alternatives g n s1 s2.
  Proof. intros (r & l1 & l2 & l3 & Hr & A). exists r, l1, l2, l3. split; [apply red_in, Hr|exact A]. Qed.
  Lemma red_LL1 : LL1 g -> LL1 g0.
  Proof.
    intros [L1 L2 L3]. constructor.
    - intros n s1 s2 c T F1 F2. eapply (L1 n s1 s2 c); [apply red_two, T|apply red_first, F1|apply red_first, F2].
    - intros n s1 s2 T N1 N2. eapply (L2 n s1 s2); [apply red_two, T|apply red_yields, N1|apply red_yields, N2].
    - intros n s1 s2 c T F. apply red_two in T. apply red_follow in F. destruct (L3 _ _ _ _ T F) as (A & B).
      split; intros N Fi; [apply A|apply B]; try (apply red_yields, N); apply red_first, Fi.
  Qed.
  Lemma red_wf : wf_grammar g -> wf_grammar g0.
  Proof.
    intros [_ Nd S]. constructor; [exact red_nonempty| |].
    - destruct R as (keep & -> & _). unfold heads in *. clear - Nd. induction g as [|r l IH]; [constructor|]. cbn in *.
      inversion Nd as [|? ? N1 N2]; subst. destruct (keep r); [|apply IH, N2]. cbn. constructor; [|apply IH, N2].
      intros H. apply N1. apply in_map_iff in H. destruct H as (r' & E & H). apply filter_In in H. rewrite <- E. apply in_map, H.
    - intros n s A. apply red_alt in A. destruct A as (A & Hn). destruct (S _ _ A) as [->|(Ns & F)]; [left; reflexivity|right].
      split; [exact Ns|]. rewrite Forall_forall in *. intros x Hx. specialize (F x Hx). destruct x as [m|t| |str]; cbn in *; auto.
      apply red_defined. split; [exact F|]. apply in_split in Hx. destruct Hx as (a & b & ->). eapply reachable_alt; eassumption.
  Qed.

  (** ** Acceptance and predictions *)
  Lemma red_follow_code n x : follow_code g0 n x -> follow_code g n x.
  Proof.
    induction 1 as [_|A a B X b c Ha Hf|A a B x Ha _ IH|A a B X b x Ha Y _ IH].
    - rewrite red_start. apply fc_rule1, Ne.
    - eapply fc_rule2; [apply red_alt, Ha|]. apply red_first, Hf.
    - eapply fc_rule3; [apply red_alt, Ha|exact IH].
    - eapply fc_rule4; [apply red_alt, Ha|apply red_yields, Y|exact IH].
  Qed.
  Lemma red_late : late_empty g0 (follow_code g0) -> late_empty g (follow_code g).
  Proof.
    intros (n & s1 & s2 & b & H2 & Hn & Hf & Ho). exists n, s1, s2, b.
    split; [apply red_two, H2|]. split; [apply red_yields, Hn|]. split; [apply red_follow_code, Hf|].
    destruct Ho as [Ho|Ho]; [left; apply red_yields, Ho|right; apply red_first, Ho].
  Qed.
  Lemma red_selected b l ch : (forall s, In s l -> live (seq_form s)) -> selected g0 b l ch -> selected g b l ch.
  Proof.
    intros I. induction 1 as [|s l ch Hf _ IH|s l ch Hf _ IH]; [constructor| |].
    - apply sel_take; [apply red_first, Hf|]. apply IH. intros; apply I; right; assumption.
    - apply sel_skip; [|apply IH; intros; apply I; right; assumption].
      intros (v & Y). apply Hf. exists v. apply (red_yields_back _ _ Y). apply I. left. reflexivity.
  Qed.
  Lemma live_tail r s : In r g0 -> In s (r_tail r) -> live (seq_form s).
  Proof. intros Hr Hs. apply red_in in Hr. eapply live_alt; [apply Hr|]. exists r. split; [apply Hr|auto]. Qed.

  (** ** Trees *)
  Variables (names names0 : list (Z * bytes)) (src : bytes).
  Hypothesis N : numbering g names.
  Hypothesis N0 : numbering g0 names0.

  Definition live_sym (x : symbol) : Prop := match x with SNonTerminal n => reachable g n | _ => True end.
  Lemma live_syms n s : reachable g n -> alternative g n s -> Forall live_sym s.
  Proof.
    intros Hn A. apply Forall_forall. intros x Hx. destruct x as [m|t| |str]; cbn; auto.
    apply in_split in Hx. destruct Hx as (a & b & ->). eapply reachable_alt; eassumption.
  Qed.
  Lemma defined_nth h n : defined h n -> exists i, nth_error (heads h) i = Some n.
  Proof. apply In_nth_error. Qed.
  Lemma nth_defined h i n : nth_error (heads h) i = Some n -> defined h n.
  Proof. apply nth_error_In. Qed.

  Lemma red_tree_both :
    (forall x p t q, ptree g0 src x p t q -> exists t', ptree g src x p t' q /\ same_tree (fun n => n) names0 names t t') /\
    (forall s p ts q, ptrees g0 src s p ts q -> exists ts', ptrees g src s p ts' q /\ same_trees (fun n => n) names0 names ts ts').
  Proof.
    apply (ptree_both g0 src
      (fun x p t q _ => exists t', ptree g src x p t' q /\ same_tree (fun n => n) names0 names t t')
      (fun s p ts q _ => exists ts', ptrees g src s p ts' q /\ same_trees (fun n => n) names0 names ts ts')).
    - intros t p Nt E. eexists. split; [constructor; assumption|]. constructor; [left; split; [lia|reflexivity]|constructor].
    - intros p. eexists. split; [constructor|]. constructor; [left; split; [lia|reflexivity]|constructor].
    - intros i n s p childs q Hi A _ (ts & Hts & S). pose proof (nth_defined _ _ _ Hi) as D. apply red_defined in D.
      destruct (defined_nth _ _ (proj1 D)) as (j & Hj). exists (mk (Z.of_nat j) p q ts).
      split; [eapply pt_rule; [exact Hj|apply red_alt, A|exact Hts]|]. constructor; [|exact S]. right. exists n.
      split; [lia|]. split; [lia|]. rewrite N0, N. auto.
    - intros p. exists []. split; constructor.
    - intros x s p t m ts q _ (t' & H1 & S1) _ (ts' & H2 & S2). exists (t' :: ts'). split; econstructor; eassumption.
  Qed.
  Lemma red_tree_back_both :
    (forall x p t q, ptree g src x p t q -> live_sym x -> exists t', ptree g0 src x p t' q /\ same_tree (fun n => n) names0 names t' t) /\
    (forall s p ts q, ptrees g src s p ts q -> Forall live_sym s ->
       exists ts', ptrees g0 src s p ts' q /\ same_trees (fun n => n) names0 names ts' ts).
  Proof.
    apply (ptree_both g src
      (fun x p t q _ => live_sym x -> exists t', ptree g0 src x p t' q /\ same_tree (fun n => n) names0 names t' t)
      (fun s p ts q _ => Forall live_sym s -> exists ts', ptrees g0 src s p ts' q /\ same_trees (fun n => n) names0 names ts' ts)).
    - intros t p Nt E _. eexists. split; [constructor; assumption|]. constructor; [left; split; [lia|reflexivity]|constructor].
    - intros p _. eexists. split; [constructor|]. constructor; [left; split; [lia|reflexivity]|constructor].
    - intros i n s p childs q Hi A _ IH L. cbn in L. destruct (IH (live_syms _ _ L A)) as (ts & Hts & S).
      destruct (defined_nth g0 n) as (j & Hj).
      { apply red_defined. split; [eapply nth_defined, Hi|exact L]. }
      exists (mk (Z.of_nat j) p q ts).
      split; [eapply pt_rule; [exact Hj|apply red_alt; split; eassumption|exact Hts]|]. constructor; [|exact S]. right. exists n.
      split; [lia|]. split; [lia|]. rewrite N0, N. auto.
    - intros p _. exists []. split; constructor.
    - intros x s p t m ts q _ IH1 _ IH2 F. inversion F; subst. destruct IH1 as (t' & H1' & S1); [assumption|].
      destruct IH2 as (ts' & H2' & S2); [assumption|]. exists (t' :: ts'). split; econstructor; eassumption.
  Qed.
  Lemma red_parse_trees :
    (forall t, parse_tree g0 src t -> exists t', parse_tree g src t' /\ same_tree (fun n => n) names0 names t t') /\
    (forall t', parse_tree g src t' -> exists t, parse_tree g0 src t /\ same_tree (fun n => n) names0 names t t').
  Proof.
    unfold parse_tree. rewrite red_start. split; intros t H.
    - apply (proj1 red_tree_both), H.
    - apply (proj1 red_tree_back_both); [exact H|apply reachable_start].
  Qed.

  Lemma nth_head h i r : nth_error h i = Some r -> nth_error (heads h) i = Some (r_head r).
  Proof. intros H. unfold heads. erewrite map_nth_error; [reflexivity|exact H]. Qed.
  Lemma red_row i r : nth_error g0 i = Some r -> exists j, nth_error g j = Some r /\
    forall p q l l', same_trees (fun n => n) names0 names l l' ->
      same_tree (fun n => n) names0 names (mk (Z.of_nat i) p q l) (mk (Z.of_nat j) p q l').
  Proof.
    intros Hi. destruct (In_nth_error g r) as (j & Hj); [apply red_in; eapply nth_error_In, Hi|]. exists j. split; [exact Hj|].
    intros p q l l' S. constructor; [|exact S]. right. exists (r_head r). split; [lia|]. split; [lia|]. rewrite N0, N.
    split; apply nth_head; assumption.
  Qed.
  Lemma same_leaf ty p q : (ty < 0)%Z -> same_tree (fun n => n) names0 names (Node ty p q []) (Node ty p q []).
  Proof. intros H. constructor; [left; auto|constructor]. Qed.
  Lemma red_predicted_both :
    (forall x p t q, predicted g0 (follow_code g0) src x p t q ->
       exists t', predicted g (follow_code g) src x p t' q /\ same_tree (fun n => n) names0 names t t') /\
    (forall s p ts q, predicteds g0 (follow_code g0) src s p ts q ->
       exists ts', predicteds g (follow_code g) src s p ts' q /\ same_trees (fun n => n) names0 names ts ts').
  Proof.
    apply (predicted_both g0 (follow_code g0) src
      (fun x p t q _ => exists t', predicted g (follow_code g) src x p t' q /\ same_tree (fun n => n) names0 names t t')
      (fun s p ts q _ => exists ts', predicteds g (follow_code g) src s p ts' q /\ same_trees (fun n => n) names0 names ts ts')).
    - intros t p Ht Ho. eexists. split; [constructor; assumption|]. apply same_leaf. lia.
    - intros p. eexists. split; [constructor|]. constructor; [left; split; [lia|reflexivity]|].
      constructor; [apply same_leaf; lia|constructor].
    - intros i r ch p childs q Hr S Nn _ (ts & Hts & ST). destruct (red_row _ _ Hr) as (j & Hj & X).
      exists (mk (Z.of_nat j) p q ts). split; [|apply X, ST]. apply (pr_rule _ _ _ j r ch); [exact Hj| |exact Nn|exact Hts].
      apply red_selected; [|exact S]. intros s. apply live_tail. eapply nth_error_In, Hr.
    - intros i r p Hr S ((s & Hs & Hn) & Hf). destruct (red_row _ _ Hr) as (j & Hj & X).
      exists (mk (Z.of_nat j) p p [nothing_at p]). split; [|apply X; constructor; [apply same_leaf; lia|constructor]].
      apply (pr_empty _ _ _ j r); [exact Hj| |].
      + apply red_selected; [|exact S]. intros s'. apply live_tail. eapply nth_error_In, Hr.
      + split; [exists s; split; [exact Hs|apply red_yields, Hn]|apply red_follow_code, Hf].
    - intros p. exists []. split; constructor.
    - intros x s p t m ts q _ (t' & H1 & S1) _ (ts' & H2 & S2). exists (t' :: ts'). split; econstructor; eassumption.
  Qed.
End Reduce.

(** ** Finding the reachable rules *)
Definition mentions (r : rule) (n : bytes) : Prop := exists s, In s (r_tail r) /\ In (SNonTerminal n) s.
Definition mentionsb (r : rule) (n : bytes) : bool :=
  existsb (existsb (fun x => match x with SNonTerminal m => bytes_eqb m n | _ => false end)) (r_tail r).
Lemma mentionsb_spec r n : mentionsb r n = true <-> mentions r n.
Proof.
  unfold mentionsb, mentions. rewrite existsb_exists. split; intros (s & Hs & H); exists s; (split; [exact Hs|]).
  - apply existsb_exists in H. destruct H as (x & Hx & E). destruct x; try discriminate. apply bytes_eqb_eq in E. subst. exact Hx.
  - apply existsb_exists. exists (SNonTerminal n). split; [exact H|]. apply bytes_eqb_eq. reflexivity.
Qed.
Lemma find_live g : g <> [] -> forall k live rest, length rest = k ->
  (forall r, In r g <-> In r live \/ In r rest) -> (forall r, In r live -> reachable g (r_head r)) ->
  (exists r, In r live /\ r_head r = start g) ->
  exists live', (forall r, In r live' -> In r g /\ reachable g (r_head r)) /\ (exists r, In r live' /\ r_head r = start g) /\
    (forall r r', In r live' -> In r' g -> mentions r (r_head r') -> exists r'', In r'' live' /\ r_head r'' = r_head r').
Proof.
  intros Ne. induction k as [k IH] using lt_wf_ind. intros live rest Hk Sp Lv St.
  set (p := fun r' => existsb (fun r => mentionsb r (r_head r')) live).
  destruct (existsb p rest) eqn:E.
  - apply existsb_exists in E. destruct E as (r' & Hr' & E). apply existsb_exists in E. destruct E as (r & Hr & E).
    apply mentionsb_spec in E. destruct E as (s & Hs & Hn). apply in_split in Hr'. destruct Hr' as (a & b & ->).
    apply (IH (length (a ++ b))) with (live := r' :: live) (rest := a ++ b); [| reflexivity| | |].
    + rewrite <- Hk, !app_length. cbn. lia.
    + intros r0. rewrite Sp, !in_app_iff. cbn [In]. intuition auto.
    + intros r0 [<-|H]; [|apply Lv, H]. apply in_split in Hn. destruct Hn as (c & d & ->).
      eapply (reachable_alt g (r_head r)); [apply Lv, Hr|]. exists r. split; [apply Sp; left; exact Hr|]. split; [reflexivity|exact Hs].
    + destruct St as (r0 & H0 & E0). exists r0. split; [right; exact H0|exact E0].
  - exists live. split; [intros r Hr; split; [apply Sp; left; exact Hr|apply Lv, Hr]|]. split; [exact St|].
    intros r r' Hr Hr' M. apply Sp in Hr'. destruct Hr' as [Hr'|Hr']; [exists r'; auto|].
    assert (X : existsb p rest = true); [|congruence]. apply existsb_exists. exists r'. split; [exact Hr'|].
    apply existsb_exists. exists r. split; [exact Hr|]. apply mentionsb_spec, M.
Qed.
Lemma reduced_exists g : g <> [] -> NoDup (heads g) -> exists g0, reduced g g0.
Proof.
  intros Ne Nd. destruct g as [|r0 l] eqn:Eg; [congruence|]. rewrite <- Eg in *.
  destruct (find_live g Ne (length l) [r0] l eq_refl) as (lv & L1 & L2 & L3).
  - subst. intros r. cbn. tauto.
  - subst. intros r [<-|[]]. apply reachable_start.
  - subst. exists r0. cbn. auto.
  - exists (filter (fun r => existsb (fun r' => bytes_eqb (r_head r') (r_head r)) lv) g). exists (fun r => existsb (fun r' => bytes_eqb (r_head r') (r_head r)) lv).
    split; [reflexivity|]. intros r Hr. rewrite existsb_exists. split.
    + intros (r' & Hr' & E). apply bytes_eqb_eq in E. rewrite <- E. apply L1, Hr'.
    + intros (a & b & Y).
      assert (X : forall u v, yields g u v -> (forall n, In (NT n) u -> defined g n -> exists r', In r' lv /\ r_head r' = n) ->
        forall n, In (NT n) v -> defined g n -> exists r', In r' lv /\ r_head r' = n).
      { induction 1 as [u|u v w [a' n s b' Ha] _ IH]; intros Hu; [exact Hu|]. apply IH. intros m Hm Dm.
        apply in_app_or in Hm. destruct Hm as [Hm|Hm]; [apply Hu; [apply in_or_app; left; exact Hm|exact Dm]|].
        apply in_app_or in Hm. destruct Hm as [Hm|Hm]; [|apply Hu; [apply in_or_app; right; right; exact Hm|exact Dm]].
        destruct Ha as (ra & Hra & <- & Hs). destruct (Hu (r_head ra)) as (rb & Hrb & Eb).
        { apply in_or_app. right. left. reflexivity. } { apply in_map, Hra. }
        assert (rb = ra).
        { clear - Nd Hra Hrb Eb L1. apply L1 in Hrb. destruct Hrb as (Hrb & _). clear L1. unfold heads in Nd. revert Nd Hra Hrb Eb.
          induction g as [|r g' IH]; intros Nd Hra Hrb Eb; [destruct Hra|]. cbn in Nd. inversion Nd as [|? ? N1 N2]; subst.
          destruct Hra as [->|Hra], Hrb as [->|Hrb]; try reflexivity.
          - destruct N1. rewrite <- Eb. apply in_map, Hrb.
          - destruct N1. rewrite Eb. apply in_map, Hra.
          - apply IH; assumption. }
        subst rb. unfold defined, heads in Dm. apply in_map_iff in Dm. destruct Dm as (rm & <- & Hrm).
        apply (L3 ra rm Hrb Hrm). exists s. split; [exact Hs|]. apply in_seq_form, Hm. }
      destruct (X _ _ Y) with (n := r_head r) as (r' & Hr' & E).
      * intros n [En|[]] _. injection En as <-. exact L2.
      * apply in_or_app. right. left. reflexivity.
      * apply in_map, Hr.
      * exists r'. split; [exact Hr'|]. apply bytes_eqb_eq. exact E.
Qed.
