(** * TGTrees: parse trees of LL(1) grammars and the trees of their parsers. *)
From Verif Require Import Base ByteSet Ast Cst Parser TableGen Spec_Parse Spec_Tree Spec_Grammar Spec_Table
  Spec_ParseTree ByteSetProofs GrammarProofs ParserProofs TreeProofs ParseApi ParseApi2
  TGFirsts TGFollows TGTable TGMain TGCells TGClosed TGParse.

Scheme ptree_ind2 := Induction for ptree Sort Prop
with ptrees_ind2 := Induction for ptrees Sort Prop.
Combined Scheme ptree_both from ptree_ind2, ptrees_ind2.

Lemma ptrees_app g src s1 p t1 m s2 t2 q :
  ptrees g src s1 p t1 m -> ptrees g src s2 m t2 q -> ptrees g src (s1 ++ s2) p (t1 ++ t2) q.
Proof. induction 1; intros H'; simpl; [exact H'|]. econstructor; [eassumption|auto]. Qed.

Lemma ptrees_length g src s p ts q : ptrees g src s p ts q -> length ts = length s.
Proof. induction 1; simpl; congruence. Qed.

Lemma slice_eq_bound src p t : p <= length src -> slice_nat src p (p + length t) = t -> p + length t <= length src.
Proof.
  intros Hp E. apply (f_equal (@length ascii)) in E. unfold slice_nat in E.
  rewrite firstn_length, skipn_length in E. lia.
Qed.

Lemma ptree_facts_both g src :
  (forall x p t q, ptree g src x p t q ->
     p <= q /\ n_pos t = Z.of_nat p /\ n_end t = Z.of_nat q /\ (p <= length src -> q <= length src) /\
     yields g (sym_form x) (chars (slice_nat src p q))) /\
  (forall s p ts q, ptrees g src s p ts q ->
     p <= q /\ adjacent (Z.of_nat p) ts (Z.of_nat q) /\ (p <= length src -> q <= length src) /\
     yields g (seq_form s) (chars (slice_nat src p q))).
Proof.
  apply (ptree_both g src
    (fun x p t q _ => p <= q /\ n_pos t = Z.of_nat p /\ n_end t = Z.of_nat q /\
       (p <= length src -> q <= length src) /\ yields g (sym_form x) (chars (slice_nat src p q)))
    (fun s p ts q _ => p <= q /\ adjacent (Z.of_nat p) ts (Z.of_nat q) /\
       (p <= length src -> q <= length src) /\ yields g (seq_form s) (chars (slice_nat src p q)))).
  - intros t p Ht E. rewrite text_of_nat in E. split; [lia|]. split; [reflexivity|]. split; [reflexivity|].
    split; [intros Hp; apply slice_eq_bound; assumption|]. rewrite E. constructor.
  - intros p. split; [lia|]. split; [reflexivity|]. split; [reflexivity|]. split; [auto|].
    rewrite slice_empty. constructor.
  - intros i n s p childs q Hi Ha _ (H1 & _ & H3 & H2). split; [exact H1|].
    split; [reflexivity|]. split; [reflexivity|]. split; [exact H3|].
    eapply yields_trans; [apply yields_alt, Ha|exact H2].
  - intros p. split; [lia|]. split; [reflexivity|]. split; [auto|]. rewrite slice_empty. constructor.
  - intros x s p t m ts q _ (H1 & P1 & P2 & B1 & H2) _ (H3 & P3 & B2 & H4). split; [lia|].
    split; [simpl; rewrite P2; auto|]. split; [auto|].
    rewrite (slice_split src p m q) by assumption. unfold chars. rewrite map_app.
    apply (yields_app g (sym_form x) (seq_form s)); assumption.
Qed.

Lemma parse_tree_word g src t : g <> [] -> parse_tree g src t -> word g src.
Proof.
  intros Hg H. split; [exact Hg|]. destruct (proj1 (ptree_facts_both g src) _ _ _ _ H) as (_ & _ & _ & _ & Y).
  unfold slice_nat in Y. rewrite Nat.sub_0_r in Y. simpl skipn in Y. rewrite firstn_all in Y. exact Y.
Qed.

Lemma slice_cons src p q : p < q -> q <= length src ->
  exists w, slice_nat src p q = byte_at src p :: w.
Proof.
  intros H1 H2. unfold slice_nat, byte_at.
  assert (Hl : p < length src) by lia.
  replace (q - p) with (S (q - p - 1)) by lia.
  replace (nth p src NUL) with (nth 0 (skipn p src) NUL) by (rewrite nth_skipn, Nat.add_0_r; reflexivity).
  destruct (skipn p src) as [|c w] eqn:E.
  - apply (f_equal (@length ascii)) in E. rewrite skipn_length in E. simpl in E. lia.
  - simpl. eexists. reflexivity.
Qed.

Lemma ptrees_first g src s p ts q : ptrees g src s p ts q -> p < q -> p <= length src ->
  first g (seq_form s) (byte_at src p).
Proof.
  intros H Hq Hp. destruct (proj2 (ptree_facts_both g src) _ _ _ _ H) as (_ & _ & B & Y).
  destruct (slice_cons src p q Hq (B Hp)) as (w & E). rewrite E in Y. exists (chars w). exact Y.
Qed.
Lemma ptrees_nullable g src s p ts : ptrees g src s p ts p -> nullable g (seq_form s).
Proof.
  intros H. destruct (proj2 (ptree_facts_both g src) _ _ _ _ H) as (_ & _ & _ & Y).
  rewrite slice_empty in Y. exact Y.
Qed.

Lemma adjacent_fun p l q q' : adjacent p l q -> adjacent p l q' -> q = q'.
Proof.
  revert p. induction l as [|c l IH]; simpl; intros p H H'; [congruence|].
  destruct H as [_ H], H' as [_ H']. eapply IH; eassumption.
Qed.
Lemma collapse_pos t : n_pos (collapse t) = n_pos t /\ n_end (collapse t) = n_end t.
Proof. destruct t as [ty p q l]. simpl. destruct ((0 <=? ty) && (p =? q))%Z; auto. Qed.
Lemma collapse_adjacent p l q : adjacent p (map collapse l) q <-> adjacent p l q.
Proof.
  revert p. induction l as [|c l IH]; simpl; intros p; [tauto|].
  destruct (collapse_pos c) as [-> ->]. rewrite IH. tauto.
Qed.

Lemma app_inj_len {A} (a b c d : list A) : length a = length c -> a ++ b = c ++ d -> a = c /\ b = d.
Proof.
  revert c. induction a as [|x a IH]; intros [|y c] L E; simpl in *; try discriminate; [auto|].
  injection E as -> E. injection L as L. destruct (IH _ L E) as [-> ->]. auto.
Qed.
Lemma nth_error_bound {A} (l : list A) i x : nth_error l i = Some x -> i < length l.
Proof. intros H. apply nth_error_Some. congruence. Qed.

Lemma slice_prefix src p t w : slice_nat src p (p + length (t ++ w)) = t ++ w ->
  firstn (p + length t - p) (skipn p src) = t.
Proof.
  unfold slice_nat. replace (p + length (t ++ w) - p) with (length (t ++ w)) by lia.
  replace (p + length t - p) with (length t) by lia. intros H.
  apply (f_equal (firstn (length t))) in H. rewrite firstn_firstn, app_length in H.
  rewrite Nat.min_l in H by lia. rewrite H, firstn_app, firstn_all, Nat.sub_diag. apply app_nil_r.
Qed.

(** ** Every word has a parse tree *)

Definition wf_or_nothing (g : grammar) (s : sequence) : Prop :=
  s = [SNothing] \/ Forall (wf_symbol g) s.

Lemma gen_ptrees g src : wf_grammar g -> forall u w, gen g u w ->
  forall t s p, wf_or_nothing g s -> u = chars t ++ seq_form s ->
  slice_nat src p (p + length w) = w -> 
  exists w' ts, w = t ++ w' /\ ptrees g src s (p + length t) ts (p + length w).
Proof.
  intros W. induction 1 as [|c u w Hg IH|n s0 u w1 w2 Ha Hg1 IH1 Hg2 IH2]; intros t s p Hs E Hw.
  - destruct t; [|discriminate]. destruct s as [|x s].
    + exists [], []. split; [reflexivity|constructor].
    + destruct Hs as [Hs|Hs].
      * injection Hs as -> ->. exists [], [nothing_at (p + 0)]. split; [reflexivity|].
        eapply pts_cons; [apply pt_nothing|apply pts_nil].
      * exfalso. inversion Hs as [|? ? Hx Hs']; subst. destruct x as [m|[|c x]| |?]; simpl in *; try discriminate; try tauto; destruct Hx as [Hx _]; exact (Hx eq_refl).
  - assert (Hw' : slice_nat src (S p) (S p + length w) = w).
    { assert (Hb : length (slice_nat src p (p + length (c :: w))) = length (c :: w)) by (rewrite Hw; reflexivity).
      unfold slice_nat in *. rewrite firstn_length, skipn_length in Hb. simpl length in *.
      replace (S p + length w - S p) with (length w) by lia.
      replace (p + S (length w) - p) with (S (length w)) in Hw by lia.
      replace (S p) with (p + 1) by lia. rewrite <- skipn_skipn_add.
      destruct (skipn p src) as [|d r]; [discriminate|]. simpl in *. injection Hw as _ Hw. exact Hw. }
    destruct t as [|d t].
    + (* the byte starts a terminal *)
      destruct s as [|x s]; [discriminate|].
      destruct Hs as [Hs|Hs]; [injection Hs as -> ->; discriminate|].
      inversion Hs as [|? ? Hx Hs']; subst. destruct x as [m|[|d t]| |?]; simpl in E, Hx; try discriminate; try tauto; try (destruct Hx as [Hx _]; destruct (Hx eq_refl)).
      injection E as <- E.
      destruct (IH t s (S p) (or_intror Hs') E Hw') as (w' & ts & -> & Hts).
      exists (c :: t ++ w'), (literal_at (p + 0) (p + 0 + length (c :: t)) :: ts). split; [reflexivity|].
      rewrite app_length in *. simpl length in *.
      replace (p + S (length t + length w')) with (S p + (length t + length w')) in * by lia.
      apply (pts_cons g src (STerminal (c :: t)) s (p + 0) _ (p + 0 + length (c :: t))).
      * constructor; [discriminate|]. rewrite text_of_nat. unfold slice_nat in *.
        rewrite Nat.add_0_r. apply (slice_prefix src p (c :: t) w').
        exact Hw.
      * simpl length. replace (p + 0 + S (length t)) with (S p + length t) by lia.
        rewrite app_length. replace (p + S (length t + length w')) with (S p + (length t + length w')) by lia.
        exact Hts.
    + injection E as <- E. destruct (IH t s (S p) Hs E Hw') as (w' & ts & -> & Hts).
      exists w', ts. split; [reflexivity|]. simpl length.
      replace (p + S (length t)) with (S p + length t) by lia.
      replace (p + S (length (t ++ w'))) with (S p + length (t ++ w')) by lia. exact Hts.
  - destruct t as [|d t]; [|discriminate].
    destruct s as [|x s]; [discriminate|].
    destruct Hs as [Hs|Hs]; [injection Hs as -> ->; discriminate|].
    inversion Hs as [|? ? Hx Hs']; subst. destruct x as [m|[|d t]| |?]; simpl in E, Hx; try discriminate; try tauto; try (destruct Hx as [Hx _]; destruct (Hx eq_refl)).
    injection E as <- ->.
    assert (Hl : length (slice_nat src p (p + length (w1 ++ w2))) = length (w1 ++ w2)) by (rewrite Hw; reflexivity).
    assert (Hsp : slice_nat src p (p + length w1) = w1 /\ slice_nat src (p + length w1) (p + length w1 + length w2) = w2).
    { rewrite app_length, Nat.add_assoc in Hw.
      rewrite (slice_split src p (p + length w1)) in Hw by lia.
      apply app_inj_len in Hw; [exact Hw|].
      unfold slice_nat in *. rewrite firstn_length, skipn_length, app_length in *. lia. }
    destruct Hsp as [Hw1 Hw2].
    destruct (IH1 [] s0 p) as (w' & ts1 & E1 & H1).
    { destruct (wf_sequences _ W _ _ Ha) as [->|[_ X]]; [left; reflexivity|right; exact X]. }
    { reflexivity. } { exact Hw1. }
    destruct (IH2 [] s (p + length w1) (or_intror Hs') eq_refl Hw2) as (w'' & ts2 & E2 & H2).
    simpl in *. rewrite Nat.add_0_r in *.
    destruct (alternative_defined _ _ _ Ha) as (i & Hi).
    exists (w1 ++ w2), (mk (Z.of_nat i) p (p + length w1) ts1 :: ts2). split; [reflexivity|].
    rewrite app_length, Nat.add_assoc. econstructor; [econstructor; eassumption|exact H2].
Qed.

Lemma word_parse_tree g w : wf_grammar g -> word g w -> exists t, parse_tree g w t.
Proof.
  intros W [Hg Y]. apply yields_gen in Y.
  destruct (gen_ptrees g w W _ _ Y [] [SNonTerminal (start g)] 0) as (w' & ts & _ & H).
  - right. constructor; [apply start_defined, Hg|constructor].
  - reflexivity.
  - unfold slice_nat. rewrite Nat.sub_0_r. simpl. apply firstn_all.
  - simpl in H. inversion H as [|x s p t m ts' q H1 H2]; subst. inversion H2; subst. exists t. exact H1.
Qed.

(** ** Only one *)

Fixpoint nsize (t : node) : nat :=
  match t with Node _ _ _ l => S (fold_right (fun c k => nsize c + k) 0 l) end.
Definition nsizes (l : list node) : nat := fold_right (fun c k => nsize c + k) 0 l.
Lemma nsizes_app l l' : nsizes (l ++ l') = nsizes l + nsizes l'.
Proof. induction l; simpl; [reflexivity|]. unfold nsizes in *. simpl. rewrite IHl. lia. Qed.

Section LL1.
  Variable g : grammar.
  Variable F : bytes -> option ascii -> Prop.
  Hypothesis W : wf_grammar g.
  Hypothesis L : LL1_wrt F g.
  Hypothesis CF : closed_follow g F.
  Let Nd := wf_distinct _ W.
  Let D := ll1_first _ _ L.
  Variable src : bytes.

  (** A rule that derives nothing here does not start with the next byte. *)
  Lemma skipped_rule n a s p ts1 ts2 s' :
    sent g (NT n :: seq_form s) -> p <= length src -> alternative g n a ->
    ptrees g src a p ts1 p -> ptrees g src s p ts2 (length src) ->
    alternative g n s' -> p < length src -> ~ first g (seq_form s') (byte_at src p).
  Proof.
    intros Hs Hp Ha H1 H2 Ha' Hlt Hf.
    eapply (no_first_nt g F W L CF n (byte_at src p)).
    - eapply sent_reachable, Hs.
    - eapply (sent_behind g F CF); [exact Hs|]. simpl. eapply ptrees_first; eassumption.
    - apply nullable_nt. exists a. split; [exact Ha|]. eapply ptrees_nullable, H1.
    - apply first_nt. exists s'. auto.
  Qed.

  Lemma ll1_empty_same n s s' : alternative g n s -> alternative g n s' ->
    nullable g (seq_form s) -> nullable g (seq_form s') -> s = s'.
  Proof.
    intros H H' Hn Hn'. destruct (sequence_dec s s') as [|N]; [assumption|exfalso].
    destruct (alt_pair g n s s' Nd H H' N) as [P|P]; eapply (ll1_empty _ _ L); eassumption.
  Qed.

  Lemma same_alternative n a a' s p m m' c c' ts ts' :
    sent g (NT n :: seq_form s) -> p <= length src ->
    alternative g n a -> alternative g n a' ->
    ptrees g src a p c m -> ptrees g src a' p c' m' ->
    ptrees g src s m ts (length src) -> ptrees g src s m' ts' (length src) -> a = a'.
  Proof.
    intros Hs Hp Ha Ha' H1 H1' H2 H2'.
    destruct (proj2 (ptree_facts_both g src) _ _ _ _ H1) as (L1 & _ & B1 & _).
    destruct (proj2 (ptree_facts_both g src) _ _ _ _ H1') as (L1' & _ & B1' & _).
    specialize (B1 Hp). specialize (B1' Hp).
    destruct (Nat.eq_dec p m) as [<-|N], (Nat.eq_dec p m') as [<-|N'].
    - eapply ll1_empty_same; [exact Ha|exact Ha'| |]; eapply ptrees_nullable; eassumption.
    - exfalso. eapply (skipped_rule n a s p c ts a'); try eassumption; [lia|].
      eapply ptrees_first; [exact H1'|lia|lia].
    - exfalso. eapply (skipped_rule n a' s p c' ts' a); try eassumption; [lia|].
      eapply ptrees_first; [exact H1|lia|lia].
    - eapply (alternative_same g F W L n a a' (byte_at src p)); [exact Ha|exact Ha'| |];
        eapply ptrees_first; try eassumption; lia.
  Qed.

  Lemma ptrees_unique k : forall s p ts ts', nsizes ts <= k -> sent g (seq_form s) -> p <= length src ->
    ptrees g src s p ts (length src) -> ptrees g src s p ts' (length src) -> ts = ts'.
  Proof.
    induction k as [|k IH]; intros s p ts ts' Hk Hs Hp H H'.
    - inversion H as [|x s0 p0 t m ts0 q H1 H2]; subst; [inversion H'; reflexivity|].
      exfalso. destruct t. simpl in Hk. lia.
    - inversion H as [|x s0 p0 t m ts0 q H1 H2]; subst; [inversion H'; reflexivity|].
      inversion H' as [|x' s0' p0' t' m' ts0' q' H1' H2']; subst.
      inversion H1 as [v p1 Hv Ev|p1|i n a p1 c q1 Hi Ha Hc]; subst.
      + inversion H1'; subst. f_equal. eapply (IH s0); [| | |exact H2|exact H2'].
        * simpl in Hk. lia.
        * simpl in Hs. destruct Hs as (u & Y). exists (u ++ chars v). rewrite <- app_assoc. exact Y.
        * rewrite text_of_nat in Ev. apply slice_eq_bound; assumption.
      + inversion H1'; subst. f_equal. eapply (IH s0); [| | |exact H2|exact H2'].
        * simpl in Hk. lia.
        * exact Hs.
        * exact Hp.
      + inversion H1' as [| |i' n' a' p1' c' q1' Hi' Ha' Hc']; subst.
        cbn [seq_form flat_map sym_form app] in Hs.
        assert (Ei : i = i').
        { apply (NoDup_nth_error (heads g)); [exact Nd|eapply nth_error_bound; exact Hi|congruence]. }
        subst i'.
        assert (Ea : a = a') by (eapply (same_alternative n a a' s0 p m m'); eassumption). subst a'.
        assert (E : c ++ ts0 = c' ++ ts0').
        { eapply (IH (a ++ s0) p).
          - rewrite nsizes_app. simpl in Hk. unfold nsizes in *. lia.
          - unfold seq_form. rewrite flat_map_app. apply (sent_alt g n); assumption.
          - exact Hp.
          - eapply ptrees_app; eassumption.
          - eapply ptrees_app; eassumption. }
        apply app_inj_len in E; [|rewrite (ptrees_length _ _ _ _ _ _ Hc), (ptrees_length _ _ _ _ _ _ Hc'); reflexivity].
        destruct E as [<- <-].
        assert (m = m').
        { destruct (proj2 (ptree_facts_both g src) _ _ _ _ Hc) as (_ & A1 & _).
          destruct (proj2 (ptree_facts_both g src) _ _ _ _ Hc') as (_ & A2 & _).
          apply Nat2Z.inj. eapply adjacent_fun; eassumption. }
        subst m'. reflexivity.
  Qed.

  Lemma sent_start : sent g [NT (start g)].
  Proof. exists []. constructor. Qed.

  Lemma parse_tree_unique t t' : parse_tree g src t -> parse_tree g src t' -> t = t'.
  Proof.
    intros H H'. assert (E : [t] = [t']); [|congruence].
    eapply (ptrees_unique (nsizes [t]) [SNonTerminal (start g)] 0); [lia|exact sent_start|lia| |];
      (econstructor; [eassumption|constructor]).
  Qed.

  (** ** The parser's tree *)
  Variable tbl : table.
  Hypothesis T : table_spec g tbl.

  Lemma derives_all_app o1 p t1 m o2 t2 q :
    derives_all tbl src o1 p t1 m -> derives_all tbl src o2 m t2 q ->
    derives_all tbl src (o1 ++ o2) p (t1 ++ t2) q.
  Proof. induction 1; intros H'; simpl; [exact H'|]. econstructor; [eassumption|auto]. Qed.

  Lemma derives_all_length o p t q : derives_all tbl src o p t q -> length t = length o.
  Proof. induction 1; simpl; congruence. Qed.

  Lemma parsed_collapse k : forall s ops p ts Ts, nsizes Ts <= k ->
    sent g (seq_form s) -> p <= length src -> Forall (wf_symbol g) s -> operands g s ops ->
    ptrees g src s p Ts (length src) -> derives_all tbl src ops p ts (length src) -> ts = map collapse Ts.
  Proof.
    induction k as [|k IH]; intros s ops p ts Ts Hk Hs Hp Hw Ho H H'.
    - inversion H as [|x s0 p0 t m ts0 q H1 H2]; subst; [inversion Ho; subst; inversion H'; reflexivity|].
      exfalso. destruct t. simpl in Hk. lia.
    - inversion H as [|x s0 p0 t m ts0 q H1 H2]; subst; [inversion Ho; subst; inversion H'; reflexivity|].
      inversion Ho as [|x1 op l ops0 Hop Ho0]; subst. inversion Hw as [|? ? Hx Hw0]; subst.
      inversion H' as [|op' ops' p' t' m' ts0' q' H1' H2']; subst.
      inversion H1 as [v p1 Hv Ev|p1|i n a p1 c q1 Hi Ha Hc]; subst.
      + inversion Hop; subst. inversion H1'; subst; [|congruence]. simpl. f_equal.
        * eapply (IH s0 ops0 (p + length v)); try eassumption.
          -- simpl in Hk. lia.
          -- simpl in Hs. destruct Hs as (u & Y). exists (u ++ chars v). rewrite <- app_assoc. exact Y.
          -- rewrite text_of_nat in Ev. apply slice_eq_bound; assumption.
      + inversion Hop.
      + inversion Hop as [|n1 i1 Hi1]; subst. cbn [seq_form flat_map sym_form app] in Hs.
        assert (Ei : i = i1).
        { apply (NoDup_nth_error (heads g)); [exact Nd|eapply nth_error_bound; exact Hi|congruence]. }
        subst i1.
        destruct (proj2 (ptree_facts_both g src) _ _ _ _ Hc) as (L1 & A1 & B1 & _). specialize (B1 Hp).
        inversion H1' as [| |i0 ops1 p2 c' q2 Hn Hcell Hne Hd|i0 p2 Hn Hcell| |]; subst; try lia.
        * (* a cell with operands *)
          destruct (cell_alternative g tbl W T D _ _ _ _ Hi Hcell) as [(s' & Ha' & Hf' & Hops & _)|[E _]];
            [|congruence].
          assert (Hlt : p < length src).
          { apply byte_at_in. intros E. rewrite E in Hf'.
            eapply first_alt_nul; [apply wf_nulfree, W|exact Ha'|exact Hf']. }
          assert (Hm : p <> m).
          { intros <-. eapply (skipped_rule n a s0 p c ts0 s'); eassumption. }
          assert (Ea : a = s').
          { eapply (alternative_same g F W L n a s' (byte_at src p)); [exact Ha|exact Ha'| |exact Hf'].
            eapply ptrees_first; [exact Hc|lia|exact Hp]. }
          subst s'.
          assert (E : c' ++ ts0' = map collapse (c ++ ts0)).
          { eapply (IH (a ++ s0) (ops1 ++ ops0) p).
            - rewrite nsizes_app. simpl in Hk. unfold nsizes in *. lia.
            - unfold seq_form. rewrite flat_map_app. apply (sent_alt g n); assumption.
            - exact Hp.
            - apply Forall_app. split; [|exact Hw0]. eapply alternative_operands; eassumption.
            - apply Forall2_app; assumption.
            - eapply ptrees_app; eassumption.
            - eapply derives_all_app; eassumption. }
          rewrite map_app in E. apply app_inj_len in E.
          2:{ rewrite map_length, (ptrees_length _ _ _ _ _ _ Hc), (derives_all_length _ _ _ _ Hd).
              clear - Hops. induction Hops; simpl; congruence. }
          destruct E as [-> ->].
          assert (m' = m).
          { apply derives_all_adjacent in Hd. destruct Hd as [A2 _]. rewrite collapse_adjacent in A2.
            apply Nat2Z.inj. eapply adjacent_fun; eassumption. }
          subst m'. simpl. f_equal.
          destruct (Z.eqb_spec (Z.of_nat p) (Z.of_nat m)) as [Ez|_]; [lia|].
          rewrite Bool.andb_false_r. reflexivity.
        * (* an empty cell *)
          destruct (cell_alternative g tbl W T D _ _ _ _ Hi Hcell) as [(s' & _ & _ & _ & E)|(_ & _ & _ & Hno)];
            [congruence|].
          assert (Hm : m' = m).
          { destruct (Nat.eq_dec m' m) as [|N]; [assumption|exfalso]. apply (Hno a Ha).
            eapply ptrees_first; [exact Hc|lia|exact Hp]. }
          subst m. simpl. f_equal.
          -- rewrite Z.eqb_refl. destruct (Z.leb_spec 0 (Z.of_nat i)) as [_|]; [reflexivity|lia].
          -- eapply (IH s0 ops0); try eassumption; [simpl in Hk; lia|exact (sent_tail _ _ _ Hs)].
  Qed.

  Lemma parser_tree_collapse t T' : ~ In NUL src -> derives_text tbl src t -> parse_tree g src T' -> t = collapse T'.
  Proof.
    intros Hn (q & H & Hq) HT.
    destruct (proj1 (derives_derivation_both g tbl W T D src) _ _ _ _ H (SNonTerminal (start g)))
      as [_ H2]; [apply start_operand, W|apply start_defined, W|lia|].
    rewrite (byte_at_nulfree _ _ Hn H2 Hq) in H.
    assert (E : [t] = map collapse [T']); [|simpl in E; congruence].
    eapply (parsed_collapse (nsizes [T']) [SNonTerminal (start g)] [OpNonTerminal 0] 0);
      [lia|exact sent_start|lia| | | |].
    - constructor; [apply start_defined, W|constructor].
    - constructor; [apply start_operand, W|constructor].
    - econstructor; [exact HT|constructor].
    - econstructor; [exact H|constructor].
  Qed.
End LL1.
