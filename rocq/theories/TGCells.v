(** * TGCells: the table returned by FromGrammar, cell by cell. *)
From Verif Require Import Base ByteSet Ast Cst Parser TableGen Spec_Parse Spec_Tree Spec_Grammar Spec_Table
  ByteSetProofs GrammarProofs ParserProofs ParseApi ParseApi2 TGFirsts TGFollows TGTable TGMain.

Lemma map_set_fresh {K V} (eqb : K -> K -> bool) k (v : V) m :
  map_get eqb k m = None -> map_set eqb k v m = m ++ [(k, v)].
Proof.
  induction m as [|[k1 v1] m IH]; simpl; [reflexivity|].
  destruct (eqb k k1); [discriminate|]. intros H. rewrite IH by exact H. reflexivity.
Qed.
Lemma map_get_notin {K V} (eqb : K -> K -> bool) (ok : forall a b, eqb a b = true <-> a = b) k (m : list (K * V)) :
  ~ In k (map fst m) <-> map_get eqb k m = None.
Proof.
  induction m as [|[k1 v1] m IH]; simpl; [tauto|].
  destruct (eqb k k1) eqn:E.
  - apply ok in E. subst. split; [intros H; destruct H; left; reflexivity|discriminate].
  - rewrite <- IH. split; [tauto|]. intros H [->|Hi]; [|auto].
    assert (eqb k k = true) by (apply ok; reflexivity). congruence.
Qed.
Lemma zeqb_ok a b : Z.eqb a b = true <-> a = b.
Proof. apply Z.eqb_eq. Qed.

Lemma makeTable_loop_spec g rm firsts follows m : forall k tbl out,
  map fst tbl = map Z.of_nat (seq 0 k) ->
  makeTable_loop g rm firsts follows (seq k m) tbl = Ok out ->
  map fst out = map Z.of_nat (seq 0 (k + m)) /\
  (forall i, i < k -> map_get Z.eqb (Z.of_nat i) out = map_get Z.eqb (Z.of_nat i) tbl) /\
  (forall i, k <= i < k + m -> exists r, map_get Z.eqb (Z.of_nat i) out = Some r /\
      makeTableRow g rm firsts follows i = Ok r).
Proof.
  induction m as [|m IH]; intros k tbl out Hk H; cbn [seq makeTable_loop] in H.
  - injection H as <-. rewrite Nat.add_0_r. split; [exact Hk|]. split; [reflexivity|]. intros; lia.
  - destruct (makeTableRow g rm firsts follows k) as [r| | |] eqn:Er; try discriminate.
    cbn [gobind] in H.
    assert (Fr : map_get Z.eqb (Z.of_nat k) tbl = None).
    { apply (map_get_notin _ zeqb_ok). rewrite Hk. intros Hin. apply in_map_iff in Hin.
      destruct Hin as (x & E & Hx). apply in_seq in Hx. lia. }
    assert (Hk' : map fst (map_set Z.eqb (Z.of_nat k) r tbl) = map Z.of_nat (seq 0 (S k))).
    { rewrite map_set_fresh by exact Fr. rewrite map_app, Hk, seq_S, map_app. reflexivity. }
    destruct (IH _ _ _ Hk' H) as (I1 & I2 & I3).
    split; [rewrite I1; f_equal; f_equal; lia|]. split.
    + intros i Hi. rewrite I2 by lia. rewrite map_get_set by apply zeqb_ok.
      destruct (Z.eqb_spec (Z.of_nat i) (Z.of_nat k)); [lia|reflexivity].
    + intros i Hi. destruct (Nat.eq_dec i k) as [->|N]; [|apply I3; lia].
      exists r. split; [|exact Er]. rewrite I2 by lia. rewrite map_get_set by apply zeqb_ok.
      rewrite Z.eqb_refl. reflexivity.
Qed.

Lemma makeTable_loop_err g rm firsts follows idxs : forall tbl,
  (forall i, In i idxs -> (exists r, makeTableRow g rm firsts follows i = Ok r) \/
                         makeTableRow g rm firsts follows i = Err EConflict) ->
  (exists out, makeTable_loop g rm firsts follows idxs tbl = Ok out /\
     forall i, In i idxs -> exists r, makeTableRow g rm firsts follows i = Ok r) \/
  (makeTable_loop g rm firsts follows idxs tbl = Err EConflict /\
   exists i, In i idxs /\ makeTableRow g rm firsts follows i = Err EConflict).
Proof.
  induction idxs as [|i idxs IH]; intros tbl H; cbn [makeTable_loop].
  - left. eexists. split; [reflexivity|]. intros i [].
  - destruct (H i (or_introl eq_refl)) as [(r & Hr)|Hr].
    + rewrite Hr. cbn [gobind].
      destruct (IH (map_set Z.eqb (Z.of_nat i) r tbl)) as [(out & Ho & Hall)|(Ho & j & Hj & Ej)].
      * intros j Hj. apply H. right. exact Hj.
      * left. exists out. split; [exact Ho|]. intros j [<-|Hj]; [eauto|auto].
      * right. split; [exact Ho|]. exists j. split; [right; exact Hj|exact Ej].
    + right. rewrite Hr. split; [reflexivity|]. exists i. split; [left; reflexivity|exact Hr].
Qed.

(** What stands behind a successful call. *)
Record generated (g : grammar) (tbl : table) (firsts follows : list ByteSet) : Prop := {
  gn_wf1 : all_wf firsts;
  gn_len1 : length firsts = length g;
  gn_wf2 : all_wf follows;
  gn_len2 : length follows = length g;
  gn_keys : map fst tbl = map Z.of_nat (seq 0 (length g));
  gn_rows : forall i r, nth_error g i = Some r ->
    exists rw fol, map_get Z.eqb (Z.of_nat i) tbl = Some rw /\ nth_error follows i = Some fol /\
      (forall b, row_get b rw = cell_of g firsts fol (r_tail r) b) /\
      ~ clash g firsts fol (r_tail r) /\
      (forall s b, In s (r_tail r) -> takes g firsts b s = true -> Forall (opable g) s) }.

Lemma findFollows_facts g fuel firsts follows :
  all_wf firsts ->
  findFollows g (enumerate (heads g)) fuel firsts (repeat (bs_new []) (length g)) = Ok follows ->
  all_wf follows /\ length follows = length g.
Proof.
  intros Wf Ho. unfold findFollows in Ho.
  destruct (index (repeat (bs_new []) (length g)) 0) as [f0| | |] eqn:E0; try discriminate.
  cbn [gobind] in Ho.
  assert (HP2 : follow_inv g firsts (fun _ _ => True)) by (intros ? ? ? ? ? ? ? ?; auto).
  apply index_ok, nth_error_In, repeat_spec in E0. subst f0.
  apply (follows_loop_spec g firsts Wf _ _ _ _ HP2) in Ho;
    [|apply upd_forall; [apply repeat_wf|apply add_wf, new_wf]].
  destruct Ho as (Wo & Lo & _). rewrite upd_length, repeat_length in Lo. auto.
Qed.

Lemma findFirsts_facts g fuel firsts :
  findFirsts g (enumerate (heads g)) fuel (repeat (bs_new []) (length g)) = Ok firsts ->
  all_wf firsts /\ length firsts = length g.
Proof.
  intros Hf. assert (HP : first_inv g (fun _ _ => True)) by (intros ? ? ? ? ? ? ? ? ?; exact I).
  destruct (findFirsts_spec g _ _ _ _ HP (repeat_wf _) (repeat_length _ _) Hf) as (Wf & Lf & _ & _).
  auto.
Qed.

Lemma FromGrammar_generated order fuel g tbl names :
  FromGrammar_order order fuel g = Ok (tbl, names) ->
  exists firsts follows,
    findFirsts g (enumerate (heads g)) fuel (repeat (bs_new []) (length g)) = Ok firsts /\
    findFollows g (enumerate (heads g)) fuel firsts (repeat (bs_new []) (length g)) = Ok follows /\
    generated g tbl firsts follows /\ names = rowNames_of (order (enumerate (heads g))).
Proof.
  rewrite FromGrammar_unfold. intros H.
  destruct (findFirsts g (enumerate (heads g)) fuel (repeat (bs_new []) (length g))) as [firsts| | |] eqn:Ef;
    try discriminate. cbn [gobind] in H.
  destruct (findFollows g (enumerate (heads g)) fuel firsts (repeat (bs_new []) (length g))) as [follows| | |] eqn:Eo;
    try discriminate. cbn [gobind] in H.
  destruct (makeTable g (enumerate (heads g)) firsts follows) as [tbl'| | |] eqn:Et; try discriminate.
  cbn [gobind] in H. injection H as <- <-.
  exists firsts, follows. split; [reflexivity|]. split; [exact Eo|]. split; [|reflexivity].
  destruct (findFirsts_facts _ _ _ Ef) as [Wf Lf]. destruct (findFollows_facts _ _ _ _ Wf Eo) as [Wo Lo].
  unfold makeTable in Et. destruct (makeTable_loop_spec _ _ _ _ _ 0 [] _ eq_refl Et) as (T1 & _ & T3).
  split; [exact Wf|exact Lf|exact Wo|exact Lo|exact T1|].
  intros i r Hr. assert (Hi : i < length g) by (apply nth_error_Some; congruence).
  destruct (T3 i ltac:(lia)) as (rw & Hrw & Emk). unfold makeTableRow, index in Emk.
  rewrite Hr in Emk. cbn [gobind] in Emk.
  destruct (nth_error follows i) as [fol|] eqn:Efol; [|discriminate]. cbn [gobind] in Emk.
  pose proof (all_wf_nth _ _ _ Wo Efol) as Wfol.
  destruct (row_full g firsts Wf fol Wfol (r_tail r)) as [R1 _].
  destruct (R1 _ Emk) as (J1 & J2 & J3). exists rw, fol. auto.
Qed.

(** ** Operands *)

Lemma rm_get_nth g n i : rm_get (enumerate (heads g)) n = Some i -> nth_error (heads g) i = Some n.
Proof. intros H. apply enumerate_some in H. apply H. Qed.

Lemma ops_of_operands g s : Forall (opable g) s -> operands g s (ops_of g s).
Proof.
  induction 1 as [|x s Hx _ IH]; [constructor|]. unfold ops_of. cbn [flat_map].
  destruct x as [n|t| |str]; simpl in Hx; try destruct Hx.
  - simpl. destruct (rm_get (enumerate (heads g)) n) as [i|] eqn:E.
    + constructor; [constructor; apply rm_get_nth, E|exact IH].
    + apply enumerate_none in E. destruct (E Hx).
  - constructor; [constructor|exact IH].
Qed.

Lemma operands_fun g s ops ops' :
  NoDup (heads g) -> operands g s ops -> operands g s ops' -> ops = ops'.
Proof.
  intros N H. revert ops'. induction H as [|x op s ops Hx _ IH]; intros ops' H'; inversion H'; subst;
    [reflexivity|]. f_equal; [|apply IH; assumption].
  match goal with H : operand g x ?y |- _ = ?y => rename H into Hy end.
  destruct Hx as [t|n i Hi]; inversion Hy; subst; [reflexivity|].
  f_equal. f_equal. rewrite NoDup_nth_error in N. apply N; [apply nth_error_Some; congruence|congruence].
Qed.

(** ** Exactness *)

Lemma firstr_nul g u : terminals_nulfree g -> ~ In (Ch NUL) u -> ~ firstr g NUL u.
Proof.
  intros T Hu H. revert Hu.
  induction H as [rest|n s rest Ha _ IH|n rest Hn _ IH]; intros Hu.
  - apply Hu. left. reflexivity.
  - apply IH. eapply form_nulfree_alt; eassumption.
  - apply IH. intros Hin. apply Hu. right. exact Hin.
Qed.
Lemma first_alt_nul g n s : terminals_nulfree g -> alternative g n s -> ~ first g (seq_form s) NUL.
Proof.
  intros T Ha H. apply firstr_first in H. revert H. apply firstr_nul; [exact T|].
  eapply form_nulfree_alt; eassumption.
Qed.

Section Exact.
  Variable g : grammar.
  Variable firsts follows : list ByteSet.
  Hypothesis Nd : NoDup (heads g).
  Hypothesis Nf : terminals_nulfree g.
  Hypothesis FE : first_exact g firsts.
  Variable FC : bytes -> option ascii -> Prop.
  Hypothesis FO : forall i c, i < length g -> (set_at follows i c = true <-> FC (head_at g i) (ahead c)).

  Lemma has_null n s : alternative g n s ->
    (has g firsts s NUL = true <-> nullable g (seq_form s)).
  Proof.
    intros Ha. unfold has. rewrite (fe_forms _ _ FE) by (eapply form_nulfree_alt; eassumption).
    unfold first_mark. split; [intros [H _]; auto|]. intros H. split; [auto|congruence].
  Qed.
  Lemma takes_first n s b : alternative g n s ->
    (takes g firsts b s = true <-> first g (seq_form s) b).
  Proof.
    intros Ha. unfold takes. rewrite andb_true_iff, negb_true_iff, Ascii.eqb_neq.
    unfold has. rewrite (fe_forms _ _ FE) by (eapply form_nulfree_alt; eassumption).
    unfold first_mark. split; [intros [[_ H] Hb]; auto|]. intros H.
    assert (b <> NUL) by (intros ->; eapply first_alt_nul; eassumption).
    split; [split; [congruence|auto]|assumption].
  Qed.
  Lemma fol_follow i r fol b :
    nth_error g i = Some r -> nth_error follows i = Some fol ->
    (bs_contains fol b = true <-> FC (r_head r) (ahead b)).
  Proof.
    intros Hr Hf. rewrite <- (head_at_nth _ _ _ Hr).
    rewrite <- FO by (apply nth_error_Some; congruence).
    unfold set_at. rewrite Hf. reflexivity.
  Qed.

  Lemma filter_selected b l :
    (forall s, In s l -> exists n, alternative g n s) ->
    selected g b l (filter (takes g firsts b) l).
  Proof.
    induction l as [|s l IH]; intros H; simpl; [constructor|].
    destruct (H s (or_introl eq_refl)) as (n & Ha).
    pose proof (takes_first n s b Ha) as T.
    destruct (takes g firsts b s).
    - apply sel_take; [apply T; reflexivity|]. apply IH. intros s' Hs'. apply H. right. exact Hs'.
    - apply sel_skip; [intros X; apply T in X; discriminate|]. apply IH. intros s' Hs'. apply H. right. exact Hs'.
  Qed.

  Lemma rule_alts i r : nth_error g i = Some r -> forall s, In s (r_tail r) -> alternative g (r_head r) s.
  Proof. intros H s Hs. exists r. split; [eapply nth_error_In; exact H|auto]. Qed.

  Lemma exists_null i r : nth_error g i = Some r ->
    (existsb (fun s => has g firsts s NUL) (r_tail r) = true <->
     exists s, In s (r_tail r) /\ nullable g (seq_form s)).
  Proof.
    intros Hr. rewrite existsb_exists. split; intros (s & Hs & H); exists s; (split; [exact Hs|]);
      apply (has_null (r_head r) s); try assumption; eapply rule_alts; eassumption.
  Qed.

  Lemma cell_of_exact i r fol b :
    nth_error g i = Some r -> nth_error follows i = Some fol ->
    (forall s b, In s (r_tail r) -> takes g firsts b s = true -> Forall (opable g) s) ->
    match cell_of g firsts fol (r_tail r) b with
    | Some ops => exists chosen, selected g b (r_tail r) chosen /\ operands g (concat chosen) ops /\
                    (chosen = [] -> skippable g FC r b)
    | None => selected g b (r_tail r) [] /\ ~ skippable g FC r b
    end.
  Proof.
    intros Hr Hf Hop. unfold cell_of.
    pose proof (filter_selected b (r_tail r) (fun s Hs => ex_intro (fun n => alternative g n s) _ (rule_alts _ _ Hr s Hs))) as Sel.
    pose proof (exists_null _ _ Hr) as EN. pose proof (fol_follow _ _ _ b Hr Hf) as FF.
    destruct (filter (takes g firsts b) (r_tail r)) as [|s l] eqn:E.
    - destruct (existsb (fun s => has g firsts s NUL) (r_tail r)), (bs_contains fol b); cbn [andb].
      + exists []. split; [exact Sel|]. split; [constructor|]. intros _.
        split; [apply EN; reflexivity|apply FF; reflexivity].
      + split; [exact Sel|]. intros [_ H]. apply FF in H. discriminate.
      + split; [exact Sel|]. intros [H _]. apply EN in H. discriminate.
      + split; [exact Sel|]. intros [H _]. apply EN in H. discriminate.
    - exists (s :: l). split; [exact Sel|]. split; [|discriminate].
      assert (A : Forall (Forall (opable g)) (s :: l)).
      { apply Forall_forall. intros x Hx. rewrite <- E in Hx. apply filter_In in Hx.
        destruct Hx as [H1 H2]. eapply Hop; eassumption. }
      clear Sel E. revert A. generalize (s :: l) as ll. induction ll as [|x ll IH]; intros A; [constructor|].
      inversion A; subst. cbn [flat_map concat]. apply Forall2_app; [apply ops_of_operands; assumption|].
      apply IH. assumption.
  Qed.

  Lemma clash_exact i r fol :
    nth_error g i = Some r -> nth_error follows i = Some fol ->
    (clash g firsts fol (r_tail r) <->
     exists l1 s1 l2 s2 l3 b, r_tail r = l1 ++ s1 :: l2 ++ s2 :: l3 /\
       nullable g (seq_form s2) /\ FC (r_head r) (ahead b) /\
       (nullable g (seq_form s1) \/ first g (seq_form s1) b)).
  Proof.
    intros Hr Hf. pose proof (rule_alts _ _ Hr) as Alt. split.
    - intros (pre & s & post & t & E & Hn & Ht & Hc).
      assert (As : alternative g (r_head r) s).
      { apply Alt. rewrite E. apply in_or_app. right. left. reflexivity. }
      apply (has_null _ _ As) in Hn. apply (fol_follow _ _ _ t Hr Hf) in Ht.
      assert (X : exists s1, In s1 pre /\ (nullable g (seq_form s1) \/ first g (seq_form s1) t)).
      { unfold cell_of in Hc.
        assert (Ap : forall s, In s pre -> alternative g (r_head r) s).
        { intros s1 H1. apply Alt. rewrite E. apply in_or_app. left. exact H1. }
        destruct (filter (takes g firsts t) pre) as [|s1 l] eqn:Ef.
        - destruct (existsb (fun s => has g firsts s NUL) pre) eqn:Ex; [|destruct Hc; reflexivity].
          apply existsb_exists in Ex. destruct Ex as (s1 & H1 & H2). exists s1. split; [exact H1|].
          left. apply (has_null _ _ (Ap _ H1)), H2.
        - assert (Hin : In s1 (filter (takes g firsts t) pre)) by (rewrite Ef; left; reflexivity).
          apply filter_In in Hin. destruct Hin as [H1 H2]. exists s1. split; [exact H1|].
          right. apply (takes_first _ _ _ (Ap _ H1)), H2. }
      destruct X as (s1 & H1 & H2). apply in_split in H1. destruct H1 as (l1 & l2 & ->).
      exists l1, s1, l2, s, post, t. rewrite E, <- app_assoc. auto.
    - intros (l1 & s1 & l2 & s2 & l3 & b & E & Hn & Hb & H1).
      exists (l1 ++ s1 :: l2), s2, l3, b. split; [rewrite E, <- app_assoc; reflexivity|].
      assert (A1 : alternative g (r_head r) s1).
      { apply Alt. rewrite E. apply in_or_app. right. left. reflexivity. }
      assert (A2 : alternative g (r_head r) s2).
      { apply Alt. rewrite E. apply in_or_app. right. right. apply in_or_app. right. left. reflexivity. }
      apply (has_null _ _ A2) in Hn. apply (fol_follow _ _ _ b Hr Hf) in Hb.
      split; [exact Hn|]. split; [exact Hb|]. unfold cell_of.
      destruct (filter (takes g firsts b) (l1 ++ s1 :: l2)) as [|s l] eqn:Ef; [|discriminate].
      destruct H1 as [H1|H1].
      + apply (has_null _ _ A1) in H1.
        assert (existsb (fun s => has g firsts s NUL) (l1 ++ s1 :: l2) = true) as ->.
        { apply existsb_exists. exists s1. split; [apply in_or_app; right; left; reflexivity|exact H1]. }
        rewrite Hb. discriminate.
      + apply (takes_first _ _ _ A1) in H1.
        assert (Hin : In s1 (filter (takes g firsts b) (l1 ++ s1 :: l2))).
        { apply filter_In. split; [apply in_or_app; right; left; reflexivity|exact H1]. }
        rewrite Ef in Hin. destruct Hin.
  Qed.
End Exact.

(** ** Well-formed grammars *)

Lemma wf_nulfree g : wf_grammar g -> terminals_nulfree g.
Proof.
  intros W n s t Ha Hin. destruct (wf_sequences _ W _ _ Ha) as [->|[_ H]].
  - destruct Hin as [H|[]]. discriminate.
  - rewrite Forall_forall in H. apply (H _ Hin).
Qed.
Lemma wf_calm g : wf_grammar g -> grammar_calm (eq EConflict) g.
Proof.
  intros W n s Ha. destruct (wf_sequences _ W _ _ Ha) as [->|[Hne H]]; [left; reflexivity|right].
  split; [|congruence]. eapply Forall_impl; [|exact H]. intros [v|t| |str] Hx; simpl in *; try tauto.
Qed.
Lemma wf_fine g firsts n s :
  wf_grammar g -> all_wf firsts -> length firsts = length g -> alternative g n s ->
  seq_fine g firsts s.
Proof.
  intros W Wf Lf Ha. split.
  - assert (C : calm (eq EConflict) (sequenceFirsts (enumerate (heads g)) firsts s)).
    { apply sequenceFirsts_calm; [exact Lf|]. eapply wf_calm; eassumption. }
    assert (C2 : calm (fun _ => False) (sequenceFirsts (enumerate (heads g)) firsts s)).
    { apply sequenceFirsts_calm; [exact Lf|].
      destruct (wf_sequences _ W _ _ Ha) as [->|[Hne H]]; [left; reflexivity|right].
      split; [|congruence]. eapply Forall_impl; [|exact H]. intros [v|t| |str] Hx; simpl in *; try tauto. }
    destruct (sequenceFirsts (enumerate (heads g)) firsts s) as [sf|e|p|] eqn:E; simpl in *;
      [eauto|destruct C2|destruct C2|].
    exfalso. revert E. unfold sequenceFirsts. generalize (length s) as tot, (bs_new []) as res, true as fd.
    clear. induction s as [|x s IH]; intros tot res fd; cbn [sequenceFirsts_loop]; [discriminate|].
    destruct x as [v|t| |str].
    + destruct (rm_get _ v); [|discriminate]. unfold index.
      destruct (nth_error firsts n); cbn [gobind]; [|discriminate].
      destruct (bs_contains b EOS); cbn [negb]; [apply IH|discriminate].
    + destruct t; discriminate.
    + destruct (Nat.ltb 1 tot); discriminate.
    + discriminate.
  - destruct (wf_sequences _ W _ _ Ha) as [->|[_ H]].
    + right. intros b. unfold takes, has. simpl. destruct (Ascii.eqb b NUL); reflexivity.
    + left. eapply Forall_impl; [|exact H]. intros [v|t| |str] Hx; simpl in *; tauto.
Qed.

Lemma FromGrammar_wf order fuel g :
  wf_grammar g -> enough g <= fuel ->
  (FromGrammar_order order fuel g = Err EConflict /\ late_empty g (follow_code g)) \/
  (exists tbl names, FromGrammar_order order fuel g = Ok (tbl, names) /\ ~ late_empty g (follow_code g)).
Proof.
  intros W Hfuel. pose proof (wf_nulfree _ W) as Nf. pose proof (wf_distinct _ W) as Nd.
  assert (C : calm (eq EConflict) (FromGrammar_order order fuel g)).
  { apply FromGrammar_calm; [exact (wf_nonempty _ W)|exact (wf_calm _ W)|reflexivity]. }
  pose proof (FromGrammar_fuel order g fuel Hfuel) as NF.
  destruct (FromGrammar_order order fuel g) as [[tbl names]|e|p|] eqn:E; simpl in C;
    [right|left|destruct C|congruence].
  - exists tbl, names. split; [reflexivity|]. intros (n & s1 & s2 & b & (r & l1 & l2 & l3 & Hin & <- & Et) & H2 & Hb & H1).
    destruct (FromGrammar_generated _ _ _ _ _ E) as (firsts & follows & Ef & Eo & G & _).
    pose proof (findFirsts_exact _ _ _ Nd Nf Ef) as FE.
    pose proof (findFollows_exact _ _ _ _ Nd Nf FE Eo) as FO.
    apply In_nth_error in Hin. destruct Hin as (i & Hi).
    destruct (gn_rows _ _ _ _ G i r Hi) as (rw & fol & _ & Hfol & _ & Hcl & _).
    apply Hcl. apply (clash_exact g firsts follows Nf FE _ (fo_rules _ _ FO) i r fol Hi Hfol).
    exists l1, s1, l2, s2, l3, b. auto.
  - subst e. split; [reflexivity|]. rewrite FromGrammar_unfold in E.
    destruct (findFirsts g (enumerate (heads g)) fuel (repeat (bs_new []) (length g))) as [firsts|e1| |] eqn:Ef;
      try discriminate; cbn [gobind] in E.
    2:{ exfalso. assert (X : calm (fun _ => False) (findFirsts g (enumerate (heads g)) fuel (repeat (bs_new []) (length g)))).
        { apply findFirsts_calm; [|apply repeat_wf|apply repeat_length].
          intros n s Ha. destruct (wf_sequences _ W _ _ Ha) as [->|[Hne H]]; [left; reflexivity|right].
          split; [|congruence]. eapply Forall_impl; [|exact H]. intros [v|t| |str] Hx; simpl in *; try tauto. }
        rewrite Ef in X. exact X. }
    destruct (findFirsts_facts _ _ _ Ef) as [Wf Lf].
    destruct (findFollows g (enumerate (heads g)) fuel firsts (repeat (bs_new []) (length g))) as [follows|e1| |] eqn:Eo;
      try discriminate; cbn [gobind] in E.
    2:{ exfalso. assert (X : calm (fun _ => False) (findFollows g (enumerate (heads g)) fuel firsts (repeat (bs_new []) (length g)))).
        { apply findFollows_calm; [exact Wf|exact Lf| |exact (wf_nonempty _ W)].
          intros n s Ha. destruct (wf_sequences _ W _ _ Ha) as [->|[Hne H]]; [left; reflexivity|right].
          split; [|congruence]. eapply Forall_impl; [|exact H]. intros [v|t| |str] Hx; simpl in *; try tauto. }
        rewrite Eo in X. exact X. }
    destruct (findFollows_facts _ _ _ _ Wf Eo) as [Wo Lo].
    pose proof (findFirsts_exact _ _ _ Nd Nf Ef) as FE.
    pose proof (findFollows_exact _ _ _ _ Nd Nf FE Eo) as FO.
    assert (Rows : forall i, In i (seq 0 (length g)) ->
      (exists r, makeTableRow g (enumerate (heads g)) firsts follows i = Ok r) \/
      makeTableRow g (enumerate (heads g)) firsts follows i = Err EConflict /\ late_empty g (follow_code g)).
    { intros i Hi. apply in_seq in Hi. unfold makeTableRow, index.
      destruct (nth_error g i) as [r|] eqn:Hr; [|apply nth_error_None in Hr; lia]. cbn [gobind].
      destruct (nth_error follows i) as [fol|] eqn:Hfol; [|apply nth_error_None in Hfol; lia]. cbn [gobind].
      destruct (row_full g firsts Wf fol (all_wf_nth _ _ _ Wo Hfol) (r_tail r)) as [_ R2].
      destruct R2 as [Ho|[Ho Hc]].
      - apply Forall_forall. intros s Hs. eapply wf_fine; [exact W|exact Wf|exact Lf|].
        eapply rule_alts; eassumption.
      - left. exact Ho.
      - right. split; [exact Ho|]. apply (clash_exact g firsts follows Nf FE _ (fo_rules _ _ FO) i r fol Hr Hfol) in Hc.
        destruct Hc as (l1 & s1 & l2 & s2 & l3 & b & Et & Hc). exists (r_head r), s1, s2, b.
        split; [|exact Hc]. exists r, l1, l2, l3. split; [eapply nth_error_In; exact Hr|auto]. }
    unfold makeTable in E.
    destruct (makeTable_loop_err g (enumerate (heads g)) firsts follows (seq 0 (length g)) []) as [(out & Ho & _)|(Ho & i & Hi & Ei)].
    + intros i Hi. destruct (Rows i Hi) as [H|[H _]]; auto.
    + rewrite Ho in E. discriminate.
    + destruct (Rows i Hi) as [(r & H)|[_ H]]; [congruence|exact H].
Qed.
