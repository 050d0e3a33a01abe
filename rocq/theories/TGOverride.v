(** * TGOverride: the generator on grammars with repeated heads. *)
From Verif Require Import Base ByteSet Ast Cst Parser TableGen Spec_Parse Spec_Tree Spec_Grammar Spec_Table Spec_Override
  ByteSetProofs GrammarProofs ParserProofs TreeProofs ParseApi ParseApi2
  TGFirsts TGFollows TGTable TGMain TGCells TGClosed TGParse.

(** ** Rules of the two grammars *)
Lemma sa_length P g g' : set_aside P g g' -> length g' = length g.
Proof. induction 1; simpl; congruence. Qed.

Lemma sa_nth P g g' : set_aside P g g' -> forall i r, nth_error g i = Some r ->
  exists r', nth_error g' i = Some r' /\ r_tail r' = r_tail r /\
    ((r' = r /\ forall j, i < j -> nth_error (heads g) j <> Some (r_head r)) \/ P (r_head r')).
Proof.
  induction 1 as [|r0 g g' Hn _ IH|r0 n g g' Hi Hf _ IH]; intros i r Hr.
  - destruct i; discriminate.
  - destruct i as [|i]; cbn [nth_error] in *.
    + injection Hr as ->. exists r. split; [reflexivity|]. split; [reflexivity|]. left. split; [reflexivity|].
      intros [|j] Hj; [lia|]. cbn. intros E. apply Hn. eapply nth_error_In, E.
    + destruct (IH i r Hr) as (r' & H1 & H2 & H3). exists r'. split; [exact H1|]. split; [exact H2|].
      destruct H3 as [(-> & H3)|H3]; [left|right; exact H3]. split; [reflexivity|].
      intros [|j] Hj; [lia|]. cbn. apply H3. lia.
  - destruct i as [|i]; cbn [nth_error] in *.
    + injection Hr as ->. eexists. split; [reflexivity|]. split; [reflexivity|]. right. exact Hf.
    + destruct (IH i r Hr) as (r' & H1 & H2 & H3). exists r'. split; [exact H1|]. split; [exact H2|].
      destruct H3 as [(-> & H3)|H3]; [left|right; exact H3]. split; [reflexivity|].
      intros [|j] Hj; [lia|]. cbn. apply H3. lia.
Qed.

Lemma sa_nth_back P g g' i r' : set_aside P g g' -> nth_error g' i = Some r' ->
  exists r, nth_error g i = Some r /\ r_tail r' = r_tail r /\
    ((r' = r /\ forall j, i < j -> nth_error (heads g) j <> Some (r_head r)) \/ P (r_head r')).
Proof.
  intros S H. destruct (nth_error g i) as [r|] eqn:E.
  - destruct (sa_nth _ _ _ S i r E) as (r2 & H1 & H2). rewrite H in H1. injection H1 as <-. eauto.
  - apply nth_error_None in E. rewrite <- (sa_length _ _ _ S) in E. apply nth_error_None in E. congruence.
Qed.

Lemma heads_some g i n : nth_error (heads g) i = Some n <-> exists r, nth_error g i = Some r /\ r_head r = n.
Proof.
  split; [apply heads_nth|]. intros (r & H & <-). unfold heads. rewrite nth_error_map, H. reflexivity.
Qed.

(** ** Both grammars resolve references alike *)
Section Names.
  Variable g g' : grammar.
  Hypothesis S : last_definitions g g'.

  Lemma rm_agree v : mentioned g v -> rm_get (enumerate (heads g)) v = rm_get (enumerate (heads g')) v.
  Proof.
    destruct S as (A & N). intros M. unfold rm_get.
    destruct (map_get bytes_eqb v (enumerate (heads g'))) as [i|] eqn:E.
    - apply enumerate_some in E. destruct E as (E & _). apply heads_some in E. destruct E as (r' & Hr' & E).
      destruct (sa_nth_back _ _ _ _ _ A Hr') as (r & Hr & _ & [(-> & L)|F]).
      + apply enumerate_get. split; [apply heads_some; eauto|]. rewrite <- E. exact L.
      + rewrite E in F. contradiction.
    - destruct (map_get bytes_eqb v (enumerate (heads g))) as [i|] eqn:E2; [|reflexivity]. exfalso.
      apply enumerate_some in E2. destruct E2 as (E2 & L). pose proof E2 as E3.
      apply heads_some in E2. destruct E2 as (r & Hr & Er).
      apply enumerate_none in E. apply E.
      assert (X : forall P g g', set_aside P g g' -> forall i, nth_error (heads g) i = Some v ->
        (forall j, i < j -> nth_error (heads g) j <> Some v) -> In v (heads g')).
      { clear. intros P g g' A. induction A as [|r0 g g' Hn A IH|r0 n g g' Hi Hf A IH]; intros i Hi' L.
        - destruct i; discriminate.
        - destruct i as [|i]; cbn in *; [injection Hi' as ->; left; reflexivity|].
          right. apply (IH i Hi'). intros j Hj. apply (L (Datatypes.S j)). lia.
        - destruct i as [|i]; cbn in *.
          + injection Hi' as Ev. exfalso. rewrite Ev in Hi. apply In_nth_error in Hi. destruct Hi as (j & Hj).
            apply (L (Datatypes.S j)); [lia|exact Hj].
          + right. apply (IH i Hi'). intros j Hj. apply (L (Datatypes.S j)). lia. }
      exact (X _ _ _ A i E3 L).
  Qed.

  Definition agrees (s : sequence) : Prop := forall v, In (SNonTerminal v) s ->
    rm_get (enumerate (heads g)) v = rm_get (enumerate (heads g')) v.

  Lemma alt_agrees n s : alternative g n s -> agrees s.
  Proof. intros H v Hv. apply rm_agree. right. eauto. Qed.

  Lemma alt_to n s : alternative g n s -> exists n', alternative g' n' s.
  Proof.
    intros (r & Hr & <- & Hs). apply In_nth_error in Hr. destruct Hr as (i & Hr).
    destruct (sa_nth _ _ _ (proj1 S) i r Hr) as (r' & Hr' & E & _).
    exists (r_head r'), r'. split; [eapply nth_error_In, Hr'|]. split; [reflexivity|]. rewrite E. exact Hs.
  Qed.
  Lemma alt_from n' s : alternative g' n' s -> exists n, alternative g n s.
  Proof.
    intros (r' & Hr' & <- & Hs). apply In_nth_error in Hr'. destruct Hr' as (i & Hr').
    destruct (sa_nth_back _ _ _ _ _ (proj1 S) Hr') as (r & Hr & E & _).
    exists (r_head r), r. split; [eapply nth_error_In, Hr|]. split; [reflexivity|]. rewrite <- E. exact Hs.
  Qed.

  Lemma first_agree firsts v c : mentioned g v -> first_of g firsts v c = first_of g' firsts v c.
  Proof. intros M. unfold first_of. rewrite (rm_agree v M). reflexivity. Qed.
  Lemma form_agree firsts u c : (forall v, In (NT v) u -> mentioned g v) ->
    form_has (first_of g firsts) u c = form_has (first_of g' firsts) u c.
  Proof.
    induction u as [|[v|a] u IH]; intros M; cbn [form_has]; [reflexivity| |reflexivity].
    rewrite !first_agree by (apply M; left; reflexivity).
    rewrite IH by (intros w Hw; apply M; right; exact Hw). reflexivity.
  Qed.

  (** ** FIRST: the same computation *)
  Let rm := enumerate (heads g).
  Let rm' := enumerate (heads g').

  Lemma sequenceFirsts_same firsts s : agrees s -> sequenceFirsts rm firsts s = sequenceFirsts rm' firsts s.
  Proof.
    unfold sequenceFirsts. generalize (length s) as tot, (bs_new []) as res, true as fd.
    induction s as [|x s IH]; intros tot res fd A; cbn [sequenceFirsts_loop]; [reflexivity|].
    destruct x as [v|t| |str]; try reflexivity.
    unfold rm, rm' in *. rewrite (A v) by (left; reflexivity).
    destruct (rm_get (enumerate (heads g')) v) as [i|]; [|reflexivity].
    destruct (index firsts i) as [f| | |]; cbn [gobind]; try reflexivity.
    destruct (negb (bs_contains f EOS)); [reflexivity|]. apply IH. intros w Hw. apply A. right. exact Hw.
  Qed.
  Lemma substitutionFirsts_same firsts seqs : Forall agrees seqs ->
    substitutionFirsts rm firsts seqs = substitutionFirsts rm' firsts seqs.
  Proof.
    unfold substitutionFirsts. generalize (bs_new []) as res.
    induction seqs as [|s seqs IH]; intros res A; cbn [substitutionFirsts_loop]; [reflexivity|].
    inversion A; subst. rewrite sequenceFirsts_same by assumption.
    destruct (sequenceFirsts rm' firsts s); cbn [gobind]; try reflexivity. apply IH. assumption.
  Qed.
  Lemma rule_agrees i r : nth_error g i = Some r -> Forall agrees (r_tail r).
  Proof.
    intros H. apply Forall_forall. intros s Hs. apply (alt_agrees (r_head r)).
    exists r. split; [eapply nth_error_In, H|auto].
  Qed.
  Lemma ruleCount_same : ruleCount g = ruleCount g'.
  Proof. unfold ruleCount, collectRuleHeads. rewrite !map_length. symmetry. apply (sa_length _ _ _ (proj1 S)). Qed.
  Lemma ruleFirsts_same i firsts ch : ruleFirsts g rm i firsts ch = ruleFirsts g' rm' i firsts ch.
  Proof.
    unfold ruleFirsts. rewrite ruleCount_same. destruct (Nat.leb (ruleCount g') i); [reflexivity|].
    unfold index at 1 3. destruct (nth_error g i) as [r|] eqn:E.
    - destruct (sa_nth _ _ _ (proj1 S) i r E) as (r' & -> & Et & _). cbn [gobind]. rewrite Et.
      rewrite (substitutionFirsts_same firsts (r_tail r)) by (eapply rule_agrees, E). reflexivity.
    - apply nth_error_None in E. rewrite <- (sa_length _ _ _ (proj1 S)) in E. apply nth_error_None in E.
      rewrite E. reflexivity.
  Qed.
  Lemma firsts_round_same idxs : forall firsts ch,
    firsts_round g rm idxs firsts ch = firsts_round g' rm' idxs firsts ch.
  Proof.
    induction idxs as [|i idxs IH]; intros firsts ch; cbn [firsts_round]; [reflexivity|].
    rewrite ruleFirsts_same. destruct (ruleFirsts g' rm' i firsts ch) as [[f c]| | |]; cbn [gobind]; auto.
  Qed.
  Lemma findFirsts_same fuel : forall firsts, findFirsts g rm fuel firsts = findFirsts g' rm' fuel firsts.
  Proof.
    induction fuel as [|fuel IH]; intros firsts; cbn [findFirsts]; [reflexivity|].
    rewrite firsts_round_same, (sa_length _ _ _ (proj1 S)).
    destruct (firsts_round g' rm' (seq 0 (length g)) firsts false) as [[f [|]]| | |]; cbn [gobind]; auto.
  Qed.

  (** ** Rows: the same computation *)
  Lemma fill_symbols_same t s : forall res, agrees s -> fill_symbols rm t s res = fill_symbols rm' t s res.
  Proof.
    induction s as [|x s IH]; intros res A; cbn [fill_symbols]; [reflexivity|].
    assert (A' : agrees s) by (intros w Hw; apply A; right; exact Hw).
    destruct x as [v|t0| |str]; try reflexivity; [|apply IH, A'].
    unfold rm at 1, rm' at 1. rewrite (A v) by (left; reflexivity).
    destruct (rm_get (enumerate (heads g')) v); [|reflexivity]. apply IH, A'.
  Qed.
  Lemma fill_firsts_same terms s : forall res, agrees s -> fill_firsts rm terms s res = fill_firsts rm' terms s res.
  Proof.
    induction terms as [|t terms IH]; intros res A; cbn [fill_firsts]; [reflexivity|].
    rewrite fill_symbols_same by exact A. destruct (fill_symbols rm' t s res); cbn [gobind]; auto.
  Qed.
  Lemma row_loop_same firsts fol seqs : forall res, Forall agrees seqs ->
    row_loop rm firsts fol seqs res = row_loop rm' firsts fol seqs res.
  Proof.
    induction seqs as [|s seqs IH]; intros res A; cbn [row_loop]; [reflexivity|].
    inversion A as [|? ? As A']; subst. rewrite sequenceFirsts_same by assumption.
    destruct (sequenceFirsts rm' firsts s) as [sf| | |]; cbn [gobind]; try reflexivity.
    match goal with |- gobind ?m _ = gobind ?m _ => destruct m as [[r1 sf1]| | |] end; cbn [gobind]; try reflexivity.
    destruct (bs_range sf1) as [terms| | |]; cbn [gobind]; try reflexivity.
    rewrite fill_firsts_same by exact As. destruct (fill_firsts rm' terms s r1); cbn [gobind]; auto.
  Qed.
  Lemma makeTableRow_same firsts follows i :
    makeTableRow g rm firsts follows i = makeTableRow g' rm' firsts follows i.
  Proof.
    unfold makeTableRow. unfold index at 1 3. destruct (nth_error g i) as [r|] eqn:E.
    - destruct (sa_nth _ _ _ (proj1 S) i r E) as (r' & -> & Et & _). cbn [gobind]. rewrite Et.
      destruct (index follows i) as [fol| | |]; cbn [gobind]; try reflexivity.
      apply row_loop_same. eapply rule_agrees, E.
    - apply nth_error_None in E. rewrite <- (sa_length _ _ _ (proj1 S)) in E. apply nth_error_None in E.
      rewrite E. reflexivity.
  Qed.
  Lemma makeTable_same firsts follows : makeTable g rm firsts follows = makeTable g' rm' firsts follows.
  Proof.
    unfold makeTable. rewrite (sa_length _ _ _ (proj1 S)). generalize (@nil (Z * row)) as tbl.
    induction (seq 0 (length g)) as [|i l IH]; intros tbl; cbn [makeTable_loop]; [reflexivity|].
    rewrite makeTableRow_same. destruct (makeTableRow g' rm' firsts follows i); cbn [gobind]; auto.
  Qed.
End Names.

(** ** FOLLOW *)
Section Follow.
  Variable g g' : grammar.
  Hypothesis S : last_definitions g g'.
  Hypothesis T : terminals_nulfree g'.
  Variable firsts : list ByteSet.
  Hypothesis FE : first_exact g' firsts.
  Let A := proj1 S.
  Let N := proj2 S.

  Lemma sym_mark n s x c : alternative g' n s -> In x s ->
    (form_has (first_of g firsts) (sym_form x) c = true <-> first_mark g' (sym_form x) c).
  Proof.
    intros Ha Hx. rewrite (form_agree g g' S).
    - apply (fe_forms _ _ FE). intros Hin. apply (form_nulfree_alt _ _ _ T Ha).
      unfold seq_form. apply in_flat_map. exists x. auto.
    - intros v Hv. right. destruct (alt_from g g' S _ _ Ha) as (m & Hm). exists m, s. split; [exact Hm|].
      destruct x as [w|t| |str]; cbn in Hv.
      + destruct Hv as [E|[]]. injection E as ->. exact Hx.
      + apply in_map_iff in Hv. destruct Hv as (? & ? & _). discriminate.
      + destruct Hv.
      + destruct Hv.
  Qed.

  Lemma follow_last_inv :
    follow_inv g firsts (fun i c => follow_last g g' (head_at g' i) (ahead c)).
  Proof.
    intros i j r s k Hr Hs (ri & Hri & Hk).
    destruct (sa_nth _ _ _ A j r Hr) as (r' & Hr' & Et & _).
    destruct (sa_nth _ _ _ A i ri Hri) as (ri' & Hri' & _ & _).
    assert (Ha : alternative g' (r_head r') s).
    { exists r'. split; [eapply nth_error_In; exact Hr'|]. split; [reflexivity|]. rewrite Et. exact Hs. }
    assert (Hw : written g g' (r_head ri') (r_head ri)) by (exists i; split; apply heads_some; eauto).
    rewrite (head_at_nth _ _ _ Hri'), (head_at_nth _ _ _ Hr').
    apply nth_error_split in Hk. destruct Hk as (a & b & -> & La).
    assert (Enth : nth_error (a ++ SNonTerminal (r_head ri) :: b) (Datatypes.S k) = nth_error b 0).
    { rewrite nth_error_app2 by lia. replace (Datatypes.S k - length a) with 1 by lia. reflexivity. }
    split.
    - intros Hp c Hc. unfold passes_end in Hp. rewrite Enth in Hp.
      destruct b as [|x b]; simpl in Hp.
      + eapply fl_end; eassumption.
      + eapply fl_empty; [exact Ha|exact Hw| |exact Hc].
        apply (sym_mark _ _ x NUL Ha) in Hp; [|apply in_or_app; right; right; left; reflexivity].
        apply Hp. reflexivity.
    - intros c (x & Hx & Hf & Hc). rewrite Enth in Hx. destruct b as [|y b]; [discriminate|].
      simpl in Hx. injection Hx as ->. unfold ahead. pose proof Hc as Hc'.
      apply Ascii.eqb_neq in Hc'. rewrite Hc'.
      eapply fl_next; [exact Ha|exact Hw|].
      apply (sym_mark _ _ x c Ha) in Hf; [|apply in_or_app; right; right; left; reflexivity].
      apply Hf. exact Hc.
  Qed.

  Lemma head_at_some i r : nth_error g' i = Some r -> head_at g' i = r_head r.
  Proof. apply head_at_nth. Qed.

  Lemma findFollows_last fuel follows :
    findFollows g (enumerate (heads g)) fuel firsts (repeat (bs_new []) (length g)) = Ok follows ->
    forall i c, i < length g' -> (set_at follows i c = true <-> follow_last g g' (head_at g' i) (ahead c)).
  Proof.
    intros H. unfold findFollows, index in H.
    destruct (nth_error (repeat (bs_new []) (length g)) 0) as [f0|] eqn:E0; [|discriminate].
    cbn [gobind] in H. pose proof (sa_length _ _ _ A) as Lg.
    assert (Hg : 0 < length g).
    { rewrite <- (repeat_length (bs_new []) (length g)). apply nth_error_Some. congruence. }
    assert (Gne : g' <> []) by (intros E; rewrite E in Lg; simpl in Lg; lia).
    assert (E0' : f0 = bs_new []) by (apply nth_error_In, repeat_spec in E0; exact E0). subst f0.
    set (init := upd (repeat (bs_new []) (length g)) 0 (bs_add (bs_new []) EOS)) in H.
    assert (Wi : all_wf init).
    { apply upd_forall; [apply repeat_wf|apply add_wf, new_wf]. }
    assert (Si : forall i c, set_at init i c = (Nat.eqb i 0 && Ascii.eqb c NUL)).
    { intros i c. unfold init. rewrite set_at_upd by (rewrite repeat_length; exact Hg).
      destruct (Nat.eqb i 0); [|apply repeat_empty]. rewrite contains_add, contains_empty.
      apply orb_false_r. }
    destruct (follows_loop_spec g firsts (fe_wf _ _ FE) _ _ _ _ follow_last_inv Wi H)
      as (W & L & K & I & C).
    intros i c Hi. split.
    - apply K. intros j d Hd. rewrite Si in Hd. apply andb_true_iff in Hd. destruct Hd as [H1 H2].
      apply Nat.eqb_eq in H1. apply Ascii.eqb_eq in H2. subst.
      change (ahead NUL) with (@None ascii). rewrite head_start by exact Gne. constructor. exact Gne.
    - intros Hf. remember (head_at g' i) as n eqn:En. remember (ahead c) as x eqn:Ex.
      revert i c Hi En Ex.
      assert (Loc : forall Am a B b n i, alternative g' Am (a ++ SNonTerminal B :: b) -> written g g' n B ->
        i < length g' -> n = head_at g' i ->
        exists j, j < length g' /\ head_at g' j = Am /\
        name_at g i (a ++ SNonTerminal B :: b) (length a) /\
        closed_pos g firsts follows i j (a ++ SNonTerminal B :: b) (length a) /\
        nth_error (a ++ SNonTerminal B :: b) (Datatypes.S (length a)) = nth_error b 0).
      { intros Am a B b n1 i (r' & Hr' & <- & Hs) (i' & W1 & W2) Hi ->.
        assert (i' = i) as ->.
        { apply (proj1 (NoDup_nth_error (heads g')) N); [apply nth_error_Some; congruence|].
          rewrite W1. symmetry. unfold head_at. apply nth_error_nth'. unfold heads. rewrite map_length. exact Hi. }
        apply In_nth_error in Hr'. destruct Hr' as (j & Hr').
        destruct (sa_nth_back _ _ _ _ _ A Hr') as (r & Hr & Et & _).
        exists j. split; [apply nth_error_Some; congruence|]. split; [apply head_at_nth, Hr'|].
        apply heads_some in W2. destruct W2 as (ri & Hri & EB). split; [|split].
        - exists ri. split; [exact Hri|]. rewrite nth_error_app2 by lia.
          rewrite Nat.sub_diag. simpl. congruence.
        - eapply C; [lia|rewrite <- Lg; apply nth_error_Some; congruence|exact Hr|]. rewrite <- Et. exact Hs.
        - rewrite nth_error_app2 by lia. replace (Datatypes.S (length a) - length a) with 1 by lia. reflexivity. }
      induction Hf as [_|Am a B X b d n1 Ha Hw Hd|Am a B y n1 Ha Hw Hf IH|Am a B X b y n1 Ha Hw Hn Hf IH];
        intros i c Hi En Ex.
      + apply I. rewrite Si. assert (i = 0) as ->.
        { apply (nodup_head g'); [exact N|exact Hi|lia|]. rewrite head_start by exact Gne. auto. }
        unfold ahead in Ex. destruct (Ascii.eqb c NUL); [reflexivity|discriminate].
      + destruct (Loc _ _ _ _ _ i Ha Hw Hi En) as (j & Hj & Ej & Hname & Hcl & Hnx).
        apply (Hcl Hname). exists X. split; [rewrite Hnx; reflexivity|].
        unfold ahead in Ex. destruct (Ascii.eqb_spec c NUL) as [->|Nc]; [discriminate|].
        injection Ex as ->. split; [|exact Nc].
        apply (sym_mark _ _ X c Ha); [apply in_or_app; right; right; left; reflexivity|].
        split; [congruence|auto].
      + destruct (Loc _ _ _ _ _ i Ha Hw Hi En) as (j & Hj & Ej & Hname & Hcl & Hnx).
        destruct (Nat.eq_dec i j) as [<-|Nij]; [apply IH; congruence|].
        destruct (Hcl Hname) as [Hcl1 _]. apply Hcl1; [|exact Nij|].
        * unfold passes_end. rewrite Hnx. exact Logic.I.
        * apply IH; congruence.
      + destruct (Loc _ _ _ _ _ i Ha Hw Hi En) as (j & Hj & Ej & Hname & Hcl & Hnx).
        destruct (Nat.eq_dec i j) as [<-|Nij]; [apply IH; congruence|].
        destruct (Hcl Hname) as [Hcl1 _]. apply Hcl1; [|exact Nij|].
        * unfold passes_end. rewrite Hnx. simpl.
          apply (sym_mark _ _ X NUL Ha); [apply in_or_app; right; right; left; reflexivity|].
          split; [auto|]. intros Hc. destruct Hc. reflexivity.
        * apply IH; congruence.
  Qed.
End Follow.

(** ** The table *)
Lemma makeTable_wf g firsts follows FC :
  wf_grammar g -> first_exact g firsts -> all_wf follows -> length follows = length g ->
  (forall i c, i < length g -> (set_at follows i c = true <-> FC (head_at g i) (ahead c))) ->
  (makeTable g (enumerate (heads g)) firsts follows = Err EConflict /\ late_empty g FC) \/
  (exists tbl, makeTable g (enumerate (heads g)) firsts follows = Ok tbl /\ ~ late_empty g FC /\
     table_spec_wrt FC g tbl).
Proof.
  intros W FE Wo Lo FO. pose proof (wf_nulfree _ W) as Nf.
  pose proof (fe_wf _ _ FE) as Wf. pose proof (fe_length _ _ FE) as Lf.
  assert (Rows : forall i, In i (seq 0 (length g)) ->
    (exists r, makeTableRow g (enumerate (heads g)) firsts follows i = Ok r) \/
    makeTableRow g (enumerate (heads g)) firsts follows i = Err EConflict /\ late_empty g FC).
  { intros i Hi. apply in_seq in Hi. unfold makeTableRow, index.
    destruct (nth_error g i) as [r|] eqn:Hr; [|apply nth_error_None in Hr; lia]. cbn [gobind].
    destruct (nth_error follows i) as [fol|] eqn:Hfol; [|apply nth_error_None in Hfol; lia]. cbn [gobind].
    destruct (row_full g firsts Wf fol (all_wf_nth _ _ _ Wo Hfol) (r_tail r)) as [_ R2].
    destruct R2 as [Ho|[Ho Hc]].
    - apply Forall_forall. intros s Hs. eapply wf_fine; [exact W|exact Wf|exact Lf|].
      eapply rule_alts; eassumption.
    - left. exact Ho.
    - right. split; [exact Ho|]. apply (clash_exact g firsts follows Nf FE _ FO i r fol Hr Hfol) in Hc.
      destruct Hc as (l1 & s1 & l2 & s2 & l3 & b & Et & Hc). exists (r_head r), s1, s2, b.
      split; [|exact Hc]. exists r, l1, l2, l3. split; [eapply nth_error_In; exact Hr|auto]. }
  unfold makeTable.
  destruct (makeTable_loop_err g (enumerate (heads g)) firsts follows (seq 0 (length g)) []) as [(out & Ho & _)|(Ho & i & Hi & Ei)].
  - intros i Hi. destruct (Rows i Hi) as [H|[H _]]; auto.
  - right. exists out. split; [exact Ho|].
    destruct (makeTable_loop_spec _ _ _ _ _ 0 [] _ eq_refl Ho) as (T1 & _ & T3).
    assert (G : forall i r, nth_error g i = Some r ->
      exists rw fol, map_get Z.eqb (Z.of_nat i) out = Some rw /\ nth_error follows i = Some fol /\
      (forall b, row_get b rw = cell_of g firsts fol (r_tail r) b) /\
      ~ clash g firsts fol (r_tail r) /\
      (forall s b, In s (r_tail r) -> takes g firsts b s = true -> Forall (opable g) s)).
    { intros i r Hr. assert (Hi : i < length g) by (apply nth_error_Some; congruence).
      destruct (T3 i ltac:(lia)) as (rw & Hrw & Emk). unfold makeTableRow, index in Emk.
      rewrite Hr in Emk. cbn [gobind] in Emk.
      destruct (nth_error follows i) as [fol|] eqn:Efol; [|discriminate]. cbn [gobind] in Emk.
      pose proof (all_wf_nth _ _ _ Wo Efol) as Wfol.
      destruct (row_full g firsts Wf fol Wfol (r_tail r)) as [R1 _].
      destruct (R1 _ Emk) as (J1 & J2 & J3). exists rw, fol. auto. }
    split.
    + intros (n & s1 & s2 & b & (r & l1 & l2 & l3 & Hin & <- & Et) & H2 & Hb & H1).
      apply In_nth_error in Hin. destruct Hin as (i & Hi).
      destruct (G i r Hi) as (rw & fol & _ & Hfol & _ & Hcl & _).
      apply Hcl. apply (clash_exact g firsts follows Nf FE _ FO i r fol Hi Hfol).
      exists l1, s1, l2, s2, l3, b. auto.
    + split; [exact T1|]. intros i r b Hi.
      destruct (G i r Hi) as (rw & fol & Hrw & Hfol & Hc & _ & Hop).
      exists rw. split; [exact Hrw|]. fold (row_get b rw). rewrite Hc.
      exact (cell_of_exact g firsts follows Nf FE _ FO i r fol b Hi Hfol Hop).
  - left. split; [exact Ho|]. destruct (Rows i Hi) as [(r & H)|[_ H]]; [congruence|exact H].
Qed.

Lemma last_nonempty g g' : last_definitions g g' -> g' <> [] -> g <> [].
Proof. intros (A & _) H E. subst g. inversion A; subst. congruence. Qed.

Lemma last_sequences g g' : last_definitions g g' -> wf_grammar g' ->
  forall n s, alternative g n s -> wf_sequence g s.
Proof.
  intros S W n s Ha. destruct (alt_to g g' S _ _ Ha) as (n' & Ha').
  destruct (wf_sequences _ W _ _ Ha') as [->|(Hne & H)]; [left; reflexivity|]. right. split; [exact Hne|].
  rewrite Forall_forall in *. intros x Hx. specialize (H x Hx). destruct x as [v|t| |str]; try exact H.
  cbn in *. pose proof (rm_agree g g' S v) as E.
  assert (M : mentioned g v) by (right; eauto). specialize (E M).
  destruct (rm_get (enumerate (heads g)) v) as [i|] eqn:Ei.
  - apply enumerate_some in Ei. destruct Ei as (Ei & _). eapply nth_error_In, Ei.
  - symmetry in E. apply enumerate_none in E. contradiction.
Qed.

Lemma last_nulfree g g' : last_definitions g g' -> terminals_nulfree g' -> terminals_nulfree g.
Proof. intros S T n s t Ha. destruct (alt_to g g' S _ _ Ha) as (n' & Ha'). eapply T, Ha'. Qed.

Lemma FromGrammar_last order fuel g g' :
  last_definitions g g' -> wf_grammar g' -> enough g <= fuel ->
  (FromGrammar_order order fuel g = Err EConflict /\ late_empty g' (follow_last g g')) \/
  (exists tbl names, FromGrammar_order order fuel g = Ok (tbl, names) /\ ~ late_empty g' (follow_last g g') /\
     table_spec_wrt (follow_last g g') g' tbl).
Proof.
  intros S W Hfuel. pose proof (last_nonempty _ _ S (wf_nonempty _ W)) as Gne.
  pose proof (last_sequences _ _ S W) as WS.
  pose proof (FromGrammar_fuel order g fuel Hfuel) as NF.
  rewrite FromGrammar_unfold in *.
  assert (X1 : calm (fun _ => False) (findFirsts g (enumerate (heads g)) fuel (repeat (bs_new []) (length g)))).
  { apply findFirsts_calm; [|apply repeat_wf|apply repeat_length].
    intros n s Ha. destruct (WS _ _ Ha) as [->|[Hne H]]; [left; reflexivity|right].
    split; [|congruence]. eapply Forall_impl; [|exact H]. intros [v|t| |str] Hx; simpl in *; try tauto. }
  destruct (findFirsts g (enumerate (heads g)) fuel (repeat (bs_new []) (length g))) as [firsts|e1|p1|] eqn:Ef;
    cbn in X1; [|contradiction|contradiction|cbn [gobind] in NF; congruence].
  cbn [gobind] in NF |- *.
  destruct (findFirsts_facts _ _ _ Ef) as [Wf Lf].
  assert (X2 : calm (fun _ => False) (findFollows g (enumerate (heads g)) fuel firsts (repeat (bs_new []) (length g)))).
  { apply findFollows_calm; [exact Wf|exact Lf| |exact Gne].
    intros n s Ha. destruct (WS _ _ Ha) as [->|[Hne H]]; [left; reflexivity|right].
    split; [|congruence]. eapply Forall_impl; [|exact H]. intros [v|t| |str] Hx; simpl in *; try tauto. }
  destruct (findFollows g (enumerate (heads g)) fuel firsts (repeat (bs_new []) (length g))) as [follows|e1|p1|] eqn:Eo;
    cbn in X2; [|contradiction|contradiction|cbn [gobind] in NF; congruence].
  cbn [gobind] in NF |- *.
  destruct (findFollows_facts _ _ _ _ Wf Eo) as [Wo Lo].
  rewrite (findFirsts_same g g' S), <- (sa_length _ _ _ (proj1 S)) in Ef.
  pose proof (findFirsts_exact _ _ _ (wf_distinct _ W) (wf_nulfree _ W) Ef) as FE.
  pose proof (findFollows_last g g' S (wf_nulfree _ W) firsts FE fuel follows Eo) as FO.
  rewrite (makeTable_same g g' S).
  destruct (makeTable_wf g' firsts follows (follow_last g g') W FE Wo) as [(-> & L)|(tbl & -> & L & T)].
  - rewrite Lo. symmetry. apply (sa_length _ _ _ (proj1 S)).
  - exact FO.
  - left. split; [reflexivity|exact L].
  - right. cbn [gobind]. eauto.
Qed.

Lemma FromGrammar_last_ok order fuel g g' tbl names :
  last_definitions g g' -> wf_grammar g' -> FromGrammar_order order fuel g = Ok (tbl, names) ->
  table_spec_wrt (follow_last g g') g' tbl /\ ~ late_empty g' (follow_last g g').
Proof.
  intros S W E.
  assert (E' : FromGrammar_order order (fuel + enough g) g = Ok (tbl, names)).
  { rewrite FromGrammar_more; [exact E|]. rewrite E. discriminate. }
  destruct (FromGrammar_last order (fuel + enough g) g g' S W) as [(E2 & _)|(tbl2 & names2 & E2 & L & T)];
    [lia|congruence|]. rewrite E' in E2. injection E2 as <- <-. auto.
Qed.

(** Names used in the rules kept are those of last definitions. *)
Lemma written_used g g' : last_definitions g g' ->
  (forall m s v, alternative g' m s -> In (SNonTerminal v) s -> defined g' v) ->
  forall A a B b, alternative g' A (a ++ SNonTerminal B :: b) -> written g g' B B.
Proof.
  intros S Df A a B b Ha. assert (Hin : In (SNonTerminal B) (a ++ SNonTerminal B :: b))
    by (apply in_or_app; right; left; reflexivity).
  pose proof (Df _ _ _ Ha Hin) as D. apply In_nth_error in D. destruct D as (i & Hi).
  exists i. split; [exact Hi|]. destruct (alt_from g g' S _ _ Ha) as (m & Hm).
  assert (M : mentioned g B) by (right; eauto). apply heads_some in Hi. destruct Hi as (r' & Hr' & E).
  destruct (sa_nth_back _ _ _ _ _ (proj1 S) Hr') as (r & Hr & _ & [(-> & _)|F]).
  - apply heads_some. eauto.
  - rewrite E in F. contradiction.
Qed.

Lemma follow_last_inherits g g' : last_definitions g g' ->
  (forall m s v, alternative g' m s -> In (SNonTerminal v) s -> defined g' v) ->
  forall A a B b x, alternative g' A (a ++ SNonTerminal B :: b) -> nullable g' (seq_form b) ->
    follow_last g g' A x -> follow_last g g' B x.
Proof.
  intros S Df A a B b x Ha Hn Hx. pose proof (written_used g g' S Df _ _ _ _ Ha) as Wr.
  destruct b as [|X b]; [eapply fl_end; eassumption|].
  eapply fl_empty; [exact Ha|exact Wr| |exact Hx].
  apply (nullable_app g' (sym_form X) (seq_form b)) in Hn. apply Hn.
Qed.

(** What the generator finds for the last definitions alone, it finds here. *)
Lemma follow_code_last g g' n x : last_definitions g g' ->
  (forall m s v, alternative g' m s -> In (SNonTerminal v) s -> defined g' v) ->
  follow_code g' n x -> follow_last g g' n x.
Proof.
  intros S Df.
  pose proof (written_used g g' S Df) as Wr.
  induction 1 as [Hg|A a B X b c Ha Hf|A a B x Ha _ IH|A a B X b x Ha Hn _ IH].
  - constructor. exact Hg.
  - eapply fl_next; [exact Ha|eapply Wr, Ha|exact Hf].
  - eapply fl_end; [exact Ha|eapply Wr, Ha|exact IH].
  - eapply fl_empty; [exact Ha|eapply Wr, Ha|exact Hn|exact IH].
Qed.
