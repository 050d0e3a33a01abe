(** * TGOutput: what FromGrammar prints. *)
From Coq Require Import Sorting.Sorted.
From Verif Require Import Base ByteSet Ast Cst Parser TableGen TableGenOutput Spec_Parse Spec_Tree Spec_Grammar Spec_Table
  Spec_Override Spec_Outcome ByteSetProofs GrammarProofs ParserProofs TreeProofs ParseApi ParseApi2
  TGFirsts TGFollows TGTable TGMain TGCells TGClosed TGParse TGOverride TGOutcome.

(** ** Erasure *)
Lemma snd_bind {A B} (x : gio A) (f : A -> gio B) : snd (iobind x f) = gobind (snd x) (fun a => snd (f a)).
Proof. unfold iobind. destruct (snd x); reflexivity. Qed.
Lemma gobind_ext {A B} (x : tgres A) (f h : A -> tgres B) : (forall a, f a = h a) -> gobind x f = gobind x h.
Proof. destruct x; simpl; auto. Qed.

Lemma iobind_ext {A B} (x : gio A) (f h : A -> gio B) : (forall a, f a = h a) -> iobind x f = iobind x h.
Proof. intros H. unfold iobind. destruct (snd x); rewrite ?H; reflexivity. Qed.
Lemma iobind_assoc {A B C} (x : gio A) (f : A -> gio B) (h : B -> gio C) :
  iobind (iobind x f) h = iobind x (fun a => iobind (f a) h).
Proof.
  unfold iobind. destruct (snd x) as [a| | |]; cbn [fst snd]; try reflexivity.
  destruct (snd (f a)); cbn [fst snd]; rewrite ?app_assoc; reflexivity.
Qed.

Lemma iobind_ok {A B} (a : A) (f : A -> gio B) : iobind (quiet (Ok a)) f = f a.
Proof. unfold iobind. cbn [quiet fst snd app]. destruct (f a). reflexivity. Qed.
Lemma iobind_panic {A B} p (f : A -> gio B) : iobind (quiet (Panic p)) f = quiet (Panic p).
Proof. reflexivity. Qed.
Lemma iobind_fail {A B} (x : gio A) (f : A -> gio B) e : snd (iobind x f) = Err e ->
  (snd x = Err e /\ fst (iobind x f) = fst x) \/
  (exists a, snd x = Ok a /\ snd (f a) = Err e /\ fst (iobind x f) = fst x ++ fst (f a)).
Proof.
  unfold iobind. destruct (snd x) as [a|e'|p|]; cbn [fst snd]; intros H; try discriminate.
  - right. exists a. auto.
  - left. injection H as ->. auto.
Qed.
Lemma quiet_fail {A B} (x : tgres A) (f : A -> gio B) e : snd (iobind (quiet x) f) = Err e ->
  x = Err e \/ (exists a, x = Ok a /\ snd (f a) = Err e /\ fst (iobind (quiet x) f) = fst (f a)).
Proof.
  intros H. destruct (iobind_fail _ _ _ H) as [(H1 & _)|(a & H1 & H2 & H3)]; [left; exact H1|right].
  exists a. auto.
Qed.

Lemma fill_follows_snd terms : forall res, snd (fill_follows_io terms res) = fill_follows terms res.
Proof.
  induction terms as [|t terms IH]; intros res; cbn [fill_follows_io fill_follows]; [reflexivity|].
  destruct (row_get t res); [reflexivity|apply IH].
Qed.
Lemma row_loop_snd rm firsts fol seqs : forall res,
  snd (row_loop_io rm firsts fol seqs res) = row_loop rm firsts fol seqs res.
Proof.
  induction seqs as [|s seqs IH]; intros res; cbn [row_loop_io row_loop]; [reflexivity|].
  rewrite snd_bind. cbn [quiet snd]. apply gobind_ext. intros sf. rewrite snd_bind.
  match goal with |- gobind ?m _ = gobind ?n _ => assert (E : m = n) end.
  { destruct (bs_contains sf EOS); [|reflexivity]. rewrite snd_bind. cbn [quiet snd]. apply gobind_ext. intros terms.
    rewrite snd_bind, fill_follows_snd. reflexivity. }
  rewrite E. apply gobind_ext. intros (r1 & f1). rewrite snd_bind. cbn [quiet snd]. apply gobind_ext. intros terms.
  rewrite snd_bind. cbn [quiet snd]. apply gobind_ext. intros r2. apply IH.
Qed.
Lemma makeTableRow_snd g rm firsts follows i :
  snd (makeTableRow_io g rm firsts follows i) = makeTableRow g rm firsts follows i.
Proof.
  unfold makeTableRow_io, makeTableRow. rewrite snd_bind. cbn [quiet snd]. apply gobind_ext. intros r.
  rewrite snd_bind. cbn [quiet snd]. apply gobind_ext. intros fol. apply row_loop_snd.
Qed.
Lemma makeTable_loop_snd g rm firsts follows idxs : forall tbl,
  snd (makeTable_loop_io g rm firsts follows idxs tbl) = makeTable_loop g rm firsts follows idxs tbl.
Proof.
  induction idxs as [|i idxs IH]; intros tbl; cbn [makeTable_loop_io makeTable_loop]; [reflexivity|].
  rewrite snd_bind, makeTableRow_snd. apply gobind_ext. intros r. apply IH.
Qed.
Lemma FromGrammar_snd order fuel g : snd (FromGrammar_io order fuel g) = FromGrammar_order order fuel g.
Proof.
  unfold FromGrammar_io, FromGrammar_order. rewrite snd_bind. unfold Run_io, Run.
  rewrite snd_bind. cbn [quiet snd].
  destruct (findFirsts _ _ _ _) as [firsts| | |]; cbn [gobind]; try reflexivity.
  rewrite snd_bind. cbn [quiet snd].
  destruct (findFollows _ _ _ _ _) as [follows| | |]; cbn [gobind]; try reflexivity.
  unfold makeTable_io, makeTable. rewrite makeTable_loop_snd. reflexivity.
Qed.

(** ** Silence *)
Definition hushed {A} (x : gio A) : Prop := snd x = Err EConflict \/ fst x = [].
Lemma hushed_bind {A B} (x : gio A) (f : A -> gio B) : hushed x -> (forall a, hushed (f a)) -> hushed (iobind x f).
Proof.
  intros [H|H] Hf; unfold iobind, hushed.
  - rewrite H. left. reflexivity.
  - destruct (snd x) as [a| | |]; rewrite H; cbn; auto. exact (Hf a).
Qed.
Lemma hushed_quiet {A} (x : tgres A) : hushed (quiet x).
Proof. right. reflexivity. Qed.
Lemma fill_follows_hushed terms : forall res, hushed (fill_follows_io terms res).
Proof.
  induction terms as [|t terms IH]; intros res; cbn [fill_follows_io]; [apply hushed_quiet|].
  destruct (row_get t res); [left; reflexivity|apply IH].
Qed.
Lemma row_loop_hushed rm firsts fol seqs : forall res, hushed (row_loop_io rm firsts fol seqs res).
Proof.
  induction seqs as [|s seqs IH]; intros res; cbn [row_loop_io]; [apply hushed_quiet|].
  apply hushed_bind; [apply hushed_quiet|]. intros sf. apply hushed_bind.
  - destruct (bs_contains sf EOS); [|apply hushed_quiet]. apply hushed_bind; [apply hushed_quiet|]. intros terms.
    apply hushed_bind; [apply fill_follows_hushed|]. intros r. apply hushed_quiet.
  - intros (r1 & f1). apply hushed_bind; [apply hushed_quiet|]. intros terms.
    apply hushed_bind; [apply hushed_quiet|]. intros r2. apply IH.
Qed.
Lemma makeTableRow_hushed g rm firsts follows i : hushed (makeTableRow_io g rm firsts follows i).
Proof.
  unfold makeTableRow_io. apply hushed_bind; [apply hushed_quiet|]. intros r.
  apply hushed_bind; [apply hushed_quiet|]. intros fol. apply row_loop_hushed.
Qed.
Lemma makeTable_loop_hushed g rm firsts follows idxs : forall tbl, hushed (makeTable_loop_io g rm firsts follows idxs tbl).
Proof.
  induction idxs as [|i idxs IH]; intros tbl; cbn [makeTable_loop_io]; [apply hushed_quiet|].
  apply hushed_bind; [apply makeTableRow_hushed|]. intros r. apply IH.
Qed.
Lemma FromGrammar_hushed order fuel g : hushed (FromGrammar_io order fuel g).
Proof.
  unfold FromGrammar_io. apply hushed_bind; [|intros tbl; apply hushed_quiet]. unfold Run_io.
  apply hushed_bind; [apply hushed_quiet|]. intros firsts. apply hushed_bind; [apply hushed_quiet|]. intros follows.
  apply makeTable_loop_hushed.
Qed.

(** ** The line *)
Lemma fill_follows_line terms : forall res e, NoDup terms -> snd (fill_follows_io terms res) = Err e ->
  exists pre t post v, terms = pre ++ t :: post /\ row_get t res = Some v /\
    (forall x, In x pre -> row_get x res = None) /\ fst (fill_follows_io terms res) = println_ops v.
Proof.
  induction terms as [|t terms IH]; intros res e N H; cbn [fill_follows_io] in *; [discriminate|].
  inversion N as [|? ? Nt Nd]; subst. destruct (row_get t res) as [v|] eqn:E.
  - exists [], t, terms, v. repeat split; auto. intros x [].
  - destruct (IH _ _ Nd H) as (pre & x & post & v & Et & Ex & Hpre & Hf).
    assert (G : forall c, row_get c (map_set Ascii.eqb t [] res) = if Ascii.eqb c t then Some [] else row_get c res)
      by (intros c; unfold row_get; apply map_get_set, aeqb_ok).
    assert (Nx : forall c, In c terms -> Ascii.eqb c t = false).
    { intros c Hc. apply Ascii.eqb_neq. intros ->. contradiction. }
    exists (t :: pre), x, post, v. rewrite G in Ex. split; [rewrite Et; reflexivity|].
    rewrite Nx in Ex by (rewrite Et; apply in_or_app; right; left; reflexivity).
    split; [exact Ex|]. split; [|exact Hf].
    intros y [<-|Hy]; [exact E|]. specialize (Hpre _ Hy). rewrite G in Hpre. rewrite Nx in Hpre; [exact Hpre|].
    rewrite Et. apply in_or_app. left. exact Hy.
Qed.

Section Line.
  Variable g : grammar.
  Let rm := enumerate (heads g).
  Variable firsts follows : list ByteSet.
  Hypothesis Nf : terminals_nulfree g.
  Hypothesis FE : first_exact g firsts.
  Variable FC : bytes -> option ascii -> Prop.
  Hypothesis Wo : all_wf follows.
  Hypothesis Lo : length follows = length g.
  Hypothesis FO : forall i c, i < length g -> (set_at follows i c = true <-> FC (head_at g i) (ahead c)).
  Let Wf := fe_wf _ _ FE.

  Lemma occupied i r fol l t : nth_error g i = Some r -> nth_error follows i = Some fol ->
    (forall s, In s l -> alternative g (r_head r) s) -> bs_contains fol t = true ->
    (cell_of g firsts fol l t <> None <->
     exists s1, In s1 l /\ (nullable g (seq_form s1) \/ first g (seq_form s1) t)).
  Proof.
    intros Hr Hf Al Ht. unfold cell_of. split.
    - intros Hc. destruct (filter (takes g firsts t) l) as [|s1 l'] eqn:Ef.
      + destruct (existsb (fun s => has g firsts s NUL) l) eqn:Ex; [|destruct Hc; reflexivity].
        apply existsb_exists in Ex. destruct Ex as (s1 & H1 & H2). exists s1. split; [exact H1|].
        left. apply (has_null g firsts Nf FE _ _ (Al _ H1)), H2.
      + assert (Hin : In s1 (filter (takes g firsts t) l)) by (rewrite Ef; left; reflexivity).
        apply filter_In in Hin. destruct Hin as [H1 H2]. exists s1. split; [exact H1|].
        right. apply (takes_first g firsts Nf FE _ _ _ (Al _ H1)), H2.
    - intros (s1 & H1 & H2). destruct (filter (takes g firsts t) l) as [|s l'] eqn:Ef; [|discriminate].
      destruct H2 as [H2|H2].
      + apply (has_null g firsts Nf FE _ _ (Al _ H1)) in H2.
        assert (existsb (fun s => has g firsts s NUL) l = true) as ->.
        { apply existsb_exists. exists s1. split; assumption. }
        rewrite Ht. discriminate.
      + apply (takes_first g firsts Nf FE _ _ _ (Al _ H1)) in H2.
        assert (Hin : In s1 (filter (takes g firsts t) l)) by (apply filter_In; split; assumption).
        rewrite Ef in Hin. destruct Hin.
  Qed.

  Lemma contested_iff i r fol before s t : nth_error g i = Some r -> nth_error follows i = Some fol ->
    (forall s, In s before -> alternative g (r_head r) s) -> alternative g (r_head r) s ->
    (contested g FC r before s t <->
     has g firsts s NUL = true /\ bs_contains fol t = true /\ cell_of g firsts fol before t <> None).
  Proof.
    intros Hr Hf Al As. unfold contested.
    rewrite <- (has_null g firsts Nf FE _ _ As), <- (fol_follow g follows FC FO _ _ _ t Hr Hf).
    split; intros (H1 & H2 & H3); (split; [exact H1|]); (split; [exact H2|]);
      apply (occupied i r fol before t Hr Hf Al H2), H3.
  Qed.

  Definition row_one_io (fol : ByteSet) (s : sequence) (res : row) : gio row :=
    io sf <- quiet (sequenceFirsts rm firsts s);
    io (res, sf) <-
      (if bs_contains sf EOS then
         io terms <- quiet (bs_range fol);
         io res' <- fill_follows_io terms res;
         quiet (Ok (res', bs_remove sf EOS))
       else quiet (Ok (res, sf)));
    io terms <- quiet (bs_range sf);
    quiet (fill_firsts rm terms s res).
  Lemma row_loop_io_cons fol s seqs res :
    row_loop_io rm firsts fol (s :: seqs) res = iobind (row_one_io fol s res) (row_loop_io rm firsts fol seqs).
  Proof.
    unfold row_one_io. cbn [row_loop_io]. rewrite iobind_assoc. apply iobind_ext. intros sf.
    rewrite iobind_assoc. apply iobind_ext. intros (r1 & f1). rewrite iobind_assoc. reflexivity.
  Qed.
  Lemma row_one_snd fol s res : snd (row_one_io fol s res) = row_one g firsts fol s res.
  Proof.
    unfold row_one_io, row_one. fold rm. rewrite snd_bind. cbn [quiet snd]. apply gobind_ext. intros sf. rewrite snd_bind.
    match goal with |- gobind ?m _ = gobind ?n _ => assert (E : m = n) end.
    { destruct (bs_contains sf EOS); [|reflexivity]. rewrite snd_bind. cbn [quiet snd]. apply gobind_ext. intros terms.
      rewrite snd_bind, fill_follows_snd. reflexivity. }
    rewrite E. apply gobind_ext. intros (r1 & f1). rewrite snd_bind. reflexivity.
  Qed.

  Lemma sequenceFirsts_noconflict s : sequenceFirsts rm firsts s <> Err EConflict.
  Proof.
    unfold sequenceFirsts. generalize (bs_new []) as res. generalize true as b. generalize (length s) as n. intros n.
    assert (G : forall syms res b, sequenceFirsts_loop rm firsts n syms res b <> Err EConflict).
    { induction syms as [|[v|t| |str] syms IH]; intros res b; cbn [sequenceFirsts_loop]; try discriminate.
      - destruct (rm_get rm v); [|discriminate]. destruct (index firsts n0) as [rf| | |] eqn:E; cbn [gobind]; try discriminate.
        + destruct (bs_contains rf EOS); cbn [negb]; [apply IH|discriminate].
        + unfold index in E. destruct (nth_error firsts n0); discriminate.
      - destruct (terminalFirsts t) as [rf| | |] eqn:E; cbn [gobind]; try discriminate.
        unfold terminalFirsts in E. destruct t; discriminate.
      - destruct (Nat.ltb 1 n); discriminate. }
    intros b res. apply G.
  Qed.
  Lemma fill_firsts_noconflict s terms : forall res, fill_firsts rm terms s res <> Err EConflict.
  Proof.
    assert (G : forall t syms res, fill_symbols rm t syms res <> Err EConflict).
    { intros t. induction syms as [|[v|w| |str] syms IH]; intros res; cbn [fill_symbols]; try discriminate; [|apply IH].
      destruct (rm_get rm v); [apply IH|discriminate]. }
    induction terms as [|t terms IH]; intros res; cbn [fill_firsts]; [discriminate|].
    specialize (G t s res). destruct (fill_symbols rm t s res); cbn [gobind]; [apply IH|congruence|discriminate..].
  Qed.

  Lemma row_one_line fol s pre res : bs_wf fol -> row_inv g firsts fol pre res ->
    snd (row_one_io fol s res) = Err EConflict ->
    has g firsts s NUL = true /\ exists t v, bs_contains fol t = true /\ cell_of g firsts fol pre t = Some v /\
      (forall t', (code t' < code t)%N -> bs_contains fol t' = true -> cell_of g firsts fol pre t' = None) /\
      fst (row_one_io fol s res) = println_ops v.
  Proof.
    intros Wfol Inv H. unfold row_one_io in *.
    assert (NR : forall x, bs_range x <> Err EConflict) by (intros x; unfold bs_range; destruct (bs_bytes x); discriminate).
    destruct (quiet_fail _ _ _ H) as [H1|(sf & Esf & H1 & ->)]; [destruct (sequenceFirsts_noconflict _ H1)|]. clear H.
    pose proof (sequenceFirsts_spec _ _ _ _ Esf) as Hsf.
    destruct (bytes_spec fol Wfol) as (fl & Efl & Sfl & Ifl).
    assert (Rfl : bs_range fol = Ok fl) by (unfold bs_range; rewrite Efl; reflexivity). clear Efl.
    destruct (iobind_fail _ _ _ H1) as [(H2 & ->)|((r1 & f1) & _ & H2 & _)]; clear H1.
    2:{ destruct (quiet_fail _ _ _ H2) as [H3|(l & _ & H3 & _)]; [destruct (NR _ H3)|].
        cbn [quiet snd] in H3. destruct (fill_firsts_noconflict _ _ _ H3). }
    destruct (bs_contains sf EOS) eqn:En; [|discriminate].
    split; [unfold has; rewrite <- Hsf; exact En|].
    rewrite Rfl in *. destruct (quiet_fail _ _ _ H2) as [H3|(l & El & H3 & ->)]; [discriminate|].
    injection El as <-. clear H2.
    destruct (iobind_fail _ _ _ H3) as [(H4 & ->)|(r1 & _ & H4 & _)]; [|discriminate]. clear H3.
    destruct (fill_follows_line fl res _ (ssorted_nodup _ Sfl) H4) as (p1 & t & p2 & v & El & Et & Hp & Hf).
    exists t, v. split; [apply Ifl; rewrite El; apply in_or_app; right; left; reflexivity|].
    split; [rewrite <- Inv; exact Et|]. split; [|exact Hf].
    intros t' Hlt Hc. rewrite <- Inv. apply Hp. apply Ifl in Hc. rewrite El in Hc, Sfl.
    apply in_app_or in Hc. destruct Hc as [Hc|[<-|Hc]]; [exact Hc|lia|].
    exfalso. clear - Sfl Hlt Hc. induction p1 as [|y p1 IH]; cbn in Sfl.
    - apply StronglySorted_inv in Sfl. destruct Sfl as (_ & F). rewrite Forall_forall in F.
      specialize (F _ Hc). unfold byte_lt in F. lia.
    - apply IH. apply StronglySorted_inv in Sfl. apply Sfl.
  Qed.

  Lemma row_line i r fol : nth_error g i = Some r -> nth_error follows i = Some fol ->
    forall seqs pre res, r_tail r = pre ++ seqs -> row_inv g firsts fol pre res -> ~ clash g firsts fol pre ->
      (forall s b, In s pre -> takes g firsts b s = true -> Forall (opable g) s) ->
      snd (row_loop_io rm firsts fol seqs res) = Err EConflict ->
      exists before s after t v, r_tail r = before ++ s :: after /\ ~ clash g firsts fol before /\
        has g firsts s NUL = true /\ bs_contains fol t = true /\ cell_of g firsts fol before t = Some v /\
        (forall t', (code t' < code t)%N -> bs_contains fol t' = true -> cell_of g firsts fol before t' = None) /\
        (forall s b, In s before -> takes g firsts b s = true -> Forall (opable g) s) /\
        fst (row_loop_io rm firsts fol seqs res) = println_ops v.
  Proof.
    intros Hr Hfol. pose proof (all_wf_nth _ _ _ Wo Hfol) as Wfol.
    induction seqs as [|s seqs IH]; intros pre res Et Inv Ncl Op H; [discriminate|].
    destruct (row_one_spec g firsts Wf fol Wfol s pre res Inv) as (O1 & _).
    rewrite row_loop_io_cons in H |- *. pose proof (row_one_snd fol s res) as S1.
    pose proof (row_one_line fol s pre res Wfol Inv) as L1.
    assert (Hu : hushed (row_one_io fol s res)).
    { unfold row_one_io. apply hushed_bind; [apply hushed_quiet|]. intros sf. apply hushed_bind.
      - destruct (bs_contains sf EOS); [|apply hushed_quiet]. apply hushed_bind; [apply hushed_quiet|]. intros terms.
        apply hushed_bind; [apply fill_follows_hushed|]. intros r1. apply hushed_quiet.
      - intros (r1 & f1). apply hushed_bind; [apply hushed_quiet|]. intros terms. apply hushed_quiet. }
    destruct (row_one_io fol s res) as [out [r1|e| |]]; unfold iobind in H |- *; cbn [fst snd] in *; try discriminate.
    - destruct Hu as [Hu|Hu]; [discriminate|]. cbn in Hu. subst out. cbn [app].
      destruct (O1 r1 (eq_sym S1)) as (Inv1 & Free & Op1).
      apply (IH (pre ++ [s]) r1); [rewrite <- app_assoc; exact Et|exact Inv1| | |exact H].
      + intros (p & s' & post & t & E & Hn & Ht & Hc).
        destruct (exists_last (l := s' :: post)) as (q & x & Eq); [discriminate|].
        rewrite Eq in E. rewrite app_assoc in E. apply app_inj_tail in E. destruct E as (E & <-).
        destruct q as [|y q].
        * cbn in Eq. injection Eq as -> ->. rewrite app_nil_r in E. subst p. apply Hc, Free; assumption.
        * cbn in Eq. injection Eq as <- ->. apply Ncl. exists p, s', q, t. auto.
      + intros s' b Hin Hb. apply in_app_or in Hin. destruct Hin as [Hin|[<-|[]]]; [eapply Op; eassumption|eapply Op1, Hb].
    - destruct (L1 H) as (Hn & t & v & Ht & Hc & Hm & Hf).
      exists pre, s, seqs, t, v. auto 10.
  Qed.

  Lemma cell_prefix i r fol l b ops : nth_error g i = Some r -> nth_error follows i = Some fol ->
    (forall s, In s l -> alternative g (r_head r) s) ->
    (forall s b, In s l -> takes g firsts b s = true -> Forall (opable g) s) ->
    cell_of g firsts fol l b = Some ops -> cell_spec g FC (mkRule (r_head r) l) b (Some ops).
  Proof.
    intros Hr Hf Al Hop. unfold cell_of. cbn [cell_spec r_tail].
    pose proof (filter_selected g firsts Nf FE b l (fun s Hs => ex_intro (fun n => alternative g n s) _ (Al s Hs))) as Sel.
    pose proof (fol_follow g follows FC FO _ _ _ b Hr Hf) as FF.
    destruct (filter (takes g firsts b) l) as [|s l'] eqn:E.
    - destruct (existsb (fun s => has g firsts s NUL) l) eqn:Ex, (bs_contains fol b); cbn [andb]; try discriminate.
      intros H. injection H as <-. exists []. split; [exact Sel|]. split; [constructor|]. intros _.
      split; [|apply FF; reflexivity]. apply existsb_exists in Ex. destruct Ex as (s & Hs & Hn).
      exists s. split; [exact Hs|]. apply (has_null g firsts Nf FE _ _ (Al _ Hs)), Hn.
    - intros H. injection H as <-. exists (s :: l'). split; [exact Sel|]. split; [|discriminate].
      assert (A : Forall (Forall (opable g)) (s :: l')).
      { apply Forall_forall. intros x Hx. rewrite <- E in Hx. apply filter_In in Hx.
        destruct Hx as [H1 H2]. eapply Hop; eassumption. }
      change (ops_of g s ++ flat_map (ops_of g) l') with (flat_map (ops_of g) (s :: l')).
      clear Sel E. revert A. generalize (s :: l') as ll. induction ll as [|x ll IH]; intros A; [constructor|].
      inversion A; subst. cbn [flat_map concat]. apply Forall2_app; [apply ops_of_operands; assumption|].
      apply IH. assumption.
  Qed.

  Lemma makeTable_line : snd (makeTable_io g rm firsts follows) = Err EConflict ->
    exists ops, first_contested g FC ops /\ fst (makeTable_io g rm firsts follows) = println_ops ops.
  Proof.
    unfold makeTable_io.
    assert (G : forall m k tbl, k + m = length g ->
      (forall j r fol, j < k -> nth_error g j = Some r -> nth_error follows j = Some fol -> ~ clash g firsts fol (r_tail r)) ->
      snd (makeTable_loop_io g rm firsts follows (seq k m) tbl) = Err EConflict ->
      exists ops, first_contested g FC ops /\
        fst (makeTable_loop_io g rm firsts follows (seq k m) tbl) = println_ops ops).
    { induction m as [|m IH]; intros k tbl Hk Old H; cbn [seq makeTable_loop_io] in *; [discriminate|].
      destruct (nth_error g k) as [r|] eqn:Er; [|apply nth_error_None in Er; lia].
      destruct (nth_error follows k) as [fol|] eqn:Ef; [|apply nth_error_None in Ef; lia].
      pose proof (all_wf_nth _ _ _ Wo Ef) as Wfol.
      assert (Erow : makeTableRow_io g rm firsts follows k = row_loop_io rm firsts fol (r_tail r) []).
      { unfold makeTableRow_io, index. rewrite Er, Ef. unfold iobind, quiet. cbn.
        destruct (row_loop_io rm firsts fol (r_tail r) []) as [out x]. reflexivity. }
      rewrite Erow in H |- *.
      pose proof (row_loop_hushed rm firsts fol (r_tail r) []) as Hu.
      pose proof (row_loop_snd rm firsts fol (r_tail r) []) as S1.
      assert (Rl : snd (row_loop_io rm firsts fol (r_tail r) []) = Err EConflict -> exists ops,
        first_contested g FC ops /\ fst (row_loop_io rm firsts fol (r_tail r) []) = println_ops ops).
      { intros HC. destruct (row_line k r fol Er Ef (r_tail r) [] []) as (before & s & after & t & v & Et & Ncl & Hn & Ht & Hc & Hm & Hop & Hf);
          [reflexivity|intros b; reflexivity| |intros s b []|exact HC|].
        { intros (p & s & post & t & E & _). destruct p; discriminate. }
        exists v. split; [|exact Hf].
        assert (Alt : forall s, In s (r_tail r) -> alternative g (r_head r) s) by (apply (rule_alts g k r Er)).
        assert (Ab : forall s, In s before -> alternative g (r_head r) s).
        { intros x Hx. apply Alt. rewrite Et. apply in_or_app. left. exact Hx. }
        assert (As : alternative g (r_head r) s).
        { apply Alt. rewrite Et. apply in_or_app. right. left. reflexivity. }
        exists k, r, before, s, after, t. split; [exact Er|]. split; [exact Et|].
        split; [apply (contested_iff k r fol before s t Er Ef Ab As); repeat split; auto; congruence|].
        split; [eapply cell_prefix; eassumption|]. split; [|split].
        - intros b' Hlt HX. apply (contested_iff k r fol before s b' Er Ef Ab As) in HX.
          destruct HX as (_ & H2 & H3). apply H3, Hm; assumption.
        - intros p s' q b' Eb HX. assert (Ap : forall s, In s p -> alternative g (r_head r) s).
          { intros x Hx. apply Ab. rewrite Eb. apply in_or_app. left. exact Hx. }
          apply (contested_iff k r fol p s' b' Er Ef Ap) in HX.
          + apply Ncl. exists p, s', q, b'. tauto.
          + apply Ab. rewrite Eb. apply in_or_app. right. left. reflexivity.
        - intros j r' p s' q b' Hj Hr' Et' HX.
          destruct (nth_error follows j) as [fol'|] eqn:Ef'; [|apply nth_error_None in Ef'; lia].
          assert (Alt' : forall s, In s (r_tail r') -> alternative g (r_head r') s) by (apply (rule_alts g j r' Hr')).
          apply (contested_iff j r' fol' p s' b' Hr' Ef') in HX.
          + apply (Old j r' fol' Hj Hr' Ef'). exists p, s', q, b'. tauto.
          + intros x Hx. apply Alt'. rewrite Et'. apply in_or_app. left. exact Hx.
          + apply Alt'. rewrite Et'. apply in_or_app. right. left. reflexivity. }
      destruct (row_loop_io rm firsts fol (r_tail r) []) as [out [rw|e| |]]; unfold iobind in H |- *; cbn [fst snd] in *; try discriminate.
      - destruct Hu as [Hu|Hu]; [discriminate|]. cbn in Hu. subst out. cbn [app].
        apply IH; [lia| |exact H]. intros j r' fol' Hj Hr' Ef'.
        destruct (Nat.eq_dec j k) as [->|Nj]; [|apply (Old j); [lia|assumption..]].
        rewrite Er in Hr'. injection Hr' as <-. rewrite Ef in Ef'. injection Ef' as <-.
        destruct (row_full g firsts Wf fol Wfol (r_tail r)) as [R1 _]. fold rm in R1.
        destruct (R1 _ (eq_sym S1)) as (_ & NC & _). exact NC.
      - injection H as ->. apply Rl. reflexivity. }
    apply G; [lia|]. intros j r fol Hj. lia.
  Qed.
End Line.

(** The same rows for the grammar with the earlier definitions set aside. *)
Section Same.
  Variable g g' : grammar.
  Hypothesis S : last_definitions g g'.
  Let rm := enumerate (heads g).
  Let rm' := enumerate (heads g').
  Lemma row_loop_io_same firsts fol seqs : forall res, Forall (agrees g g') seqs ->
    row_loop_io rm firsts fol seqs res = row_loop_io rm' firsts fol seqs res.
  Proof.
    induction seqs as [|s seqs IH]; intros res A; cbn [row_loop_io]; [reflexivity|].
    inversion A as [|? ? As A']; subst. unfold rm, rm'. rewrite (sequenceFirsts_same g g' firsts s As).
    apply iobind_ext. intros sf. apply iobind_ext. intros (r1 & f1). apply iobind_ext. intros terms.
    rewrite (fill_firsts_same g g' terms s r1 As). apply iobind_ext. intros r2. apply IH, A'.
  Qed.
  Lemma makeTableRow_io_same firsts follows i :
    makeTableRow_io g rm firsts follows i = makeTableRow_io g' rm' firsts follows i.
  Proof.
    unfold makeTableRow_io. unfold index at 1 3. destruct (nth_error g i) as [r|] eqn:E.
    - destruct (sa_nth _ _ _ (proj1 S) i r E) as (r' & -> & Et & _).
      rewrite !iobind_ok.
      assert (X : forall fol, row_loop_io rm firsts fol (r_tail r) [] = row_loop_io rm' firsts fol (r_tail r') []).
      { intros fol. rewrite Et. apply row_loop_io_same. eapply rule_agrees; [exact S|exact E]. }
      apply iobind_ext, X.
    - apply nth_error_None in E. rewrite <- (sa_length _ _ _ (proj1 S)) in E. apply nth_error_None in E.
      rewrite E, !iobind_panic. reflexivity.
  Qed.
  Lemma makeTable_io_same firsts follows : makeTable_io g rm firsts follows = makeTable_io g' rm' firsts follows.
  Proof.
    unfold makeTable_io. rewrite (sa_length _ _ _ (proj1 S)). generalize (@nil (Z * row)) as tbl.
    induction (seq 0 (length g)) as [|i l IH]; intros tbl; cbn [makeTable_loop_io]; [reflexivity|].
    rewrite makeTableRow_io_same. apply iobind_ext. intros r. apply IH.
  Qed.
End Same.

Lemma FromGrammar_line order fuel g g' :
  last_definitions g g' -> terminals_nulfree g ->
  snd (FromGrammar_io order fuel g) = Err EConflict ->
  exists ops, first_contested g' (follow_last g g') ops /\ fst (FromGrammar_io order fuel g) = println_ops ops.
Proof.
  intros S T0 H. pose proof (nulfree_last _ _ S T0) as T. pose proof (sa_length _ _ _ (proj1 S)) as Lg.
  unfold FromGrammar_io in *. unfold collectRuleHeads in *. fold (heads g) in *.
  replace (length (heads g)) with (length g) in * by (unfold heads; rewrite map_length; reflexivity).
  destruct (iobind_fail _ _ _ H) as [(H1 & ->)|(a & _ & H1 & _)]; [|discriminate]. clear H.
  unfold Run_io in *.
  destruct (quiet_fail _ _ _ H1) as [H2|(firsts & E1 & H2 & ->)]; clear H1.
  { exfalso. assert (B1 : blames (first_fault g') (findFirsts g (enumerate (heads g)) fuel (repeat (bs_new []) (length g)))).
    { rewrite (findFirsts_same g g' S), <- Lg. apply findFirsts_blames; [exact T|apply repeat_wf|apply repeat_length|].
      intros j d E. rewrite repeat_empty in E. discriminate. }
    rewrite H2 in B1. inversion B1. }
  rewrite (findFirsts_same g g' S), <- Lg in E1.
  pose proof (findFirsts_exact g' fuel firsts (proj2 S) T E1) as FE.
  pose proof (fe_wf _ _ FE) as Wf. pose proof (fe_length _ _ FE) as Lf.
  destruct (quiet_fail _ _ _ H2) as [H3|(follows & E2 & H3 & ->)]; clear H2.
  { exfalso. pose proof (findFollows_blames g firsts Wf (eq_trans Lf Lg) fuel) as B2. rewrite H3 in B2. inversion B2. }
  destruct (findFollows_facts _ _ _ _ Wf E2) as (Wo & Lo). rewrite <- Lg in Lo.
  pose proof (findFollows_last g g' S T firsts FE fuel follows E2) as FO.
  rewrite (makeTable_io_same g g' S) in *.
  apply (makeTable_line g' firsts follows T FE (follow_last g g') Wo Lo FO H3).
Qed.
