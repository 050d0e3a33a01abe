(** * TGTable: rows and tables made from FIRST and FOLLOW sets. *)
From Coq Require Import Sorting.Sorted.
From Verif Require Import Base ByteSet Ast Parser TableGen Spec_Parse Spec_Grammar
  ByteSetProofs GrammarProofs ParseApi2 TGFirsts TGFollows.

Lemma aeqb_ok a b : Ascii.eqb a b = true <-> a = b.
Proof. apply Ascii.eqb_eq. Qed.

Lemma bs_range_ok s : bs_wf s ->
  exists l, bs_range s = Ok l /\ NoDup l /\ forall c, In c l <-> bs_contains s c = true.
Proof.
  intros W. destruct (bytes_spec s W) as (l & E & S & I). exists l. unfold bs_range. rewrite E.
  split; [reflexivity|]. split; [apply ssorted_nodup, S|exact I].
Qed.

Section Gen.
  Variable g : grammar.
  Let rm := enumerate (heads g).

  (** The operands of the symbols of an alternative. *)
  Definition op_of (x : symbol) : list ParserOp :=
    match x with
    | STerminal t => [OpTerminal t]
    | SNonTerminal n =>
        match rm_get rm n with Some i => [OpNonTerminal (Z.of_nat i)] | None => [] end
    | _ => []
    end.
  Definition ops_of (s : sequence) : list ParserOp := flat_map op_of s.

  (** A symbol that gets an operand. *)
  Definition opable (x : symbol) : Prop :=
    match x with
    | STerminal _ => True
    | SNonTerminal n => defined g n
    | _ => False
    end.

  Definition cell_or_nil (b : ascii) (r : row) : list ParserOp :=
    match row_get b r with Some l => l | None => [] end.

  Lemma row_append_get b op r c :
    row_get c (row_append b op r) =
    if Ascii.eqb c b then Some (cell_or_nil b r ++ [op]) else row_get c r.
  Proof. unfold row_append, row_get. apply map_get_set, aeqb_ok. Qed.

  Lemma fill_symbols_spec t syms : forall r out,
    fill_symbols rm t syms r = Ok out ->
    Forall opable syms /\
    forall c, row_get c out =
      if Ascii.eqb c t then match syms with [] => row_get c r | _ => Some (cell_or_nil t r ++ ops_of syms) end
      else row_get c r.
  Proof.
    induction syms as [|x syms IH]; intros r out H; cbn [fill_symbols] in H.
    - injection H as <-. split; [constructor|]. intros c. destruct (Ascii.eqb c t); reflexivity.
    - assert (G : forall op, op_of x = [op] -> opable x ->
                fill_symbols rm t syms (row_append t op r) = Ok out ->
                Forall opable (x :: syms) /\
                forall c, row_get c out =
                  if Ascii.eqb c t then Some (cell_or_nil t r ++ ops_of (x :: syms)) else row_get c r).
      { intros op Eop Hx Hf. destruct (IH _ _ Hf) as [I1 I2]. split; [constructor; assumption|].
        intros c. rewrite I2. unfold ops_of. simpl. rewrite Eop. fold (ops_of syms).
        destruct (Ascii.eqb_spec c t) as [->|N].
        - unfold cell_or_nil at 1. rewrite row_append_get, Ascii.eqb_refl.
          destruct syms as [|y syms]; [reflexivity|]. rewrite <- app_assoc. reflexivity.
        - rewrite row_append_get. apply Ascii.eqb_neq in N. rewrite N. reflexivity. }
      destruct x as [n|s| |str]; try discriminate.
      + destruct (rm_get rm n) as [i|] eqn:E; [|discriminate]. eapply G; [simpl; rewrite E; reflexivity| |exact H].
        simpl. destruct (in_dec bytes_eq_dec n (heads g)) as [Hin|Hin]; [exact Hin|].
        apply enumerate_none in Hin. unfold rm_get, rm in E. congruence.
      + eapply G; [reflexivity|exact I|exact H].
  Qed.

  Lemma fill_symbols_ok t syms : forall r,
    Forall opable syms -> exists out, fill_symbols rm t syms r = Ok out.
  Proof.
    induction syms as [|x syms IH]; intros r H; cbn [fill_symbols]; [eauto|].
    inversion H as [|? ? Hx Hs]; subst. destruct x as [n|s| |str]; try destruct Hx.
    - destruct (rm_get rm n) as [i|] eqn:E; [apply IH, Hs|]. apply enumerate_none in E.
      destruct (E Hx).
    - apply IH, Hs.
  Qed.

  Lemma fill_firsts_spec terms : forall s r out,
    NoDup terms -> fill_firsts rm terms s r = Ok out ->
    (terms <> [] -> Forall opable s) /\
    forall c, row_get c out =
      if existsb (Ascii.eqb c) terms
      then match s with [] => row_get c r | _ => Some (cell_or_nil c r ++ ops_of s) end
      else row_get c r.
  Proof.
    induction terms as [|t terms IH]; intros s r out N H; cbn [fill_firsts] in H.
    - injection H as <-. split; [congruence|reflexivity].
    - inversion N as [|? ? Nt Nd]; subst.
      destruct (fill_symbols rm t s r) as [r1| | |] eqn:E; try discriminate. cbn [gobind] in H.
      destruct (fill_symbols_spec _ _ _ _ E) as [F1 F2].
      destruct (IH _ _ _ Nd H) as [I1 I2]. split; [intros _; exact F1|].
      intros c. rewrite I2. cbn [existsb]. destruct (Ascii.eqb_spec c t) as [->|Nc]; cbn [orb].
      + assert (existsb (Ascii.eqb t) terms = false) as ->.
        { apply Bool.not_true_iff_false. intros X. apply existsb_exists in X.
          destruct X as (y & Hy & E'). apply Ascii.eqb_eq in E'. subst. auto. }
        rewrite F2, Ascii.eqb_refl. reflexivity.
      + unfold cell_or_nil. rewrite F2. apply Ascii.eqb_neq in Nc. rewrite Nc. reflexivity.
  Qed.

  Lemma fill_firsts_ok terms s : forall r,
    Forall opable s -> exists out, fill_firsts rm terms s r = Ok out.
  Proof.
    induction terms as [|t terms IH]; intros r H; cbn [fill_firsts]; [eauto|].
    destruct (fill_symbols_ok t s r H) as (r1 & ->). cbn [gobind]. apply IH, H.
  Qed.

  Lemma fill_follows_spec terms : forall r,
    NoDup terms ->
    (forall out, fill_follows terms r = Ok out ->
      (forall t, In t terms -> row_get t r = None) /\
      forall c, row_get c out = if existsb (Ascii.eqb c) terms then Some [] else row_get c r) /\
    (forall e, fill_follows terms r = Err e ->
      e = EConflict /\ exists t l, In t terms /\ row_get t r = Some l) /\
    (forall p, fill_follows terms r <> Panic p) /\ fill_follows terms r <> NoFuel.
  Proof.
    induction terms as [|t terms IH]; intros r N; cbn [fill_follows].
    - split; [|split; [discriminate|split; discriminate]].
      intros out H. injection H as <-. split; [intros t []|reflexivity].
    - inversion N as [|? ? Nt Nd]; subst.
      destruct (row_get t r) as [l|] eqn:E.
      + split; [discriminate|]. split; [|split; discriminate].
        intros e H. injection H as <-. split; [reflexivity|]. exists t, l. split; [left|]; auto.
      + destruct (IH (map_set Ascii.eqb t [] r) Nd) as (I1 & I2 & I3 & I4).
        assert (G : forall c, row_get c (map_set Ascii.eqb t [] r) =
                     if Ascii.eqb c t then Some [] else row_get c r)
          by (intros c; unfold row_get; apply map_get_set, aeqb_ok).
        split; [|split; [|split; assumption]].
        * intros out H. destruct (I1 _ H) as [J1 J2]. split.
          -- intros x [<-|Hx]; [exact E|]. specialize (J1 _ Hx). rewrite G in J1.
             destruct (Ascii.eqb x t); [discriminate|exact J1].
          -- intros c. rewrite J2, G. cbn [existsb]. destruct (Ascii.eqb c t); cbn [orb]; [|reflexivity].
             destruct (existsb (Ascii.eqb c) terms); reflexivity.
        * intros e H. destruct (I2 _ H) as (-> & x & l & Hx & Hl). split; [reflexivity|].
          exists x, l. split; [right; exact Hx|]. rewrite G in Hl.
          destruct (Ascii.eqb_spec x t) as [->|Nx]; [destruct (Nt Hx)|exact Hl].
  Qed.

  Variable firsts : list ByteSet.
  Hypothesis Wfirsts : all_wf firsts.
  Variable fol : ByteSet.
  Hypothesis Wfol : bs_wf fol.
  Definition has (s : sequence) (c : ascii) : bool := form_has (first_of g firsts) (seq_form s) c.
  Definition takes (b : ascii) (s : sequence) : bool := has s b && negb (Ascii.eqb b NUL).

  (** What the cell of byte [b] holds after the alternatives [seqs]. *)
  Definition cell_of (seqs : list sequence) (b : ascii) : option (list ParserOp) :=
    match filter (takes b) seqs with
    | [] => if existsb (fun s => has s NUL) seqs && bs_contains fol b then Some [] else None
    | l => Some (flat_map ops_of l)
    end.

  (** An alternative that can be empty meets an occupied cell. *)
  Definition clash (seqs : list sequence) : Prop :=
    exists pre s post t, seqs = pre ++ s :: post /\ has s NUL = true /\
      bs_contains fol t = true /\ cell_of pre t <> None.

  Definition row_inv (pre : list sequence) (r : row) : Prop :=
    forall b, row_get b r = cell_of pre b.

  Lemma has_nil b : has [] b = true -> b = NUL.
  Proof. unfold has. simpl. apply Ascii.eqb_eq. Qed.

  Lemma cell_of_snoc pre s b :
    cell_of (pre ++ [s]) b =
    if takes b s then
      Some ((match cell_of pre b with Some l => l | None => [] end) ++ ops_of s)
    else if has s NUL && bs_contains fol b then
      Some (match cell_of pre b with Some l => l | None => [] end)
    else cell_of pre b.
  Proof.
    unfold cell_of. rewrite filter_app, existsb_app. cbn [filter existsb].
    rewrite orb_false_r. destruct (takes b s) eqn:Et.
    - destruct (filter (takes b) pre) as [|x l] eqn:Ef; cbn [app flat_map].
      + rewrite app_nil_r. destruct (existsb (fun s => has s NUL) pre && bs_contains fol b); reflexivity.
      + rewrite flat_map_app. cbn [flat_map]. rewrite app_nil_r, app_assoc. reflexivity.
    - rewrite app_nil_r. destruct (filter (takes b) pre) as [|x l] eqn:Ef.
      + destruct (existsb (fun s => has s NUL) pre), (has s NUL), (bs_contains fol b); reflexivity.
      + destruct (has s NUL && bs_contains fol b); reflexivity.
  Qed.

  (** One alternative, as in [row_loop]. *)
  Definition row_one (s : sequence) (res : row) : tgres row :=
    go seqFirsts <- sequenceFirsts rm firsts s;
    go (res, seqFirsts) <-
      (if bs_contains seqFirsts EOS then
         go terms <- bs_range fol;
         go res' <- fill_follows terms res;
         Ok (res', bs_remove seqFirsts EOS)
       else Ok (res, seqFirsts));
    go terms <- bs_range seqFirsts;
    fill_firsts rm terms s res.
  Lemma row_loop_cons s seqs res :
    row_loop rm firsts fol (s :: seqs) res =
    gobind (row_one s res) (row_loop rm firsts fol seqs).
  Proof.
    unfold row_one. cbn [row_loop].
    destruct (sequenceFirsts rm firsts s) as [sf| | |]; cbn [gobind]; try reflexivity.
    match goal with |- gobind ?m _ = _ => destruct m as [[r1 f1]| | |] end; cbn [gobind]; try reflexivity.
    destruct (bs_range f1); cbn [gobind]; reflexivity.
  Qed.

  Lemma row_one_spec s pre res :
    row_inv pre res ->
    (forall out, row_one s res = Ok out ->
       row_inv (pre ++ [s]) out /\
       (has s NUL = true -> forall t, bs_contains fol t = true -> cell_of pre t = None) /\
       (forall b, takes b s = true -> Forall opable s)) /\
    (forall sf, sequenceFirsts rm firsts s = Ok sf -> Forall opable s \/ (forall b, takes b s = false) ->
       (exists out, row_one s res = Ok out) \/
       (row_one s res = Err EConflict /\ has s NUL = true /\
        exists t, bs_contains fol t = true /\ cell_of pre t <> None)).
  Proof.
    intros Inv. unfold row_one.
    destruct (sequenceFirsts rm firsts s) as [sf| | |] eqn:Esf; cbn [gobind];
      try (split; discriminate).
    pose proof (sequenceFirsts_spec _ _ _ _ Esf) as Hsf. fold has in Hsf.
    pose proof (sequenceFirsts_wf _ _ _ _ Wfirsts Esf) as Wsf.
    destruct (bs_range_ok fol Wfol) as (fl & Efl & Nfl & Ifl).
    (* the set of bytes of the second loop *)
    assert (Sec : forall f2 r1, bs_wf f2 ->
       (forall c, bs_contains f2 c = takes c s) ->
       (forall b, row_get b r1 = if has s NUL && bs_contains fol b then
                                   Some (match cell_of pre b with Some l => l | None => [] end)
                                 else cell_of pre b) ->
       (forall out, (go terms <- bs_range f2; fill_firsts rm terms s r1) = Ok out ->
          row_inv (pre ++ [s]) out /\ (forall b, takes b s = true -> Forall opable s)) /\
       (Forall opable s \/ (forall b, takes b s = false) ->
          exists out, (go terms <- bs_range f2; fill_firsts rm terms s r1) = Ok out)).
    { intros f2 r1 W2 H2 Hr1. destruct (bs_range_ok f2 W2) as (l2 & -> & N2 & I2). cbn [gobind].
      split.
      - intros out Ho. destruct (fill_firsts_spec _ _ _ _ N2 Ho) as [F1 F2]. split.
        + intros b. rewrite F2, cell_of_snoc.
          assert (Ex : existsb (Ascii.eqb b) l2 = takes b s).
          { rewrite <- H2. destruct (bs_contains f2 b) eqn:Eb.
            - apply existsb_exists. exists b. split; [apply I2, Eb|apply Ascii.eqb_refl].
            - apply Bool.not_true_iff_false. intros X. apply existsb_exists in X.
              destruct X as (y & Hy & E). apply Ascii.eqb_eq in E. subst. apply I2 in Hy. congruence. }
          rewrite Ex. unfold cell_or_nil. rewrite Hr1. destruct (takes b s) eqn:Et; [|reflexivity].
          destruct s as [|x s'].
          * apply andb_true_iff in Et. destruct Et as [Et1 Et2]. apply has_nil in Et1. subst.
            discriminate.
          * destruct (has (x :: s') NUL && bs_contains fol b); reflexivity.
        + intros b Hb. apply F1. intros ->. rewrite <- H2 in Hb. apply I2 in Hb. destruct Hb.
      - intros [Ho|Hn]; [apply fill_firsts_ok, Ho|]. destruct l2 as [|t l2]; [simpl; eauto|].
        exfalso. specialize (Hn t). rewrite <- H2 in Hn.
        assert (bs_contains f2 t = true) by (apply I2; left; reflexivity). congruence. }
    unfold EOS. destruct (bs_contains sf NUL) eqn:En; cbn [gobind].
    - assert (Hn : has s NUL = true) by (unfold has; rewrite <- Hsf; exact En).
      rewrite Efl. cbn [gobind].
      assert (W2 : bs_wf (bs_remove sf NUL)) by (apply remove_wf, Wsf).
      assert (H2 : forall c, bs_contains (bs_remove sf NUL) c = takes c s).
      { intros c. rewrite contains_remove, Hsf. apply andb_comm. }
      destruct (fill_follows_spec fl res Nfl) as (FF1 & FF2 & FF3 & FF4).
      destruct (fill_follows fl res) as [r1|e|p|] eqn:Eff; cbn [gobind].
      + destruct (FF1 _ eq_refl) as [G1 G2].
        assert (Free : forall t, bs_contains fol t = true -> cell_of pre t = None).
        { intros t Ht. rewrite <- Inv. apply G1, Ifl, Ht. }
        destruct (Sec (bs_remove sf NUL) r1 W2 H2) as [S1 S2].
        * intros b. rewrite G2, Hn. cbn [andb].
          assert (Ex : existsb (Ascii.eqb b) fl = bs_contains fol b).
          { destruct (bs_contains fol b) eqn:Eb.
            - apply existsb_exists. exists b. split; [apply Ifl, Eb|apply Ascii.eqb_refl].
            - apply Bool.not_true_iff_false. intros X. apply existsb_exists in X.
              destruct X as (y & Hy & E). apply Ascii.eqb_eq in E. subst. apply Ifl in Hy. congruence. }
          rewrite Ex. destruct (bs_contains fol b) eqn:Eb; [|apply Inv].
          rewrite (Free _ Eb). reflexivity.
        * split.
          -- intros out Ho. destruct (S1 _ Ho) as [T1 T2]. auto.
          -- intros sf' _ Hop. left. apply S2, Hop.
      + split; [discriminate|]. intros sf' _ _. right. destruct (FF2 _ eq_refl) as (-> & t & l & Ht & Hl).
        split; [reflexivity|]. split; [exact Hn|]. exists t. split; [apply Ifl, Ht|].
        rewrite <- Inv. congruence.
      + destruct (FF3 p). reflexivity.
      + destruct (FF4 eq_refl).
    - assert (Hn : has s NUL = false) by (unfold has; rewrite <- Hsf; exact En).
      assert (H2 : forall c, bs_contains sf c = takes c s).
      { intros c. unfold takes. rewrite Hsf. destruct (Ascii.eqb_spec c NUL) as [->|Nc].
        - rewrite Hn. exact Hn.
        - rewrite andb_true_r. reflexivity. }
      destruct (Sec sf res Wsf H2) as [S1 S2].
      + intros b. rewrite Hn. cbn [andb]. apply Inv.
      + split.
        * intros out Ho. destruct (S1 _ Ho) as [T1 T2]. rewrite Hn. split; [exact T1|]. split; [discriminate|exact T2].
        * intros sf' _ Hop. left. apply S2, Hop.
  Qed.

  Definition seq_fine (s : sequence) : Prop :=
    (exists sf, sequenceFirsts rm firsts s = Ok sf) /\
    (Forall opable s \/ forall b, takes b s = false).

  Lemma row_loop_spec seqs : forall pre res,
    row_inv pre res ->
    (forall out, row_loop rm firsts fol seqs res = Ok out ->
       row_inv (pre ++ seqs) out /\
       (forall p1 s p2 t, seqs = p1 ++ s :: p2 -> has s NUL = true -> bs_contains fol t = true ->
          cell_of (pre ++ p1) t = None) /\
       (forall s b, In s seqs -> takes b s = true -> Forall opable s)) /\
    (Forall seq_fine seqs ->
       (exists out, row_loop rm firsts fol seqs res = Ok out) \/
       (row_loop rm firsts fol seqs res = Err EConflict /\
        exists p1 s p2 t, seqs = p1 ++ s :: p2 /\ has s NUL = true /\ bs_contains fol t = true /\
          cell_of (pre ++ p1) t <> None)).
  Proof.
    induction seqs as [|s seqs IH]; intros pre res Inv.
    - split.
      + intros out H. injection H as <-. rewrite app_nil_r. split; [exact Inv|]. split.
        * intros [|x p1] s p2 t E; discriminate.
        * intros s b [].
      + intros _. left. simpl. eauto.
    - rewrite row_loop_cons. destruct (row_one_spec s pre res Inv) as [O1 O2]. split.
      + intros out H. destruct (row_one s res) as [r1| | |] eqn:E1; try discriminate.
        cbn [gobind] in H. destruct (O1 _ eq_refl) as (Inv1 & Free & Op).
        destruct (IH _ _ Inv1) as [I1 _]. destruct (I1 _ H) as (J1 & J2 & J3).
        rewrite <- app_assoc in J1. split; [exact J1|]. split.
        * intros [|x p1] s' p2 t E Hn Ht; simpl in E; injection E as -> E.
          -- rewrite app_nil_r. apply Free; assumption.
          -- specialize (J2 _ _ _ _ E Hn Ht). rewrite <- app_assoc in J2. exact J2.
        * intros s' b [<-|Hin] Hb; [eapply Op; exact Hb|eapply J3; eassumption].
      + intros HF. inversion HF as [|? ? [(sf & Hsf) Hop] HF']; subst.
        destruct (O2 _ Hsf Hop) as [(r1 & E1)|(E1 & Hn & t & Ht & Hc)].
        * rewrite E1. cbn [gobind]. destruct (O1 _ E1) as (Inv1 & _ & _).
          destruct (IH _ _ Inv1) as [_ I2]. destruct (I2 HF') as [Ho|(Ee & p1 & s' & p2 & t & E & Hn & Ht & Hc)].
          -- left. exact Ho.
          -- right. split; [exact Ee|]. exists (s :: p1), s', p2, t. rewrite E.
             rewrite <- app_assoc in Hc. auto.
        * right. rewrite E1. split; [reflexivity|]. exists [], s, seqs, t.
          rewrite app_nil_r. auto.
  Qed.

  Lemma row_full seqs :
    (forall out, row_loop rm firsts fol seqs [] = Ok out ->
       (forall b, row_get b out = cell_of seqs b) /\ ~ clash seqs /\
       (forall s b, In s seqs -> takes b s = true -> Forall opable s)) /\
    (Forall seq_fine seqs ->
       (exists out, row_loop rm firsts fol seqs [] = Ok out) \/
       (row_loop rm firsts fol seqs [] = Err EConflict /\ clash seqs)).
  Proof.
    assert (Inv : row_inv [] []).
    { intros b. reflexivity. }
    destruct (row_loop_spec seqs [] [] Inv) as [R1 R2]. split.
    - intros out H. destruct (R1 _ H) as (J1 & J2 & J3). split; [exact J1|]. split; [|exact J3].
      intros (p1 & s & p2 & t & E & Hn & Ht & Hc). apply Hc. eapply J2; eassumption.
    - intros HF. destruct (R2 HF) as [Ho|(Ee & p1 & s & p2 & t & E)]; [left; exact Ho|right].
      split; [exact Ee|]. exists p1, s, p2, t. exact E.
  Qed.
End Gen.
