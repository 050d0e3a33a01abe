(** * TGLeftRec: when Parse returns. *)
From Verif Require Import Base ByteSet Ast Cst Parser TableGen Spec_Parse Spec_Tree Spec_Grammar Spec_Table Spec_LeftRec
  ByteSetProofs GrammarProofs ParserProofs TreeProofs ParseApi ParseApi2
  TGFirsts TGFollows TGTable TGMain TGCells TGClosed TGParse.
From Coq Require Import Relations.

Section Halt.
  Variable tbl : table.
  Variable src : bytes.
  Hypothesis Nf : table_nulfree tbl.
  Let reached := rewrites_star tbl src (0, [Row 0]).
  Hypothesis NoCycle : forall k n form, reached (k, Row n :: form) -> ~ left_recursive_row tbl (byte_at src k) n.

  Let keys := map fst tbl.

  Lemma cell_key n c ops : cell tbl n c ops -> In n keys.
  Proof.
    intros (r & H & _). unfold keys. change n with (fst (n, r)). apply in_map.
    apply (map_get_in Z.eqb Z.eqb_eq). exact H.
  Qed.

  Lemma vanishes_app c u v : vanishes tbl c u -> vanishes tbl c v -> vanishes tbl c (u ++ v).
  Proof. induction 1 as [|n ops l H1 H2 H3 _ H4 IH]; intros Hv; [exact Hv|]. cbn. econstructor; eauto. Qed.
  Lemma vanishes_rws k u : vanishes tbl (byte_at src k) u -> forall v, rewrites_star tbl src (k, u ++ v) (k, v).
  Proof.
    induction 1 as [|n ops l H1 H2 H3 IH1 H4 IH2]; intros v; [constructor|]. cbn [app].
    econstructor; [apply rw_row; eassumption|]. eapply rws_trans; [apply IH1|apply IH2].
  Qed.

  (** What becomes of [u] in front of [v]. *)
  Definition fate (k : nat) (u v : list item) : Prop :=
    halts tbl src (k, u ++ v) \/ vanishes tbl (byte_at src k) u \/
    exists k' its, k < k' /\ rewrites_star tbl src (k, u ++ v) (k', its).

  Lemma fate_row k : forall N seen n v,
    length keys <= N + length seen -> NoDup seen -> incl seen keys ->
    (forall m, In m seen -> clos_trans Z (leads tbl (byte_at src k)) m n) ->
    reached (k, Row n :: v) -> fate k [Row n] v.
  Proof.
    set (c := byte_at src k).
    induction N as [|N IH]; intros seen n v Ln Nd Inc Ch R.
    all: assert (Dec : halts tbl src (k, Row n :: v) \/
        (exists its, rewrites_star tbl src (k, Row n :: v) (S k, its)) \/
        ((0 <= n)%Z /\ exists ops, cell tbl n c ops)).
    all: try (
      destruct (Z_lt_le_dec n 0) as [Neg|Pos];
      [ destruct (Z.eq_dec n (-2)) as [->|N2];
        [ destruct (ascii_dec c LF) as [E|N1];
          [ right; left; exists v; econstructor; [apply rw_eol_lf, E|]; apply rws_one, rw_byte, E
          | destruct (ascii_dec c CR) as [E|N3];
            [ right; left; exists (Byte LF :: v); econstructor; [apply rw_eol_cr, E|]; apply rws_one, rw_byte, E
            | left; exists (k, Row (-2) :: v); split; [constructor|]; intros c' X; inversion X; subst; try lia; contradiction ] ]
        | left; exists (k, Row n :: v); split; [constructor|]; intros c' X; inversion X; subst; lia ]
      | destruct (map_get Z.eqb n tbl) as [rw|] eqn:E1;
        [ destruct (map_get Ascii.eqb c rw) as [ops|] eqn:E2;
          [ right; right; split; [exact Pos|]; exists ops, rw; auto
          | left; exists (k, Row n :: v); split; [constructor|]; intros c' X; inversion X as [|? ? ? ? ? (rw' & A & B)| |]; subst; try lia; unfold c in *; congruence ]
        | left; exists (k, Row n :: v); split; [constructor|]; intros c' X; inversion X as [|? ? ? ? ? (rw' & A & B)| |]; subst; try lia; unfold c in *; congruence ] ]).
    all: destruct Dec as [H|[(its & H)|(Pos & ops & Hc)]];
      [left; exact H|right; right; exists (S k), its; split; [lia|exact H]|].
    all: assert (Ns : ~ In n seen) by (intros Hin; apply (NoCycle _ _ _ R); apply Ch, Hin).
    all: assert (Nk : In n keys) by (eapply cell_key, Hc).
    - exfalso. assert (X : length (n :: seen) <= length keys).
      { apply NoDup_incl_length; [constructor; assumption|]. intros x [<-|Hx]; [exact Nk|apply Inc, Hx]. }
      cbn in X. lia.
    - assert (St : rewrites_star tbl src (k, Row n :: v) (k, items ops ++ v))
        by (apply rws_one, rw_row; assumption).
      assert (G : forall w u, items ops = u ++ w -> vanishes tbl c u ->
        reached (k, w ++ v) -> fate k w v).
      { induction w as [|x w IHw]; intros u Eu Vu Rw.
        - right. left. constructor.
        - destruct x as [m|b].
          + assert (Fm : fate k [Row m] (w ++ v)).
            { apply (IH (n :: seen) m (w ++ v)).
              - cbn. lia.
              - constructor; assumption.
              - intros x [<-|Hx]; [exact Nk|apply Inc, Hx].
              - assert (Lm : leads tbl c n m) by (split; [exact Pos|]; exists ops, u, w; auto).
                intros x [<-|Hx]; [apply t_step, Lm|]. eapply t_trans; [apply Ch, Hx|apply t_step, Lm].
              - exact Rw. }
            destruct Fm as [H|[H|(k' & its & H1 & H2)]].
            * left. exact H.
            * assert (Rw' : reached (k, w ++ v)).
              { eapply rws_trans; [exact Rw|]. apply (vanishes_rws k [Row m] H). }
              destruct (IHw (u ++ [Row m])) as [H'|[H'|(k' & its & H1 & H2)]].
              -- rewrite <- app_assoc. exact Eu.
              -- apply vanishes_app; [exact Vu|exact H].
              -- exact Rw'.
              -- left. eapply halts_star; [apply (vanishes_rws k [Row m] H)|exact H'].
              -- right. left. apply (vanishes_app _ [Row m] w H H').
              -- right. right. exists k', its. split; [exact H1|]. eapply rws_trans; [|exact H2].
                 apply (vanishes_rws k [Row m] H).
            * right. right. exists k', its. auto.
          + destruct (ascii_dec (byte_at src k) b) as [E|Nb].
            * right. right. exists (S k), (w ++ v). split; [lia|]. apply rws_one. cbn [app]. apply rw_byte, E.
            * left. exists (k, Byte b :: w ++ v). split; [constructor|]. intros c' X. inversion X; subst. congruence. }
      destruct (G (items ops) []) as [H|[H|(k' & its & H1 & H2)]].
      + reflexivity.
      + constructor.
      + eapply rws_trans; [exact R|exact St].
      + left. eapply halts_star; [exact St|exact H].
      + right. left. econstructor; [exact Pos|exact Hc|exact H|constructor].
      + right. right. exists k', its. split; [exact H1|]. eapply rws_trans; [exact St|exact H2].
  Qed.

  Lemma reached_halts m : forall k form, length src - k <= m -> k <= length src -> reached (k, form) -> halts tbl src (k, form).
  Proof.
    induction m as [m IHm] using lt_wf_ind. intros k form Lm Lk. 
    assert (Later : forall k' its, k < k' -> reached (k', its) -> halts tbl src (k', its)).
    { intros k' its Hk R. assert (k' <= length src) by (eapply matched_prefix; eassumption).
      apply (IHm (length src - k')); [lia|lia|lia|exact R]. }
    induction form as [|x form IH]; intros R.
    - exists (k, []). split; [constructor|]. intros c' X. inversion X.
    - destruct x as [n|b].
      + destruct (fate_row k (length keys) [] n form) as [H|[H|(k' & its & H1 & H2)]].
        * lia.
        * constructor.
        * intros x [].
        * intros x [].
        * exact R.
        * exact H.
        * pose proof (vanishes_rws k [Row n] H form) as St. eapply halts_star; [exact St|].
          apply IH. eapply rws_trans; [exact R|exact St].
        * eapply halts_star; [exact H2|]. eapply Later; [exact H1|]. eapply rws_trans; [exact R|exact H2].
      + destruct (ascii_dec (byte_at src k) b) as [E|Nb].
        * eapply halts_star; [apply rws_one, rw_byte, E|]. apply Later; [lia|].
          eapply rws_trans; [exact R|]. apply rws_one, rw_byte, E.
        * exists (k, Byte b :: form). split; [constructor|]. intros c' X. inversion X; subst. congruence.
  Qed.
End Halt.

(** ** Never returning *)

Lemma rewrites_det tbl text a b c : rewrites tbl text a b -> rewrites tbl text a c -> b = c.
Proof.
  intros R1 R2. inversion R1; subst; inversion R2; subst; try reflexivity; try lia; try congruence;
    try (match goal with H1 : byte_at _ _ = LF, H2 : byte_at _ _ = CR |- _ => rewrite H1 in H2; discriminate end).
  match goal with H1 : cell _ _ _ ?o1, H2 : cell _ _ _ ?o2 |- _ =>
    rewrite (cell_fun _ _ _ _ _ H1 H2); reflexivity end.
Qed.

Section Loop.
  Variable tbl : table.
  Variable src : bytes.
  Let rw := rewrites tbl src.

  Inductive rwn : nat -> nat * list item -> nat * list item -> Prop :=
  | rwn_0 a : rwn 0 a a
  | rwn_S n a b c : rw a b -> rwn n b c -> rwn (S n) a c.
  Lemma rws_rwn a b : rewrites_star tbl src a b -> exists n, rwn n a b.
  Proof. induction 1 as [a|a b c H _ (n & IH)]; eexists; [constructor|econstructor; eassumption]. Qed.

  (** More than nothing happens on the way round a cycle. *)
  Lemma leads_plus k n m form : leads tbl (byte_at src k) n m ->
    exists b form', rw (k, Row n :: form) b /\ rewrites_star tbl src b (k, Row m :: form').
  Proof.
    intros (Hn & ops & u & v & Hc & E & V). exists (k, items ops ++ form), (v ++ form). split.
    - apply rw_row; assumption.
    - rewrite E, <- app_assoc. cbn [app]. apply vanishes_rws, V.
  Qed.
  Lemma cycle_plus k n m : clos_trans Z (leads tbl (byte_at src k)) n m -> forall form,
    exists b form', rw (k, Row n :: form) b /\ rewrites_star tbl src b (k, Row m :: form').
  Proof.
    induction 1 as [n m H|n m p _ IH1 _ IH2]; intros form; [apply leads_plus, H|].
    destruct (IH1 form) as (b & f1 & H1 & H2). destruct (IH2 f1) as (b2 & f2 & H3 & H4).
    exists b, f2. split; [exact H1|]. eapply rws_trans; [exact H2|]. eapply rws_trans; [apply rws_one, H3|exact H4].
  Qed.

  Lemma cycle_never k n : left_recursive_row tbl (byte_at src k) n ->
    forall steps form d, rwn steps (k, Row n :: form) d -> ~ irreducible tbl src d.
  Proof.
    intros C. induction steps as [steps IH] using lt_wf_ind. intros form d H I.
    destruct (cycle_plus k n n C form) as (b & f1 & H1 & H2).
    inversion H as [a|s a b' ? H3 H4]; subst; [exact (I _ H1)|].
    rewrite (rewrites_det _ _ _ _ _ H3 H1) in H4. clear H3 H b'.
    (* follow the way from b to the row again *)
    assert (G : forall x y, rewrites_star tbl src x y -> forall j, rwn j x d -> exists i, i <= j /\ rwn i y d).
    { intros x y Hxy. induction Hxy as [x|x x' y S _ IHxy]; intros j Hj; [exists j; auto|].
      inversion Hj as [a|j' a b' ? S' Hj']; subst; [destruct (I _ S)|].
      rewrite (rewrites_det _ _ _ _ _ S' S) in Hj'. destruct (IHxy _ Hj') as (i & Hi & Hi').
      exists i. split; [lia|exact Hi']. }
    destruct (G _ _ H2 _ H4) as (i & Hi & Hi'). eapply (IH i); [lia|exact Hi'|exact I].
  Qed.

  Lemma reached_never c k n form :
    rewrites_star tbl src c (k, Row n :: form) -> left_recursive_row tbl (byte_at src k) n -> ~ halts tbl src c.
  Proof.
    intros H C (d & Hd & I). revert H Hd. generalize I. intros _ H Hd.
    assert (G : rewrites_star tbl src (k, Row n :: form) d).
    { remember (k, Row n :: form) as e eqn:Ee. clear Ee. induction H as [c|c c' e S _ IH]; [exact Hd|].
      apply IH. inversion Hd as [? E1 E2|? c2 ? S2 R]; subst; [destruct (I _ S)|].
      rewrite (rewrites_det _ _ _ _ _ S S2). exact R. }
    destruct (rws_rwn _ _ G) as (steps & Hs). exact (cycle_never k n C steps form d Hs I).
  Qed.
End Loop.

(** ** Generated tables *)
Section Generated.
  Variable g : grammar.
  Variable tbl : table.
  Hypothesis T : table_spec g tbl.

  Lemma cell_rule n c ops : cell tbl n c ops ->
    exists i r, n = Z.of_nat i /\ nth_error g i = Some r /\ cell_spec g (follow_code g) r c (Some ops).
  Proof.
    intros (rw & H1 & H2). destruct T as (K & H).
    assert (In n (map fst tbl)).
    { change n with (fst (n, rw)). apply in_map. apply (map_get_in Z.eqb Z.eqb_eq). exact H1. }
    rewrite K in H0. apply in_map_iff in H0. destruct H0 as (i & <- & Hi). apply in_seq in Hi.
    destruct (nth_error g i) as [r|] eqn:E; [|apply nth_error_None in E; lia].
    destruct (H i r c E) as (rw' & A & B). rewrite H1 in A. injection A as <-. rewrite H2 in B.
    exists i, r. auto.
  Qed.

  Lemma items_split s ops : operands g s ops -> forall u its, items ops = u ++ its ->
    exists u' its', seq_form s = u' ++ its' /\ Forall2 (item_of g) u' u /\ Forall2 (item_of g) its' its.
  Proof.
    intros H u its E. apply operands_items in H. rewrite E in H. apply Forall2_app_inv_r in H.
    destruct H as (u' & its' & H1 & H2 & H3). exists u', its'. auto.
  Qed.

  Lemma vanishes_nullable c l : vanishes tbl c l -> forall u, Forall2 (item_of g) u l -> nullable g u.
  Proof.
    induction 1 as [|n ops l Hn Hc Hv IH1 _ IH2]; intros u F.
    - inversion F; subst. constructor.
    - inversion F as [|x ? u' ? X F']; subst. inversion X as [|m i Hi]; subst.
      apply (nullable_app g [NT m] u'). split; [|apply IH2, F'].
      destruct (cell_rule _ _ _ Hc) as (i' & r & Ei & Hr & chosen & Sel & Ho & Hsk).
      apply Nat2Z.inj in Ei. subst i'. apply heads_nth in Hi. destruct Hi as (r' & Hr' & <-).
      rewrite Hr in Hr'. injection Hr' as <-.
      assert (Hin : In r g) by (eapply nth_error_In, Hr).
      destruct chosen as [|s chosen].
      + destruct (Hsk eq_refl) as ((s & Hs & Hnul) & _). apply nullable_nt. exists s. split; [exists r; auto|exact Hnul].
      + apply nullable_nt. exists s. split.
        * exists r. split; [exact Hin|]. split; [reflexivity|].
          apply (selected_in _ _ _ _ s Sel). left. reflexivity.
        * pose proof (IH1 _ (operands_items _ _ _ Ho)) as N. cbn [concat] in N.
          unfold seq_form in N. rewrite flat_map_app in N. apply nullable_app in N. apply N.
  Qed.

  Lemma leads_yields c n m : leads tbl c n m -> forall a, item_of g (NT a) (Row n) ->
    exists b s v, item_of g (NT b) (Row m) /\ alternative g a s /\ yields g (seq_form s) (NT b :: v).
  Proof.
    intros (Hn & ops & u & v & Hc & E & V) a Ha. inversion Ha as [|? i Hi]; subst.
    destruct (cell_rule _ _ _ Hc) as (i' & r & Ei & Hr & chosen & Sel & Ho & _).
    apply Nat2Z.inj in Ei. subst i'. apply heads_nth in Hi. destruct Hi as (r' & Hr' & <-).
    rewrite Hr in Hr'. injection Hr' as <-.
    assert (Hin : In r g) by (eapply nth_error_In, Hr).
    destruct (items_split _ _ Ho _ _ E) as (u' & its & E' & F1 & F2).
    inversion F2 as [|x ? w ? X F3]; subst. inversion X as [|b j Hj]; subst.
    pose proof (vanishes_nullable _ _ V _ F1) as Nu.
    assert (Sub : forall s, In s chosen -> alternative g (r_head r) s).
    { intros s Hs. exists r. split; [exact Hin|]. split; [reflexivity|]. apply (selected_in _ _ _ _ s Sel), Hs. }
    clear - Nu E' Sub X.
    exists b. revert u' E' Nu. induction chosen as [|s chosen IH]; intros u' E' Nu; cbn [concat] in E'.
    - destruct u'; discriminate.
    - unfold seq_form in E'. rewrite flat_map_app in E'. fold (seq_form s) in E'. fold (seq_form (concat chosen)) in E'.
      assert (Sp : (exists w', seq_form s = u' ++ NT b :: w') \/
                   (exists u2, u' = seq_form s ++ u2 /\ seq_form (concat chosen) = u2 ++ NT b :: w)).
      { clear - E'. revert u' E'. induction (seq_form s) as [|y l IH]; intros u' E'.
        - right. exists u'. auto.
        - destruct u' as [|z u']; cbn in E'; injection E' as <- E'.
          + left. exists l. reflexivity.
          + destruct (IH u' E') as [(w' & ->)|(u2 & -> & E2)]; [left; exists w'; reflexivity|].
            right. exists u2. auto. }
      destruct Sp as [(w' & Es)|(u2 & -> & E2)].
      + exists s, w'. split; [exact X|]. split; [apply Sub; left; reflexivity|]. rewrite Es.
        change (NT b :: w') with ([] ++ NT b :: w') at 2. apply yields_app; [exact Nu|constructor].
      + apply (IH (fun s' Hs' => Sub s' (or_intror Hs')) u2 E2). apply nullable_app in Nu. apply Nu.
  Qed.

  Lemma cycle_yields c n m : clos_trans Z (leads tbl c) n m -> forall a, item_of g (NT a) (Row n) ->
    exists b s v, item_of g (NT b) (Row m) /\ alternative g a s /\ yields g (seq_form s) (NT b :: v).
  Proof.
    induction 1 as [n m H|n m p _ IH1 _ IH2]; intros a Ha; [eapply leads_yields; eassumption|].
    destruct (IH1 a Ha) as (b & s & v & Hb & As & Y). destruct (IH2 b Hb) as (d & s2 & v2 & Hd & As2 & Y2).
    exists d, s, (v2 ++ v). split; [exact Hd|]. split; [exact As|].
    eapply yields_trans; [exact Y|]. change (NT b :: v) with ([NT b] ++ v). change (NT d :: v2 ++ v) with ((NT d :: v2) ++ v).
    apply yields_app; [|constructor]. eapply yields_trans; [apply yields_alt, As2|exact Y2].
  Qed.

  Lemma row_left_recursive c n : left_recursive_row tbl c n -> exists a, left_recursive g a.
  Proof.
    intros H.
    assert (Hc : exists ops, cell tbl n c ops /\ (0 <= n)%Z).
    { clear -H. unfold left_recursive_row in H. revert H. generalize n at 2. intros m H.
      induction H as [x y (Hx & ops & u & v & H & _)|x y z _ IH _ _]; [exists ops; auto|exact IH]. }
    destruct Hc as (ops & Hc & Hn). destruct (cell_rule _ _ _ Hc) as (i & r & -> & Hr & _).
    assert (Ha : item_of g (NT (r_head r)) (Row (Z.of_nat i))).
    { constructor. unfold heads. rewrite nth_error_map, Hr. reflexivity. }
    destruct (cycle_yields _ _ _ H _ Ha) as (b & s & v & Hb & As & Y).
    inversion Hb as [|? j Hj E1 E2]. apply Nat2Z.inj in E2. subst j.
    unfold heads in Hj. rewrite nth_error_map, Hr in Hj. injection Hj as <-.
    exists (r_head r), s, v. auto.
  Qed.
End Generated.
