(** * TGNames: row names, iteration order, undefined non-terminals, divergence. *)
From Coq Require Import Sorting.Permutation.
From Verif Require Import Base ByteSet Ast Cst Parser TableGen Spec_Parse Spec_Tree Spec_Grammar Spec_Table
  ByteSetProofs GrammarProofs ParserProofs TreeProofs ParseApi ParseApi2
  TGFirsts TGFollows TGTable TGMain TGCells TGClosed TGParse.
Local Opaque bs_contains bs_remove bs_union bs_bytes sequenceFirsts.

(** ** Names (C25, C32) *)

Lemma enumerate_keys l : NoDup (map fst (enumerate l)).
Proof.
  unfold enumerate. assert (H : NoDup (map fst (@nil (bytes * nat)))) by constructor.
  revert H. generalize (@nil (bytes * nat)) as m, 0 as i.
  induction l as [|s l IH]; intros m i H; simpl; [exact H|].
  apply IH. apply map_set_nodup; [apply bytes_eqb_eq|exact H].
Qed.
Lemma enumerate_in l n i :
  In (n, i) (enumerate l) <-> nth_error l i = Some n /\ forall j, i < j -> nth_error l j <> Some n.
Proof.
  rewrite <- enumerate_get. symmetry. apply map_get_nodup; [apply bytes_eqb_eq|apply enumerate_keys].
Qed.
Lemma enumerate_values l : NoDup (map snd (enumerate l)).
Proof.
  pose proof (enumerate_keys l) as K.
  assert (J : forall a b i, In (a, i) (enumerate l) -> In (b, i) (enumerate l) -> a = b).
  { intros a b i Ha Hb. apply enumerate_in in Ha, Hb. destruct Ha as [Ha _], Hb as [Hb _]. congruence. }
  revert K J. generalize (enumerate l) as m. induction m as [|[a i] m IH]; intros K J; simpl; [constructor|].
  simpl in K. inversion K; subst. constructor.
  - intros Hin. apply in_map_iff in Hin. destruct Hin as ([b i'] & E & Hin). simpl in E. subst i'.
    assert (a = b) by (eapply J; [left; reflexivity|right; exact Hin]). subst b.
    match goal with H : ~ In a _ |- _ => apply H end. apply in_map_iff. exists (a, i). auto.
  - apply IH; [assumption|]. intros a' b' i' Ha Hb. eapply J; right; eassumption.
Qed.

Lemma rowNames_get o : NoDup (map snd o) -> forall k n,
  map_get Z.eqb k (rowNames_of o) = Some n <-> exists i, k = Z.of_nat i /\ In (n, i) o.
Proof.
  intros H. unfold rowNames_of.
  assert (G : forall m, (forall k n i, map_get Z.eqb k m = Some n -> In i (map snd o) -> k <> Z.of_nat i) ->
    forall k n, map_get Z.eqb k (fold_left (fun m kv => map_set Z.eqb (Z.of_nat (snd kv)) (fst kv) m) o m) = Some n <->
      (map_get Z.eqb k m = Some n \/ exists i, k = Z.of_nat i /\ In (n, i) o)).
  { revert H. induction o as [|[a i] o IH]; intros H m Hm k n; simpl.
    - split; [auto|]. intros [E|(j & _ & [])]. exact E.
    - simpl in H. inversion H as [|? ? Hi H']; subst. rewrite IH; [|exact H'|].
      + rewrite (map_get_set _ zeqb_ok). destruct (Z.eqb_spec k (Z.of_nat i)) as [->|N].
        * split.
          -- intros [E|(j & E & Hj)]; [injection E as <-; right; exists i; auto|right; exists j; auto].
          -- intros [E|(j & E & [Ej|Hj])].
             ++ exfalso. eapply Hm; [exact E|left; reflexivity|reflexivity].
             ++ injection Ej as -> _. left. reflexivity.
             ++ right. exists j. auto.
        * split.
          -- intros [E|(j & E & Hj)]; [auto|right; exists j; auto].
          -- intros [E|(j & E & [Ej|Hj])]; [auto| |right; exists j; auto].
             injection Ej as _ ->. congruence.
      + intros k' n' j E Hj. rewrite (map_get_set _ zeqb_ok) in E.
        destruct (Z.eqb_spec k' (Z.of_nat i)) as [->|N].
        * intros E'. apply Nat2Z.inj in E'. subst j. exact (Hi Hj).
        * eapply Hm; [exact E|right; exact Hj]. }
  intros k n. rewrite G; [|intros ? ? ? E; discriminate]. split; [intros [E|E]; [discriminate|exact E]|auto].
Qed.

Lemma FromGrammar_names order fuel g tbl names :
  (forall l, Permutation (order l) l) -> FromGrammar_order order fuel g = Ok (tbl, names) ->
  forall k n, map_get Z.eqb k names = Some n <->
    exists i, k = Z.of_nat i /\ nth_error (heads g) i = Some n /\
      forall j, i < j -> nth_error (heads g) j <> Some n.
Proof.
  intros P H. destruct (FromGrammar_generated _ _ _ _ _ H) as (f & o & _ & _ & _ & ->).
  intros k n. rewrite rowNames_get.
  - split; intros (i & E & Hi); exists i; (split; [exact E|]).
    + apply enumerate_in. eapply Permutation_in; [apply P|exact Hi].
    + apply enumerate_in in Hi. eapply Permutation_in; [apply Permutation_sym, P|exact Hi].
  - eapply Permutation_NoDup; [apply Permutation_map, Permutation_sym, P|apply enumerate_values].
Qed.

Lemma FromGrammar_names_nodup order fuel g tbl names :
  (forall l, Permutation (order l) l) -> NoDup (heads g) ->
  FromGrammar_order order fuel g = Ok (tbl, names) ->
  (forall i, map_get Z.eqb (Z.of_nat i) names = nth_error (heads g) i) /\
  (forall k, (k < 0)%Z -> map_get Z.eqb k names = None).
Proof.
  intros P Nd H. pose proof (FromGrammar_names _ _ _ _ _ P H) as G. split.
  - intros i. destruct (nth_error (heads g) i) as [n|] eqn:E.
    + apply G. exists i. split; [reflexivity|]. split; [exact E|]. intros j Hj E'.
      assert (i = j); [|lia]. eapply NoDup_nth_error; [exact Nd| |congruence]. apply nth_error_Some. congruence.
    + destruct (map_get Z.eqb (Z.of_nat i) names) as [n|] eqn:E'; [|reflexivity].
      apply G in E'. destruct E' as (j & Ej & H1 & _). apply Nat2Z.inj in Ej. congruence.
  - intros k Hk. destruct (map_get Z.eqb k names) as [n|] eqn:E'; [|reflexivity].
    apply G in E'. destruct E' as (j & -> & _). lia.
Qed.

(** The same outcome for two iteration orders: same table, same naming map (as
    a map), same error, same panic. *)
Definition same_outcome (a b : tgres (table * list (Z * bytes))) : Prop :=
  match a, b with
  | Ok (t1, n1), Ok (t2, n2) => t1 = t2 /\ forall k, map_get Z.eqb k n1 = map_get Z.eqb k n2
  | Err e1, Err e2 => e1 = e2
  | Panic p1, Panic p2 => p1 = p2
  | NoFuel, NoFuel => True
  | _, _ => False
  end.

Lemma FromGrammar_any_order o1 o2 fuel g :
  (forall l, Permutation (o1 l) l) -> (forall l, Permutation (o2 l) l) ->
  same_outcome (FromGrammar_order o1 fuel g) (FromGrammar_order o2 fuel g).
Proof.
  intros P1 P2.
  assert (N : forall t1 n1 t2 n2, FromGrammar_order o1 fuel g = Ok (t1, n1) ->
    FromGrammar_order o2 fuel g = Ok (t2, n2) -> forall k, map_get Z.eqb k n1 = map_get Z.eqb k n2).
  { intros t1 n1 t2 n2 H1 H2 k.
    pose proof (FromGrammar_names _ _ _ _ _ P1 H1 k) as G1. pose proof (FromGrammar_names _ _ _ _ _ P2 H2 k) as G2.
    destruct (map_get Z.eqb k n1) as [a|].
    - symmetry. apply G2, G1. reflexivity.
    - destruct (map_get Z.eqb k n2) as [b|]; [|reflexivity]. apply G1, G2. reflexivity. }
  revert N. rewrite !FromGrammar_unfold.
  destruct (findFirsts g (enumerate (heads g)) fuel (repeat (bs_new []) (length g))) as [firsts| | |]; simpl; auto.
  destruct (findFollows g (enumerate (heads g)) fuel firsts (repeat (bs_new []) (length g))) as [follows| | |]; simpl; auto.
  destruct (makeTable g (enumerate (heads g)) firsts follows) as [tbl| | |]; simpl; auto.
  intros N. split; [reflexivity|]. eapply N; reflexivity.
Qed.

(** ** Undefined non-terminals (C30) *)

Lemma row_loop_sequences rm firsts fol seqs : forall res out,
  row_loop rm firsts fol seqs res = Ok out ->
  forall s, In s seqs -> exists sf, sequenceFirsts rm firsts s = Ok sf.
Proof.
  induction seqs as [|x seqs IH]; intros res out H s Hs; [destruct Hs|]. cbn [row_loop] in H.
  destruct (sequenceFirsts rm firsts x) as [sf| | |] eqn:E; try discriminate. cbn [gobind] in H.
  match type of H with gobind ?m _ = _ => destruct m as [[r1 f1]| | |] end; try discriminate.
  cbn [gobind] in H. destruct (bs_range f1) as [terms| | |]; try discriminate. cbn [gobind] in H.
  destruct (fill_firsts rm terms x r1) as [r2| | |]; try discriminate. cbn [gobind] in H.
  destruct Hs as [<-|Hs]; [exists sf; exact E|]. eapply IH; eassumption.
Qed.

Lemma makeTable_sequences g rm firsts follows tbl :
  makeTable g rm firsts follows = Ok tbl ->
  forall n s, alternative g n s -> exists sf, sequenceFirsts rm firsts s = Ok sf.
Proof.
  intros H n s (r & Hr & _ & Hs). apply In_nth_error in Hr. destruct Hr as (i & Hi).
  unfold makeTable in H. destruct (makeTable_loop_spec g rm firsts follows (length g) 0 [] tbl eq_refl H) as (_ & _ & X).
  assert (Hlt : i < length g) by (apply nth_error_Some; congruence).
  destruct (X i ltac:(lia)) as (rw & _ & E). unfold makeTableRow, index in E. rewrite Hi in E. cbn [gobind] in E.
  destruct (nth_error follows i) as [fol|]; [|discriminate]. cbn [gobind] in E.
  eapply row_loop_sequences; eassumption.
Qed.

Lemma byte_search (p : ascii -> bool) : (exists b, p b = true) \/ (forall b, p b = false).
Proof.
  destruct (existsb p all_bytes) eqn:E.
  - apply existsb_exists in E. destruct E as (b & _ & H). left. eauto.
  - right. intros b. destruct (p b) eqn:Eb; [|reflexivity].
    assert (X : existsb p all_bytes = true) by (apply existsb_exists; exists b; split; [apply all_bytes_in|exact Eb]).
    congruence.
Qed.

Lemma defined_dec g m : {defined g m} + {~ defined g m}.
Proof. apply in_dec. apply bytes_eq_dec. Qed.

Transparent sequenceFirsts.
Lemma undefined_shadowed order fuel g tbl names n s m :
  NoDup (heads g) -> terminals_nulfree g ->
  FromGrammar_order order fuel g = Ok (tbl, names) ->
  alternative g n s -> In (SNonTerminal m) s -> ~ defined g m -> shadowed g s m.
Proof.
  intros Nd Nf E Ha Hm Hu.
  destruct (FromGrammar_generated _ _ _ _ _ E) as (firsts & follows & Ef & Eo & G & _).
  pose proof (findFirsts_exact _ _ _ Nd Nf Ef) as FE.
  assert (Hno : forall c, ~ first g (seq_form s) c).
  { intros c Hc. apply (takes_first g firsts Nf FE n s c Ha) in Hc.
    pose proof Ha as (r & Hr & _ & Hs). apply In_nth_error in Hr. destruct Hr as (i & Hi).
    destruct (gn_rows _ _ _ _ G i r Hi) as (rw & fol & _ & _ & _ & _ & Hop).
    pose proof (Hop s c Hs Hc) as X. rewrite Forall_forall in X. exact (Hu (X _ Hm)). }
  assert (Hsf : exists sf, sequenceFirsts (enumerate (heads g)) firsts s = Ok sf).
  { rewrite FromGrammar_unfold in E. rewrite Ef in E. cbn [gobind] in E. rewrite Eo in E. cbn [gobind] in E.
    destruct (makeTable g (enumerate (heads g)) firsts follows) as [t| | |] eqn:Et; try discriminate.
    eapply makeTable_sequences; eassumption. }
  destruct Hsf as (sf & Hsf). unfold sequenceFirsts in Hsf.
  assert (K : forall tot post pre res fd, s = pre ++ post -> nullable g (seq_form pre) ->
     In (SNonTerminal m) post -> length s = tot ->
     sequenceFirsts_loop (enumerate (heads g)) firsts tot post res fd = Ok sf -> shadowed g s m).
  { intros tot. induction post as [|x post IH]; intros pre res fd Es Hpre Hin Htot H; [destruct Hin|].
    cbn [sequenceFirsts_loop] in H. destruct x as [v|t| |str].
    - destruct (rm_get (enumerate (heads g)) v) as [i|] eqn:Ei; [|discriminate].
      assert (Dv : defined g v).
      { destruct (defined_dec g v) as [d|d]; [exact d|]. apply rm_get_none in d. congruence. }
      destruct Hin as [Hin|Hin]; [injection Hin as ->; contradiction|].
      unfold index in H. destruct (nth_error firsts i) as [fs|] eqn:Efs; [|discriminate]. cbn [gobind] in H.
      assert (Hv : forall c, bs_contains fs c = true <-> first_mark g [NT v] c).
      { intros c. pose proof (fe_rules _ _ FE i c) as X.
        assert (Hi : i < length g) by (eapply rm_get_lt; exact Ei). specialize (X Hi).
        apply rm_get_rule in Ei. destruct Ei as (r & Hr & <-).
        rewrite (head_at_nth _ _ _ Hr) in X. rewrite <- X. unfold set_at. rewrite Efs. reflexivity. }
      destruct (bs_contains fs EOS) eqn:Ee; cbn [negb] in H.
      + eapply (IH (pre ++ [SNonTerminal v])); [rewrite <- app_assoc; exact Es| |exact Hin|exact Htot|exact H].
        rewrite seq_form_app. apply nullable_app. split; [exact Hpre|].
        apply Hv in Ee. apply Ee. reflexivity.
      + exists pre, v, post. split; [exact Es|]. split; [exact Hin|]. split; [exact Hpre|]. split; [exact Dv|].
        split.
        * intros Hn. assert (X : bs_contains fs EOS = true).
          { apply Hv. split; [intros _; exact Hn|intros Y; destruct Y; reflexivity]. }
          congruence.
        * intros c Hc. apply (Hno c). rewrite Es, seq_form_app. apply first_app. right.
          split; [exact Hpre|]. apply first_cons. left. exact Hc.
    - exfalso. destruct t as [|c t]; [discriminate|]. apply (Hno c). rewrite Es, seq_form_app. apply first_app.
      right. split; [exact Hpre|]. apply first_cons. left. exists (map Ch t). constructor.
    - exfalso. destruct (Nat.ltb_spec 1 tot) as [|Hle]; [discriminate|]. rewrite Es, app_length in Htot.
      simpl in Htot. destruct post; [destruct Hin as [Hin|[]]; discriminate|simpl in Htot; lia].
    - discriminate. }
  eapply (K (length s) s []); [reflexivity|constructor|exact Hm|reflexivity|exact Hsf].
Qed.

(** ** Divergence (C33) *)

Lemma selected_fun g c l a b : selected g c l a -> selected g c l b -> a = b.
Proof.
  intros H. revert b. induction H as [|x l l' Hx _ IH|x l l' Hx _ IH]; intros b Hb; inversion Hb; subst;
    try contradiction; [reflexivity|f_equal; auto|auto].
Qed.

Lemma diverges g tbl names c text fuel S :
  table_spec g tbl -> g <> [] -> loops g c S ->
  run tbl (c :: text) names fuel init_state = (NoFuel, names).
Proof.
  intros [_ T] Hg (S0 & HS).
  assert (G : forall fuel i ops prods n, nth_error (heads g) i = Some n -> S n ->
    run tbl (c :: text) names fuel (mkPS (OpNonTerminal (Z.of_nat i) :: ops) prods 0) = (NoFuel, names)).
  { induction fuel0 as [|f IH]; intros i ops prods n Hi Hn; [reflexivity|].
    apply heads_nth in Hi. destruct Hi as (r & Hr & <-).
    destruct (HS r (nth_error_In _ _ Hr) Hn) as (m & s & l & Sel & Hm).
    destruct (T i r c Hr) as (rw & Hrw & Hc).
    cbn [run]. unfold step. cbn [ps_ops ps_prods ps_off]. unfold processNonTerminal.
    assert ((Z.of_nat i <? 0)%Z = false) as -> by (apply Z.ltb_ge; lia).
    unfold processTableNonTerminal, table_get. rewrite Hrw. unfold row_get. cbn [peek nth_error].
    destruct (map_get Ascii.eqb c rw) as [cl|] eqn:Ec.
    - destruct Hc as (chosen & Sel' & Hops & _). rewrite <- (selected_fun _ _ _ _ _ Sel Sel') in Hops.
      cbn [concat app] in Hops. inversion Hops as [|x op l1 l2 Hx Hl]; subst. inversion Hx; subst.
      rewrite push_all_app. cbn [app]. eapply IH; eassumption.
    - destruct Hc as [Sel' _]. pose proof (selected_fun _ _ _ _ _ Sel Sel'). discriminate. }
  apply (G fuel 0 [OpEOS] [] (start g)); [destruct g; [congruence|reflexivity]|exact S0].
Qed.
