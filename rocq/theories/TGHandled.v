(** * TGHandled: which LL(1) grammars the generator handles. *)
From Verif Require Import Base ByteSet Ast Cst Parser TableGen Spec_Parse Spec_Tree Spec_Grammar Spec_Table Spec_Viable
  ByteSetProofs GrammarProofs ParserProofs TreeProofs ParseApi ParseApi2
  TGFirsts TGFollows TGTable TGMain TGCells TGClosed TGParse TGCheck Props_Parser Props_TableGen TGViable.

(** [mgen g n u w1 w2]: [u] derives [w1 ++ w2], with an [n] deriving nothing
    exactly between [w1] and [w2]. *)
Inductive mgen (g : grammar) (n : bytes) : form -> bytes -> bytes -> Prop :=
| mg_here u w : nullable g [NT n] -> gen g u w -> mgen g n (NT n :: u) [] w
| mg_ch c u w1 w2 : mgen g n u w1 w2 -> mgen g n (Ch c :: u) (c :: w1) w2
| mg_skip m s u w0 w1 w2 :
    alternative g m s -> gen g (seq_form s) w0 -> mgen g n u w1 w2 -> mgen g n (NT m :: u) (w0 ++ w1) w2
| mg_into m s u w1 w2 w3 :
    alternative g m s -> mgen g n (seq_form s) w1 w2 -> gen g u w3 -> mgen g n (NT m :: u) w1 (w2 ++ w3).

Lemma nullable_gen g u : nullable g u -> gen g u [].
Proof. intros H. apply yields_gen. exact H. Qed.

Lemma mgen_gen g n u w1 w2 : mgen g n u w1 w2 -> gen g u (w1 ++ w2).
Proof.
  induction 1 as [u w Hn Hg|c u w1 w2 _ IH|m s u w0 w1 w2 Ha Hg _ IH|m s u w1 w2 w3 Ha _ IH Hg].
  - apply nullable_nt in Hn. destruct Hn as (s & Ha & Hs).
    apply (gen_nt g n s u [] w Ha); [apply nullable_gen, Hs|exact Hg].
  - constructor. exact IH.
  - rewrite <- app_assoc. econstructor; eassumption.
  - rewrite app_assoc. econstructor; eassumption.
Qed.

Lemma mgen_app_l g n u v w1 w2 w3 : mgen g n u w1 w2 -> gen g v w3 -> mgen g n (u ++ v) w1 (w2 ++ w3).
Proof.
  intros H Hv. induction H as [u w Hn Hg|c u w1 w2 _ IH|m s u w0 w1 w2 Ha Hg _ IH|m s u w1 w2 w4 Ha H _ Hg]; simpl.
  - constructor; [exact Hn|]. apply gen_app; assumption.
  - constructor. exact IH.
  - econstructor; eassumption.
  - rewrite <- app_assoc. eapply mg_into; [exact Ha|exact H|]. apply gen_app; assumption.
Qed.
Lemma mgen_app_r g n u v w0 w1 w2 : gen g u w0 -> mgen g n v w1 w2 -> mgen g n (u ++ v) (w0 ++ w1) w2.
Proof.
  intros H Hv. induction H as [|c u w _ IH|m s u wa wb Ha Hs _ Hu IH]; simpl.
  - exact Hv.
  - constructor. exact IH.
  - rewrite <- app_assoc. econstructor; eassumption.
Qed.
Lemma mgen_app_inv g n u v : forall w1 w2, mgen g n (u ++ v) w1 w2 ->
  (exists x y, mgen g n u w1 x /\ gen g v y /\ w2 = x ++ y) \/
  (exists x y, gen g u x /\ mgen g n v y w2 /\ w1 = x ++ y).
Proof.
  induction u as [|z u IH]; intros w1 w2 H; simpl in H.
  - right. exists [], w1. split; [constructor|]. split; [exact H|reflexivity].
  - inversion H as [u' w Hn Hg|c u' wa wb Hm|m s u' w0 wa wb Ha Hg Hm|m s u' wa wb w3 Ha Hm Hg]; subst.
    + left. apply gen_app_inv in Hg. destruct Hg as (x & y & -> & Hx & Hy).
      exists x, y. split; [constructor; assumption|]. split; [exact Hy|reflexivity].
    + destruct (IH _ _ Hm) as [(x & y & Hx & Hy & ->)|(x & y & Hx & Hy & ->)].
      * left. exists x, y. split; [constructor; exact Hx|]. auto.
      * right. exists (c :: x), y. split; [constructor; exact Hx|]. auto.
    + destruct (IH _ _ Hm) as [(x & y & Hx & Hy & ->)|(x & y & Hx & Hy & ->)].
      * left. exists x, y. split; [econstructor; eassumption|]. auto.
      * right. exists (w0 ++ x), y. split; [econstructor; eassumption|]. split; [exact Hy|apply app_assoc].
    + left. apply gen_app_inv in Hg. destruct Hg as (x & y & -> & Hx & Hy).
      exists (wb ++ x), y. split; [eapply mg_into; eassumption|]. split; [exact Hy|apply app_assoc].
Qed.
Lemma mgen_back g n u v w1 w2 : yields1 g u v -> mgen g n v w1 w2 -> mgen g n u w1 w2.
Proof.
  intros [a m s b Ha] H. apply mgen_app_inv in H.
  destruct H as [(x & y & Hx & Hy & ->)|(x & y & Hx & Hy & ->)].
  - apply gen_app_inv in Hy. destruct Hy as (p & q & -> & Hp & Hq).
    apply mgen_app_l; [exact Hx|]. econstructor; eassumption.
  - apply mgen_app_inv in Hy. destruct Hy as [(p & q & Hp & Hq & ->)|(p & q & Hp & Hq & ->)].
    + apply mgen_app_r; [exact Hx|]. eapply mg_into; eassumption.
    + apply mgen_app_r; [exact Hx|]. eapply mg_skip; eassumption.
Qed.
Lemma yields_mgen g n u v w1 w2 : yields g u v -> mgen g n v w1 w2 -> mgen g n u w1 w2.
Proof. induction 1; intros H'; [exact H'|]. eapply mgen_back; eauto. Qed.

(** What is found behind a rule is found behind the non-terminals of its
    alternatives that have only empty things behind them. *)
Definition inherits (g : grammar) (FC : bytes -> option ascii -> Prop) : Prop :=
  forall A a B b x, alternative g A (a ++ SNonTerminal B :: b) -> nullable g (seq_form b) -> FC A x -> FC B x.
Lemma follow_code_inherits g : inherits g (follow_code g).
Proof.
  intros A a B b x Ha Hn Hx. destruct b as [|X b]; [eapply fc_rule3; eassumption|].
  eapply fc_rule4; [exact Ha| |exact Hx]. apply (nullable_app g (sym_form X) (seq_form b)) in Hn. apply Hn.
Qed.

(** In a part deriving nothing, what the generator finds behind the whole it
    finds behind every non-terminal of it. *)
Lemma mgen_inherits g (FC : bytes -> option ascii -> Prop) n x u w1 w2 :
  inherits g FC -> mgen g n u w1 w2 -> w1 ++ w2 = [] ->
  (forall m, In (NT m) u -> FC m x) -> FC n x.
Proof.
  intros I. induction 1 as [u w Hn Hg|c u w1 w2 _ IH|m s u w0 w1 w2 Ha Hg _ IH|m s u w1 w2 w3 Ha H IH Hg]; intros E C.
  - apply C. left. reflexivity.
  - discriminate.
  - rewrite <- app_assoc in E. apply app_eq_nil in E. apply IH; [apply E|]. intros k Hk. apply C. right. exact Hk.
  - rewrite app_assoc in E. apply app_eq_nil in E. destruct E as (E & _). apply IH; [exact E|].
    assert (Hs : nullable g (seq_form s)).
    { apply gen_nullable. rewrite <- E. eapply mgen_gen, H. }
    assert (Hm : FC m x) by (apply C; left; reflexivity).
    intros k Hk. apply in_split in Hk. destruct Hk as (a & b & Es).
    apply seq_form_split in Es. destruct Es as (s1 & s2 & -> & -> & ->).
    eapply I; [exact Ha| |exact Hm].
    replace (seq_form (s1 ++ SNonTerminal k :: s2))
      with (seq_form s1 ++ [NT k] ++ seq_form s2) in Hs
      by (unfold seq_form; rewrite flat_map_app; reflexivity).
    apply nullable_app in Hs. destruct Hs as (_ & Hs). apply nullable_app in Hs. apply Hs.
Qed.

Lemma sent_defined g u : wf_grammar g -> yields g [NT (start g)] u -> forall m, In (NT m) u -> defined g m.
Proof.
  intros W H. revert u H. refine (yields_snoc_ind g _ [NT (start g)] _ _).
  - intros m [E|[]]. injection E as <-. apply start_defined, W.
  - intros v w _ Hv Hst m Hm. destruct Hst as [a k s b Ha]. apply in_app_or in Hm. destruct Hm as [Hm|Hm].
    + apply Hv. apply in_or_app. left. exact Hm.
    + apply in_app_or in Hm. destruct Hm as [Hm|Hm].
      * apply in_split in Hm. destruct Hm as (p & q & E). apply seq_form_split in E.
        destruct E as (s1 & s2 & -> & _ & _).
        destruct (wf_sequences _ W _ _ Ha) as [E|[_ Fa]].
        -- destruct s1 as [|? [|]]; discriminate.
        -- rewrite Forall_forall in Fa. apply (Fa (SNonTerminal m)). apply in_or_app. right. left. reflexivity.
      * apply Hv. apply in_or_app. right. right. exact Hm.
Qed.

(** Some word has [n] deriving nothing right before [x]. *)
Lemma follow_witness g n x : wf_grammar g -> productive g -> nullable g [NT n] -> follow g n x ->
  exists w1 w2, mgen g n [NT (start g)] w1 w2 /\ next w2 = x.
Proof.
  intros W P Hn Hf.
  assert (Fill : forall u, yields g [NT (start g)] u -> forall a b, u = a ++ b -> exists w, gen g a w).
  { intros u Hu a b ->. destruct (productive_form g a P) as (w & Hw).
    - intros m Hm. eapply (sent_defined g _ W Hu). apply in_or_app. left. exact Hm.
    - exists w. apply yields_gen, Hw. }
  assert (Fill2 : forall u, yields g [NT (start g)] u -> forall a b, u = a ++ b -> exists w, gen g b w).
  { intros u Hu a b ->. destruct (productive_form g b P) as (w & Hw).
    - intros m Hm. eapply (sent_defined g _ W Hu). apply in_or_app. right. exact Hm.
    - exists w. apply yields_gen, Hw. }
  destruct x as [c|]; simpl in Hf.
  - destruct Hf as (a & b & H).
    destruct (Fill _ H a _ eq_refl) as (w & Hw).
    destruct (Fill2 _ H (a ++ [NT n; Ch c]) b) as (v & Hv); [rewrite <- app_assoc; reflexivity|].
    exists (w ++ []), (c :: v). split; [|reflexivity].
    eapply yields_mgen; [exact H|]. apply mgen_app_r; [exact Hw|].
    constructor; [exact Hn|]. constructor. exact Hv.
  - destruct Hf as (a & H). destruct (Fill _ H a _ eq_refl) as (w & Hw).
    exists (w ++ []), []. split; [|reflexivity].
    eapply yields_mgen; [exact H|]. apply mgen_app_r; [exact Hw|].
    constructor; [exact Hn|constructor].
Qed.

Section Run.
  Variable g : grammar.
  Variable tbl : table.
  Context {FC : bytes -> option ascii -> Prop}.
  Hypothesis W : wf_grammar g.
  Hypothesis T : table_spec_wrt FC g tbl.
  Hypothesis I : inherits g FC.
  Hypothesis L : LL1 g.
  Variable src : bytes.
  Hypothesis Nsrc : ~ In NUL src.
  Let D := ll1_first _ _ L.
  Let CF := follow_closed g.

  Lemma behind_next u w : gen g u w -> behind g u (next w).
  Proof. destruct w; intros H; [apply gen_nullable, H|eapply gen_first, H]. Qed.

  (** The parser leaves out a rule that derives nothing here. *)
  Lemma leaves_out i m u k its c' w :
    nth_error (heads g) i = Some m -> sent g (NT m :: u) -> nullable g [NT m] -> gen g u w ->
    skipn k src = w -> rewrites tbl src (k, Row (Z.of_nat i) :: its) c' ->
    c' = (k, its) /\ FC m (next w).
  Proof.
    intros Hi Hs Hn Hg Hk R.
    assert (Fm : follow g m (next w)).
    { eapply sent_behind; [exact CF|exact Hs|]. apply behind_next, Hg. }
    pose proof (next_ahead src Nsrc k w Hk) as Ha.
    inversion R as [|z ops k0 form Hz Hcell| |]; subst; try lia.
    destruct (cell_alternative g tbl W T D _ _ _ _ Hi Hcell) as [(s & Hs' & Hf & _)|(-> & _ & Hfc & _)].
    - exfalso. assert (Hnz : byte_at src k <> NUL).
      { intros E. rewrite E in Hf. eapply first_alt_nul; [apply wf_nulfree, W|exact Hs'|exact Hf]. }
      unfold ahead in Ha. destruct (Ascii.eqb_spec (byte_at src k) NUL) as [|_]; [contradiction|].
      rewrite <- Ha in Fm.
      eapply (no_first_nt g (follow g) W L CF); [eapply sent_reachable, Hs|exact Fm|exact Hn|].
      apply first_nt. exists s. auto.
    - split; [reflexivity|]. rewrite <- Ha. exact Hfc.
  Qed.

  (** The parser takes the alternative that derives something here. *)
  Lemma takes i m s k its c' c w rest :
    nth_error (heads g) i = Some m -> alternative g m s -> gen g (seq_form s) (c :: w) ->
    skipn k src = (c :: w) ++ rest -> rewrites tbl src (k, Row (Z.of_nat i) :: its) c' ->
    exists ops, operands g s ops /\ c' = (k, items ops ++ its).
  Proof.
    intros Hi Ha Hg Hk R.
    pose proof (skipn_byte src _ _ _ Hk) as Hb. simpl in Hb.
    pose proof (gen_first _ _ _ _ Hg) as Hf.
    inversion R as [|z ops k0 form Hz Hcell| |]; subst; try lia.
    destruct (cell_alternative g tbl W T D _ _ _ _ Hi Hcell) as [(s' & Ha' & Hf' & Ho & _)|(_ & _ & _ & X)].
    - rewrite (alternative_same g (follow g) W L _ _ _ _ Ha' Ha Hf' Hf) in Ho. exists ops. auto.
    - destruct (X s Ha Hf).
  Qed.

  Lemma run_finds n : forall c c', rewrites_star tbl src c c' -> snd c' = [] ->
    forall u w1 w2, Forall2 (item_of g) u (snd c) -> sent g u -> mgen g n u w1 w2 ->
    skipn (fst c) src = w1 ++ w2 -> FC n (next w2).
  Proof.
    intros c c' H. induction H as [c|c1 c2 c3 R H IH]; intros E u w1 w2 Hi Hs Hm Hk.
    - rewrite E in Hi. inversion Hi; subst. inversion Hm.
    - specialize (IH E). clear E H. destruct c1 as (k, its). cbn [fst snd] in *.
      inversion Hm as [u' w Hn Hg|c u' wa wb Hm'|m s u' w0 wa wb Ha Hg Hm'|m s u' wa wb w3 Ha Hm' Hg]; subst.
      + inversion Hi as [|x y l l' Hxy Hl]; subst. inversion Hxy as [|n0 i Hin]; subst.
        eapply (leaves_out i n u'); eassumption.
      + inversion Hi as [|x y l l' Hxy Hl]; subst. inversion Hxy; subst.
        inversion R; subst. apply (IH u' wa w2); cbn [fst snd]; [exact Hl|eapply sent_tail, Hs|exact Hm'|].
        replace (S k) with (k + 1) by lia. rewrite <- skipn_skipn_add, Hk. reflexivity.
      + inversion Hi as [|x y l l' Hxy Hl]; subst. inversion Hxy as [|n0 i Hin]; subst.
        destruct w0 as [|c w0].
        * destruct (leaves_out i m u' k l' c2 (wa ++ w2) Hin Hs) as (-> & _).
          -- apply nullable_nt. exists s. split; [exact Ha|apply gen_nullable, Hg].
          -- eapply mgen_gen, Hm'.
          -- exact Hk.
          -- exact R.
          -- apply (IH u' wa w2); cbn [fst snd]; [exact Hl|eapply sent_tail, Hs|exact Hm'|exact Hk].
        * rewrite <- app_assoc in Hk.
          destruct (takes i m s k l' c2 c w0 (wa ++ w2) Hin Ha Hg Hk R) as (ops & Ho & ->).
          apply (IH (seq_form s ++ u') ((c :: w0) ++ wa) w2); cbn [fst snd].
          -- apply Forall2_app; [apply operands_items, Ho|exact Hl].
          -- eapply sent_alt; eassumption.
          -- apply mgen_app_r; assumption.
          -- rewrite Hk, app_assoc. reflexivity.
      + inversion Hi as [|x y l l' Hxy Hl]; subst. inversion Hxy as [|n0 i Hin]; subst.
        pose proof (mgen_gen _ _ _ _ _ Hm') as Hg'.
        destruct (w1 ++ wb) as [|c w] eqn:Ew.
        * rewrite app_assoc, Ew in Hk.
          destruct (leaves_out i m u' k l' c2 w3 Hin Hs) as (_ & Hfc).
          -- apply nullable_nt. exists s. split; [exact Ha|apply gen_nullable, Hg'].
          -- exact Hg.
          -- exact Hk.
          -- exact R.
          -- pose proof Ew as Ew'. apply app_eq_nil in Ew. destruct Ew as (-> & ->).
             eapply mgen_inherits; [exact I|eapply mg_into; [exact Ha|exact Hm'|constructor]|reflexivity|].
             intros p [Ep|[]]. injection Ep as <-. exact Hfc.
        * rewrite app_assoc, Ew in Hk.
          destruct (takes i m s k l' c2 c w w3 Hin Ha Hg' Hk R) as (ops & Ho & ->).
          apply (IH (seq_form s ++ u') w1 (wb ++ w3)); cbn [fst snd].
          -- apply Forall2_app; [apply operands_items, Ho|exact Hl].
          -- eapply sent_alt; eassumption.
          -- apply mgen_app_l; assumption.
          -- rewrite Hk, <- Ew, app_assoc. reflexivity.
  Qed.
End Run.

Lemma accepts_words_follow order fuel0 g tbl names m :
  wf_grammar g -> LL1 g -> productive g -> FromGrammar_order order fuel0 g = Ok (tbl, names) ->
  (forall text, word g text -> exists fuel t, parses_to fuel tbl (Some m) (SrcString text) t) ->
  forall n x, nullable g [NT n] -> follow g n x -> follow_code g n x.
Proof.
  intros W L P E A n x Hn Hf.
  destruct (follow_witness g n x W P Hn Hf) as (w1 & w2 & Hm & <-).
  assert (Y : yields g [NT (start g)] (chars (w1 ++ w2))) by (apply gen_yields; eapply mgen_gen, Hm).
  assert (Nsrc : ~ In NUL (w1 ++ w2)).
  { intros Hin. assert (X : sent g (chars (w1 ++ w2))) by (exists []; exact Y).
    apply (sent_nulfree g W) in X. apply X. apply in_map, Hin. }
  destruct (A (w1 ++ w2)) as (fuel & t & Hp); [split; [apply W|exact Y]|].
  destruct (proj1 (parse_iff_rewriting tbl m (SrcString (w1 ++ w2)) (w1 ++ w2)
    (FromGrammar_public _ _ _ _ _ E) (dl_string _))) as (q & R & _); [eauto|].
  eapply (run_finds g tbl W (FromGrammar_table _ _ _ _ _ (wf_distinct _ W) (wf_nulfree _ W) E) (follow_code_inherits g) L (w1 ++ w2) Nsrc n
    _ _ R eq_refl [NT (start g)]); cbn [fst snd].
  - constructor; [|constructor]. apply (io_nt g _ 0). pose proof (wf_nonempty _ W). destruct g; [congruence|reflexivity].
  - exists []. constructor.
  - exact Hm.
  - reflexivity.
Qed.
