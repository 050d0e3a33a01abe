(** * GrammarProofs: FIRST, nullable and FOLLOW by rules and by derivations. *)
From Verif Require Import Base Ast Spec_Grammar.

Section G.
  Variable g : grammar.

  (** ** =>* *)
  Lemma yields_trans u v w : yields g u v -> yields g v w -> yields g u w.
  Proof. induction 1 as [|u v x H _ IH]; intros; [assumption|]. econstructor; eauto. Qed.
  Lemma yields_one u v : yields1 g u v -> yields g u v.
  Proof. intros. econstructor; [eassumption|constructor]. Qed.

  Lemma yields1_ctx a b u v : yields1 g u v -> yields1 g (a ++ u ++ b) (a ++ v ++ b).
  Proof.
    intros [x n s y H].
    replace (a ++ (x ++ NT n :: y) ++ b) with ((a ++ x) ++ NT n :: (y ++ b))
      by (rewrite <- !app_assoc; reflexivity).
    replace (a ++ (x ++ seq_form s ++ y) ++ b) with ((a ++ x) ++ seq_form s ++ (y ++ b))
      by (rewrite <- !app_assoc; reflexivity).
    constructor. exact H.
  Qed.
  Lemma yields_ctx a b u v : yields g u v -> yields g (a ++ u ++ b) (a ++ v ++ b).
  Proof.
    induction 1; [constructor|]. econstructor; [apply yields1_ctx; eassumption|assumption].
  Qed.
  Lemma yields_app u v u' v' : yields g u u' -> yields g v v' -> yields g (u ++ v) (u' ++ v').
  Proof.
    intros H1 H2. eapply yields_trans.
    - apply (yields_ctx [] v). exact H1.
    - pose proof (yields_ctx u' [] _ _ H2) as H. rewrite !app_nil_r in H. exact H.
  Qed.
  Lemma yields_alt n s : alternative g n s -> yields g [NT n] (seq_form s).
  Proof.
    intros H. apply yields_one. pose proof (y1 g [] n s [] H) as Y.
    simpl in Y. rewrite app_nil_r in Y. exact Y.
  Qed.

  (** ** nullable and FIRST by rules *)
  Inductive nullr : form -> Prop :=
  | nr_nil : nullr []
  | nr_nt n s rest :
      alternative g n s -> nullr (seq_form s) -> nullr rest -> nullr (NT n :: rest).

  Inductive firstr (c : ascii) : form -> Prop :=
  | fr_ch rest : firstr c (Ch c :: rest)
  | fr_here n s rest :
      alternative g n s -> firstr c (seq_form s) -> firstr c (NT n :: rest)
  | fr_skip n rest : nullr [NT n] -> firstr c rest -> firstr c (NT n :: rest).

  Lemma nullr_app a b : nullr (a ++ b) <-> nullr a /\ nullr b.
  Proof.
    split.
    - induction a as [|x a IH]; simpl; intros H; [split; [constructor|exact H]|].
      inversion H; subst. destruct (IH ltac:(assumption)). split; [|assumption].
      econstructor; eassumption.
    - intros [H1 H2]. induction H1; simpl; [exact H2|]. econstructor; eassumption.
  Qed.

  Lemma firstr_app c a b : firstr c (a ++ b) <-> firstr c a \/ (nullr a /\ firstr c b).
  Proof.
    split.
    - induction a as [|x a IH]; simpl; intros H; [right; split; [constructor|exact H]|].
      inversion H; subst.
      + left. constructor.
      + left. eapply fr_here; eassumption.
      + destruct (IH ltac:(assumption)) as [F|[N F]].
        * left. apply fr_skip; assumption.
        * right. split; [|exact F]. change (NT n :: a) with ([NT n] ++ a). apply nullr_app.
          split; assumption.
    - intros [H|[H1 H2]].
      + induction H; simpl; [constructor|eapply fr_here; eassumption|apply fr_skip; assumption].
      + induction H1 as [|n s rest Ha Hs _ Hr IH]; simpl; [exact H2|].
        apply fr_skip; [econstructor; [exact Ha|exact Hs|constructor]|exact IH].
  Qed.

  Lemma nullr_back u v : yields1 g u v -> nullr v -> nullr u.
  Proof.
    intros [a n s b H] Hv. apply nullr_app in Hv. destruct Hv as [H1 H2].
    apply nullr_app in H2. destruct H2 as [H2 H3].
    apply nullr_app. split; [exact H1|]. econstructor; eassumption.
  Qed.
  Lemma firstr_back c u v : yields1 g u v -> firstr c v -> firstr c u.
  Proof.
    intros [a n s b H] Hv. apply firstr_app in Hv. apply firstr_app.
    destruct Hv as [Hv|[Hn Hv]]; [left; exact Hv|right]. split; [exact Hn|].
    apply firstr_app in Hv. destruct Hv as [Hv|[Hs Hv]].
    - eapply fr_here; eassumption.
    - apply fr_skip; [|exact Hv]. econstructor; [exact H|exact Hs|constructor].
  Qed.

  Lemma nullr_nullable u : nullr u <-> nullable g u.
  Proof.
    split.
    - induction 1 as [|n s rest Ha _ IH1 _ IH2]; [constructor|].
      apply (yields_app [NT n] rest [] []); [|exact IH2].
      eapply yields_trans; [apply yields_alt, Ha|exact IH1].
    - unfold nullable. intros H. remember [] as z eqn:E. induction H; subst; [constructor|].
      eapply nullr_back; eauto.
  Qed.

  Lemma firstr_first c u : firstr c u <-> first g u c.
  Proof.
    split.
    - induction 1 as [rest|n s rest Ha _ (v & IH)|n rest Hn _ (v & IH)].
      + exists rest. constructor.
      + exists (v ++ rest). change (NT n :: rest) with ([NT n] ++ rest).
        change (Ch c :: v ++ rest) with ((Ch c :: v) ++ rest). apply yields_app; [|constructor].
        eapply yields_trans; [apply yields_alt, Ha|exact IH].
      + exists v. change (NT n :: rest) with ([NT n] ++ rest).
        change (Ch c :: v) with ([] ++ Ch c :: v). apply yields_app; [|exact IH].
        apply nullr_nullable, Hn.
    - intros (v & H). remember (Ch c :: v) as z eqn:E. induction H; subst; [constructor|].
      eapply firstr_back; eauto.
  Qed.

  Lemma first_app u v c :
    first g (u ++ v) c <-> first g u c \/ (nullable g u /\ first g v c).
  Proof. rewrite <- !firstr_first, <- nullr_nullable. apply firstr_app. Qed.
  Lemma nullable_app u v : nullable g (u ++ v) <-> nullable g u /\ nullable g v.
  Proof. rewrite <- !nullr_nullable. apply nullr_app. Qed.
  Lemma nullable_nt n :
    nullable g [NT n] <-> exists s, alternative g n s /\ nullable g (seq_form s).
  Proof.
    rewrite <- nullr_nullable. split.
    - intros H. inversion H; subst. eexists. split; [eassumption|]. apply nullr_nullable. assumption.
    - intros (s & Ha & Hs). econstructor; [exact Ha|apply nullr_nullable, Hs|constructor].
  Qed.
  Lemma first_nt n c :
    first g [NT n] c <-> exists s, alternative g n s /\ first g (seq_form s) c.
  Proof.
    rewrite <- firstr_first. split.
    - intros H. inversion H; subst.
      + eexists. split; [eassumption|]. apply firstr_first. assumption.
      + match goal with H : firstr c [] |- _ => inversion H end.
    - intros (s & Ha & Hs). eapply fr_here; [exact Ha|apply firstr_first, Hs].
  Qed.
  Lemma nullable_ch c u : ~ nullable g (Ch c :: u).
  Proof. rewrite <- nullr_nullable. intros H. inversion H. Qed.
  Lemma first_ch c d u : first g (Ch c :: u) d <-> c = d.
  Proof.
    rewrite <- firstr_first. split; [intros H; inversion H; reflexivity|intros ->; constructor].
  Qed.
  Lemma first_nil c : ~ first g [] c.
  Proof. rewrite <- firstr_first. intros H. inversion H. Qed.
  Lemma nullable_nil : nullable g [].
  Proof. constructor. Qed.

  (** ** FOLLOW *)

  Lemma follow_reachable n x : follow g n x -> reachable g n.
  Proof.
    destruct x as [c|]; simpl.
    - intros (a & b & H). exists a, (Ch c :: b). exact H.
    - intros (a & H). exists a, []. exact H.
  Qed.

  Lemma reachable_start : reachable g (start g).
  Proof. exists [], []. constructor. Qed.

  Lemma reachable_alt A a B b :
    reachable g A -> alternative g A (a ++ SNonTerminal B :: b) -> reachable g B.
  Proof.
    intros (x & y & H) Ha. exists (x ++ seq_form a), (seq_form b ++ y).
    eapply yields_trans; [exact H|]. eapply yields_trans.
    - apply yields_one. apply y1. exact Ha.
    - replace (seq_form (a ++ SNonTerminal B :: b)) with (seq_form a ++ NT B :: seq_form b)
        by (unfold seq_form; rewrite flat_map_app; reflexivity).
      rewrite <- !app_assoc. simpl. constructor.
  Qed.

  Lemma seq_form_app a b : seq_form (a ++ b) = seq_form a ++ seq_form b.
  Proof. apply flat_map_app. Qed.
  Lemma seq_form_nt a B b :
    seq_form (a ++ SNonTerminal B :: b) = seq_form a ++ NT B :: seq_form b.
  Proof. rewrite seq_form_app. reflexivity. Qed.

  (** The three rules hold for FOLLOW by sentential forms. *)
  Lemma follow_start : follow g (start g) None.
  Proof. exists []. constructor. Qed.
  Lemma follow_first A a B b c :
    reachable g A -> alternative g A (a ++ SNonTerminal B :: b) -> first g (seq_form b) c ->
    follow g B (Some c).
  Proof.
    intros (x & y & H) Ha (v & Hf). exists (x ++ seq_form a), (v ++ y).
    eapply yields_trans; [exact H|]. eapply yields_trans; [apply yields_one, y1, Ha|].
    rewrite seq_form_nt.
    pose proof (yields_ctx (x ++ seq_form a ++ [NT B]) y _ _ Hf) as Y.
    rewrite <- !app_assoc in Y. rewrite <- !app_assoc. simpl in *. exact Y.
  Qed.
  Lemma follow_end A a B b x :
    alternative g A (a ++ SNonTerminal B :: b) -> nullable g (seq_form b) ->
    follow g A x -> follow g B x.
  Proof.
    intros Ha Hn Hf. destruct x as [c|]; simpl in *.
    - destruct Hf as (u & v & H). exists (u ++ seq_form a), v.
      eapply yields_trans; [exact H|]. eapply yields_trans; [apply yields_one, y1, Ha|].
      rewrite seq_form_nt.
      pose proof (yields_ctx (u ++ seq_form a ++ [NT B]) (Ch c :: v) _ _ Hn) as Y.
      rewrite <- !app_assoc in Y. rewrite <- !app_assoc. simpl in *. exact Y.
    - destruct Hf as (u & H). exists (u ++ seq_form a).
      eapply yields_trans; [exact H|]. eapply yields_trans; [apply yields_one, y1, Ha|].
      rewrite seq_form_nt.
      pose proof (yields_ctx (u ++ seq_form a ++ [NT B]) [] _ _ Hn) as Y.
      rewrite <- !app_assoc in Y. rewrite <- !app_assoc. simpl in *.
      rewrite app_nil_r in *. exact Y.
  Qed.

  (** What stands behind an occurrence in a sentential form: *)
  Definition behind (b : form) (x : option ascii) : Prop :=
    match x with Some c => first g b c | None => nullable g b end.

  (** FOLLOW sets that are closed contain everything that can stand behind. *)
  Definition closed_follow (F : bytes -> option ascii -> Prop) : Prop :=
    F (start g) None /\
    (forall A a B b c, reachable g A -> alternative g A (a ++ SNonTerminal B :: b) ->
       first g (seq_form b) c -> F B (Some c)) /\
    (forall A a B b x, alternative g A (a ++ SNonTerminal B :: b) ->
       nullable g (seq_form b) -> F A x -> F B x).

  Lemma follow_closed : closed_follow (follow g).
  Proof.
    split; [exact follow_start|]. split; [intros; eapply follow_first; eassumption|].
    intros. eapply follow_end; eassumption.
  Qed.

  Lemma follow_rules_closed : g <> [] -> closed_follow (follow_rules g).
  Proof.
    intros Hg. split; [constructor; exact Hg|]. split; intros; [eapply fr_first|eapply fr_end]; eassumption.
  Qed.

  (** [u] is a sentential form all of whose non-terminals are covered by [F]. *)
  Lemma app_nt_split a B b a2 n b2 :
    a ++ NT B :: b = a2 ++ NT n :: b2 ->
    (a = a2 /\ B = n /\ b = b2) \/
    (exists m, a2 = a ++ NT B :: m /\ b = m ++ NT n :: b2) \/
    (exists m, a = a2 ++ NT n :: m /\ b2 = m ++ NT B :: b).
  Proof.
    revert a2. induction a as [|x a IH]; intros [|y a2] H; simpl in H.
    - injection H as -> ->. left. auto.
    - injection H as <- ->. right. left. exists a2. auto.
    - injection H as -> <-. right. right. exists a. auto.
    - injection H as <- H. destruct (IH a2 H) as [(-> & -> & ->)|[(m & -> & ->)|(m & -> & ->)]].
      + left. auto.
      + right. left. exists m. auto.
      + right. right. exists m. auto.
  Qed.

  Lemma seq_form_split s : forall a B b,
    seq_form s = a ++ NT B :: b ->
    exists s1 s2, s = s1 ++ SNonTerminal B :: s2 /\ a = seq_form s1 /\ b = seq_form s2.
  Proof.
    induction s as [|x s IH]; intros a B b H; [destruct a; discriminate|].
    simpl in H. destruct x as [n|t| |str]; simpl in H.
    - destruct a as [|y a].
      + injection H as -> <-. exists [], s. auto.
      + injection H as <- H. destruct (IH _ _ _ H) as (s1 & s2 & -> & -> & ->).
        exists (SNonTerminal n :: s1), s2. auto.
    - assert (G : exists a', a = map Ch t ++ a' /\ seq_form s = a' ++ NT B :: b).
      { revert a H. induction t as [|c t IHt]; intros a H; [exists a; auto|].
        destruct a as [|y a]; [discriminate|]. injection H as <- H.
        destruct (IHt _ H) as (a' & -> & H'). exists a'. auto. }
      destruct G as (a' & -> & H'). destruct (IH _ _ _ H') as (s1 & s2 & -> & -> & ->).
      exists (STerminal t :: s1), s2. auto.
    - destruct (IH _ _ _ H) as (s1 & s2 & -> & -> & ->). exists (SNothing :: s1), s2. auto.
    - destruct (IH _ _ _ H) as (s1 & s2 & -> & -> & ->). exists (SUnknown str :: s1), s2. auto.
  Qed.

  Lemma behind_app_cons u v x :
    behind (u ++ v) x <->
    (match x with Some c => first g u c | None => False end) \/ (nullable g u /\ behind v x).
  Proof.
    destruct x as [c|]; simpl; [apply first_app|]. rewrite nullable_app. tauto.
  Qed.

  Lemma yields_snoc_ind (P : form -> Prop) u0 :
    P u0 -> (forall u v, yields g u0 u -> P u -> yields1 g u v -> P v) ->
    forall v, yields g u0 v -> P v.
  Proof.
    intros H0 HS v H.
    assert (G : forall u w, yields g u0 u -> P u -> yields g u w -> P w).
    { intros u w Hu Pu Huw. induction Huw as [u|u v' w H1 _ IH]; [exact Pu|].
      apply IH; [eapply yields_trans; [exact Hu|apply yields_one, H1]|].
      eapply HS; eassumption. }
    eapply G; [constructor|exact H0|exact H].
  Qed.

  Lemma closed_covers (F : bytes -> option ascii -> Prop) u :
    closed_follow F -> yields g [NT (start g)] u ->
    forall a B b x, u = a ++ NT B :: b -> behind b x -> F B x.
  Proof.
    intros (C1 & C2 & C3) H. revert u H.
    refine (yields_snoc_ind _ [NT (start g)] _ _).
    - intros a B b x E Hb. destruct a as [|y a]; [|destruct a; discriminate].
      injection E as <- <-. destruct x as [c|]; simpl in Hb; [destruct (first_nil _ Hb)|exact C1].
    - intros u v Hu IH Hstep a B b x E Hb.
      destruct Hstep as [p n s q Halt].
      assert (Rn : reachable g n) by (exists p, q; exact Hu).
      (* where is the occurrence of B in p ++ seq_form s ++ q ? *)
      assert (Pos : (exists m, p = a ++ NT B :: m /\ b = m ++ seq_form s ++ q) \/
                    (exists m1 m2, seq_form s = m1 ++ NT B :: m2 /\ a = p ++ m1 /\ b = m2 ++ q) \/
                    (exists m, q = m ++ NT B :: b /\ a = p ++ seq_form s ++ m)).
      { clear -E. revert a E. induction p as [|y p IHp]; intros a E; simpl in E.
        - right. revert a E. generalize (seq_form s) as f. intros f. induction f as [|z f IHf]; intros a E; simpl in E.
          + right. exists a. auto.
          + destruct a as [|y a]; injection E as E1 E2.
            * subst. left. exists [], f. auto.
            * subst. destruct (IHf _ E2) as [(m1 & m2 & -> & -> & ->)|(m & -> & ->)].
              -- left. exists (y :: m1), m2. auto.
              -- right. exists m. auto.
        - destruct a as [|z a]; injection E as E1 E2.
          + subst. left. exists p. auto.
          + subst. destruct (IHp _ E2) as [(m & -> & ->)|[(m1 & m2 & E3 & -> & ->)|(m & -> & ->)]].
            * left. exists m. auto.
            * right. left. exists m1, m2. auto.
            * right. right. exists m. auto. }
      destruct Pos as [(m & -> & ->)|[(m1 & m2 & E3 & -> & ->)|(m & -> & ->)]].
      + eapply IH; [rewrite <- app_assoc; reflexivity|].
        apply behind_app_cons in Hb. apply behind_app_cons.
        destruct Hb as [Hb|[Hm Hb]]; [left; exact Hb|right]. split; [exact Hm|].
        apply behind_app_cons in Hb. change (NT n :: q) with ([NT n] ++ q). apply behind_app_cons.
        destruct Hb as [Hb|[Hs Hb]].
        * left. destruct x as [c|]; [|destruct Hb]. apply first_nt. exists s. auto.
        * right. split; [|exact Hb]. apply nullable_nt. exists s. auto.
      + apply seq_form_split in E3. destruct E3 as (s1 & s2 & -> & -> & ->).
        apply behind_app_cons in Hb. destruct Hb as [Hb|[Hs Hb]].
        * destruct x as [c|]; [|destruct Hb]. eapply C2; eassumption.
        * eapply C3; [exact Halt|exact Hs|]. eapply IH; [reflexivity|exact Hb].
      + apply (IH (p ++ NT n :: m) B b x); [|exact Hb].
        rewrite <- app_assoc. simpl. reflexivity.
  Qed.

  (** FOLLOW by sentential forms is the least closed family. *)
  Lemma follow_least F n x : closed_follow F -> follow g n x -> F n x.
  Proof.
    intros C Hf. destruct x as [c|]; simpl in Hf.
    - destruct Hf as (a & b & H). eapply (closed_covers F _ C H); [reflexivity|].
      simpl. apply first_ch. reflexivity.
    - destruct Hf as (a & H). eapply (closed_covers F _ C H); [reflexivity|]. apply nullable_nil.
  Qed.

  Lemma follow_rules_follow n x :
    (forall m, defined g m -> reachable g m) -> follow_rules g n x -> follow g n x.
  Proof.
    intros R H. induction H as [Hg|A a B b c Ha Hf|A a B b x Ha Hn _ IH].
    - apply follow_start.
    - eapply follow_first; [|exact Ha|exact Hf]. apply R.
      destruct Ha as (r & Hin & <- & _). apply in_map, Hin.
    - eapply follow_end; eassumption.
  Qed.

  Lemma first_cons X b c :
    first g (seq_form (X :: b)) c <->
    first g (sym_form X) c \/ (nullable g (sym_form X) /\ first g (seq_form b) c).
  Proof. apply first_app. Qed.
  Lemma nullable_cons X b :
    nullable g (seq_form (X :: b)) <-> nullable g (sym_form X) /\ nullable g (seq_form b).
  Proof. apply nullable_app. Qed.

  Lemma follow_code_rules n x :
    nullable_follower_last g -> (follow_code g n x <-> follow_rules g n x).
  Proof.
    intros L. split.
    - induction 1 as [Hg|A a B X b c Ha Hf|A a B x Ha _ IH|A a B X b x Ha Hn _ IH].
      + constructor. exact Hg.
      + eapply fr_first; [exact Ha|]. apply first_cons. left. exact Hf.
      + eapply fr_end; [exact Ha|constructor|exact IH].
      + rewrite (L _ _ _ _ _ Ha Hn) in Ha. eapply fr_end; [exact Ha| |exact IH].
        apply nullable_cons. split; [exact Hn|constructor].
    - induction 1 as [Hg|A a B b c Ha Hf|A a B b x Ha Hn _ IH].
      + constructor. exact Hg.
      + destruct b as [|X b]; [destruct (first_nil _ Hf)|].
        apply first_cons in Hf. destruct Hf as [Hf|[Hn Hf]].
        * eapply fc_rule2; eassumption.
        * rewrite (L _ _ _ _ _ Ha Hn) in Hf. destruct (first_nil _ Hf).
      + destruct b as [|X b]; [eapply fc_rule3; eassumption|].
        apply nullable_cons in Hn. destruct Hn as [Hn _]. eapply fc_rule4; eassumption.
  Qed.
End G.
