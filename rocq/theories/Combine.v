(** * Combine: proofs about grammars put together. *)
From Verif Require Import Base Ast Spec_Grammar Spec_Extend Spec_Combine GrammarProofs TGTrees TGExtend TGFirsts TGParse.

(** ** A grammar inside another one *)
Section Inside.
  Variables g G : grammar.
  Hypothesis Into : forall n s, alternative g n s -> alternative G n s.
  Hypothesis Back : forall n s, defined g n -> alternative G n s -> alternative g n s.
  Hypothesis Cl : self_contained g.

  Lemma in_yields u v : yields g u v -> yields G u v.
  Proof.
    induction 1 as [u|u v w [a n s b Ha] _ IH]; [constructor|]. eapply ys_step; [apply y1, Into, Ha|exact IH].
  Qed.
  Lemma in_yields_back u v : yields G u v -> inside g u -> yields g u v /\ inside g v.
  Proof.
    induction 1 as [u|u v w [a n s b Ha] _ IH]; intros Hi; [split; [constructor|exact Hi]|].
    assert (Hi' := Hi). apply inside_app in Hi'. destruct Hi' as (I1 & I2).
    assert (Hn : defined g n) by (apply I2; left; reflexivity).
    pose proof (Back _ _ Hn Ha) as Ha'.
    destruct IH as (Y & I).
    { apply inside_app. split; [exact I1|]. apply inside_app. split; [eapply inside_alt; eassumption|].
      intros m Hm. apply I2. right. exact Hm. }
    split; [|exact I]. eapply ys_step; [apply y1, Ha'|exact Y].
  Qed.
  Lemma in_first u c : inside g u -> first G u c <-> first g u c.
  Proof. intros I. split; intros (v & Y); exists v; [apply (in_yields_back _ _ Y I)|apply in_yields, Y]. Qed.
  Lemma in_nullable u : inside g u -> nullable G u <-> nullable g u.
  Proof. intros I. split; intros Y; [apply (in_yields_back _ _ Y I)|apply in_yields, Y]. Qed.
End Inside.

(** A derivation from [u ++ v] is one from [u] and one from [v]. *)
Lemma yields_app_inv g u v w : yields g (u ++ v) w -> exists a b, w = a ++ b /\ yields g u a /\ yields g v b.
Proof.
  intros H. remember (u ++ v) as z eqn:E. revert u v E. induction H as [z|z z1 w [x n s y Ha] _ IH]; intros u v E.
  - exists u, v. split; [exact E|]. split; constructor.
  - assert (Right : forall l, x = u ++ l -> v = l ++ NT n :: y -> exists a b, w = a ++ b /\ yields g u a /\ yields g v b).
    { intros l -> ->. destruct (IH u (l ++ seq_form s ++ y)) as (a & b & -> & Y1 & Y2); [symmetry; apply app_assoc|].
      exists a, b. split; [reflexivity|]. split; [exact Y1|]. eapply ys_step; [apply y1, Ha|exact Y2]. }
    apply app_eq_app in E. destruct E as (l & [(E1 & E2)|(E1 & E2)]); [eapply Right; eassumption|].
    destruct l as [|k l]; [apply (Right []); [rewrite app_nil_r in *; congruence|cbn in *; congruence]|].
    cbn in E2. injection E2 as <- ->. subst u.
    destruct (IH (x ++ seq_form s ++ l) v) as (a & b & -> & Y1 & Y2); [rewrite <- !app_assoc; reflexivity|].
    exists a, b. split; [reflexivity|]. split; [|exact Y2]. eapply ys_step; [apply y1, Ha|exact Y1].
Qed.

(** ** The rules of both grammars under a new one *)
Section Combine.
  Variables (top : bytes) (g1 g2 : grammar) (tops : list sequence).
  Let G := mkRule top tops :: g1 ++ g2.
  Hypothesis W1 : wf_grammar g1.
  Hypothesis W2 : wf_grammar g2.
  Hypothesis A : apart top g1 g2.
  (** Every alternative of the new rule consists of the two start rules. *)
  Hypothesis Tops : forall s, In s tops -> s <> [] /\ forall x, In x s -> x = SNonTerminal (start g1) \/ x = SNonTerminal (start g2).

  Lemma apart_facts : ~ defined g1 top /\ ~ defined g2 top /\ (forall n, defined g1 n -> ~ defined g2 n).
  Proof.
    unfold apart, defined in *. inversion A as [|? ? N Nd]; subst. split; [|split].
    - intros H. apply N, in_or_app. left. exact H.
    - intros H. apply N, in_or_app. right. exact H.
    - intros n H H'. exact (NoDup_apart _ _ Nd n H H').
  Qed.
  Lemma com_top s : alternative G top s <-> In s tops.
  Proof.
    destruct apart_facts as (N1 & N2 & _). split.
    - intros (r & [<-|Hr] & E & Hs); [exact Hs|exfalso]. apply in_app_or in Hr.
      destruct Hr as [Hr|Hr]; [apply N1|apply N2]; rewrite <- E; apply in_map, Hr.
    - intros H. exists (mkRule top tops). split; [left; reflexivity|]. auto.
  Qed.
  Lemma com_into1 n s : alternative g1 n s -> alternative G n s.
  Proof. intros (r & Hr & H). exists r. split; [right; apply in_or_app; left; exact Hr|exact H]. Qed.
  Lemma com_into2 n s : alternative g2 n s -> alternative G n s.
  Proof. intros (r & Hr & H). exists r. split; [right; apply in_or_app; right; exact Hr|exact H]. Qed.
  Lemma com_back1 n s : defined g1 n -> alternative G n s -> alternative g1 n s.
  Proof.
    destruct apart_facts as (N1 & N2 & N). intros D (r & [<-|Hr] & <- & Hs); [contradiction|]. apply in_app_or in Hr.
    destruct Hr as [Hr|Hr]; [exists r; auto|]. destruct (N _ D). apply in_map, Hr.
  Qed.
  Lemma com_back2 n s : defined g2 n -> alternative G n s -> alternative g2 n s.
  Proof.
    destruct apart_facts as (N1 & N2 & N). intros D (r & [<-|Hr] & <- & Hs); [contradiction|]. apply in_app_or in Hr.
    destruct Hr as [Hr|Hr]; [|exists r; auto]. destruct (fun X => N _ X D). apply in_map, Hr.
  Qed.
  Lemma wf_closed g : wf_grammar g -> self_contained g.
  Proof.
    intros [_ _ S] n s m Ha Hm. destruct (S _ _ Ha) as [->|(_ & F)]; [destruct Hm as [E|[]]; discriminate|].
    rewrite Forall_forall in F. exact (F _ Hm).
  Qed.
  Lemma start_defined g : wf_grammar g -> defined g (start g).
  Proof. intros [N _ _]. destruct g; [congruence|left; reflexivity]. Qed.
  Lemma start_inside g : wf_grammar g -> inside g [NT (start g)].
  Proof. intros W n [E|[]]. injection E as <-. apply start_defined, W. Qed.
  Lemma com_defined n : defined G n <-> n = top \/ defined g1 n \/ defined g2 n.
  Proof.
    unfold defined, heads, G. cbn. rewrite map_app, in_app_iff. split; intros [E|H]; auto.
  Qed.
  Lemma com_wf : tops <> [] -> wf_grammar G.
  Proof.
    intros Nt. constructor; [discriminate| |].
    - unfold heads, G. cbn. rewrite map_app. exact A.
    - intros n s (r & [<-|Hr] & <- & Hs).
      + right. destruct (Tops _ Hs) as (Ns & F). split; [exact Ns|]. apply Forall_forall. intros x Hx.
        destruct (F _ Hx) as [->| ->]; cbn [wf_symbol]; apply com_defined; right; [left|right]; apply start_defined; assumption.
      + assert (X : forall g, wf_grammar g -> In r g -> (forall m, defined g m -> defined G m) -> wf_sequence G s).
        { intros g [_ _ S] Hg D. destruct (S (r_head r) s) as [->|(Ns & F)]; [exists r; auto|left; reflexivity|right].
          split; [exact Ns|]. rewrite Forall_forall in *. intros x Hx. specialize (F x Hx). destruct x; cbn in *; auto. }
        apply in_app_or in Hr. destruct Hr as [Hr|Hr]; [apply (X g1)|apply (X g2)]; auto; intros m D; apply com_defined; auto.
  Qed.
  Lemma com_first1 u c : inside g1 u -> first G u c <-> first g1 u c.
  Proof. apply in_first; [exact com_into1|exact com_back1|apply wf_closed, W1]. Qed.
  Lemma com_first2 u c : inside g2 u -> first G u c <-> first g2 u c.
  Proof. apply in_first; [exact com_into2|exact com_back2|apply wf_closed, W2]. Qed.
  Lemma com_null1 u : inside g1 u -> nullable G u <-> nullable g1 u.
  Proof. apply in_nullable; [exact com_into1|exact com_back1|apply wf_closed, W1]. Qed.
  Lemma com_null2 u : inside g2 u -> nullable G u <-> nullable g2 u.
  Proof. apply in_nullable; [exact com_into2|exact com_back2|apply wf_closed, W2]. Qed.
  Lemma com_yields1 u v : inside g1 u -> yields G u v <-> yields g1 u v.
  Proof.
    intros I. split; intros Y; [|exact (in_yields _ _ com_into1 _ _ Y)].
    apply (in_yields_back _ _ com_back1 (wf_closed _ W1) _ _ Y I).
  Qed.
  Lemma com_yields2 u v : inside g2 u -> yields G u v <-> yields g2 u v.
  Proof.
    intros I. split; intros Y; [|exact (in_yields _ _ com_into2 _ _ Y)].
    apply (in_yields_back _ _ com_back2 (wf_closed _ W2) _ _ Y I).
  Qed.
  (** From the new start rule: itself, or one of its alternatives. *)
  Lemma com_from_top v : yields G [NT top] v <-> v = [NT top] \/ exists s, In s tops /\ yields G (seq_form s) v.
  Proof.
    split.
    - intros H. inversion H as [|? z ? H1 H2]; subst; [left; reflexivity|right].
      inversion H1 as [a n s b Ha E1 E2]; subst. destruct a as [|? [|]]; try discriminate. cbn in *. injection E1 as -> ->.
      rewrite app_nil_r in H2. exists s. split; [apply com_top, Ha|exact H2].
    - intros [->|(s & Hs & Y)]; [constructor|]. eapply ys_step; [|exact Y].
      apply com_top in Hs. pose proof (y1 G [] top s [] Hs) as X. rewrite app_nil_r in X. exact X.
  Qed.
  Lemma com_two n s1 s2 : two_alternatives G n s1 s2 <->
    (n = top /\ exists l1 l2 l3, tops = l1 ++ s1 :: l2 ++ s2 :: l3) \/ two_alternatives g1 n s1 s2 \/ two_alternatives g2 n s1 s2.
  Proof.
    split.
    - intros (r & l1 & l2 & l3 & [<-|Hr] & <- & E); [left; split; [reflexivity|]; exists l1, l2, l3; exact E|right].
      apply in_app_or in Hr. destruct Hr as [Hr|Hr]; [left|right]; exists r, l1, l2, l3; auto.
    - intros [(-> & l1 & l2 & l3 & E)|[(r & l1 & l2 & l3 & Hr & H)|(r & l1 & l2 & l3 & Hr & H)]].
      + exists (mkRule top tops), l1, l2, l3. split; [left; reflexivity|]. auto.
      + exists r, l1, l2, l3. split; [right; apply in_or_app; left; exact Hr|exact H].
      + exists r, l1, l2, l3. split; [right; apply in_or_app; right; exact Hr|exact H].
  Qed.
  Lemma two_inside g n s1 s2 : wf_grammar g -> two_alternatives g n s1 s2 ->
    inside g (seq_form s1) /\ inside g (seq_form s2) /\ defined g n.
  Proof.
    intros W (r & l1 & l2 & l3 & Hr & <- & E). split; [|split].
    - apply (inside_alt g (wf_closed _ W) (r_head r)). exists r. rewrite E. split; [exact Hr|]. split; [reflexivity|].
      apply in_or_app. right. left. reflexivity.
    - apply (inside_alt g (wf_closed _ W) (r_head r)). exists r. rewrite E. split; [exact Hr|]. split; [reflexivity|].
      apply in_or_app. right. right. apply in_or_app. right. left. reflexivity.
    - apply in_map, Hr.
  Qed.
  (** LL(1) of the whole from the parts, for given FOLLOW sets of the parts. *)
  Lemma com_LL1 F1 F2 :
    (forall n c, defined g1 n -> (follow G n (Some c) <-> F1 n (Some c))) ->
    (forall n c, defined g2 n -> (follow G n (Some c) <-> F2 n (Some c))) ->
    (forall c, ~ follow G top (Some c)) ->
    (LL1 G <-> LL1_wrt F1 g1 /\ LL1_wrt F2 g2 /\
      forall l1 s1 l2 s2 l3, tops = l1 ++ s1 :: l2 ++ s2 :: l3 ->
        (forall c, first G (seq_form s1) c -> ~ first G (seq_form s2) c) /\ ~ (nullable G (seq_form s1) /\ nullable G (seq_form s2))).
  Proof.
    intros E1 E2 Et. split.
    - intros [L1 L2 L3]. split; [|split].
      + constructor.
        * intros n s1 s2 c T Fa Fb. destruct (two_inside _ _ _ _ W1 T) as (I1 & I2 & D).
          apply (L1 n s1 s2 c); [apply com_two; auto|apply com_first1; assumption|apply com_first1; assumption].
        * intros n s1 s2 T Fa Fb. destruct (two_inside _ _ _ _ W1 T) as (I1 & I2 & D).
          apply (L2 n s1 s2); [apply com_two; auto|apply com_null1; assumption|apply com_null1; assumption].
        * intros n s1 s2 c T F. destruct (two_inside _ _ _ _ W1 T) as (I1 & I2 & D). apply (E1 n c D) in F.
          destruct (L3 n s1 s2 c) as (X & Y); [apply com_two; auto|exact F|].
          split; intros N Fi; [apply X|apply Y]; try (apply com_null1; assumption); apply com_first1; assumption.
      + constructor.
        * intros n s1 s2 c T Fa Fb. destruct (two_inside _ _ _ _ W2 T) as (I1 & I2 & D).
          apply (L1 n s1 s2 c); [apply com_two; auto|apply com_first2; assumption|apply com_first2; assumption].
        * intros n s1 s2 T Fa Fb. destruct (two_inside _ _ _ _ W2 T) as (I1 & I2 & D).
          apply (L2 n s1 s2); [apply com_two; auto|apply com_null2; assumption|apply com_null2; assumption].
        * intros n s1 s2 c T F. destruct (two_inside _ _ _ _ W2 T) as (I1 & I2 & D). apply (E2 n c D) in F.
          destruct (L3 n s1 s2 c) as (X & Y); [apply com_two; auto|exact F|].
          split; intros N Fi; [apply X|apply Y]; try (apply com_null2; assumption); apply com_first2; assumption.
      + intros l1 s1 l2 s2 l3 E. assert (T : two_alternatives G top s1 s2) by (apply com_two; left; split; [reflexivity|eauto]).
        split; [intros c; exact (L1 _ _ _ c T)|]. intros (N1 & N2). exact (L2 _ _ _ T N1 N2).
    - intros (LA & LB & LT). constructor.
      + intros n s1 s2 c T Fa Fb. apply com_two in T. destruct T as [(-> & l1 & l2 & l3 & E)|[T|T]].
        * destruct (LT _ _ _ _ _ E) as (X & _). exact (X c Fa Fb).
        * destruct (two_inside _ _ _ _ W1 T) as (I1 & I2 & D).
          apply (ll1_first _ _ LA n s1 s2 c T); apply com_first1; assumption.
        * destruct (two_inside _ _ _ _ W2 T) as (I1 & I2 & D).
          apply (ll1_first _ _ LB n s1 s2 c T); apply com_first2; assumption.
      + intros n s1 s2 T Fa Fb. apply com_two in T. destruct T as [(-> & l1 & l2 & l3 & E)|[T|T]].
        * destruct (LT _ _ _ _ _ E) as (_ & X). apply X. auto.
        * destruct (two_inside _ _ _ _ W1 T) as (I1 & I2 & D).
          apply (ll1_empty _ _ LA n s1 s2 T); apply com_null1; assumption.
        * destruct (two_inside _ _ _ _ W2 T) as (I1 & I2 & D).
          apply (ll1_empty _ _ LB n s1 s2 T); apply com_null2; assumption.
      + intros n s1 s2 c T F. apply com_two in T. destruct T as [(-> & l1 & l2 & l3 & E)|[T|T]].
        * destruct (Et _ F).
        * destruct (two_inside _ _ _ _ W1 T) as (I1 & I2 & D). apply (E1 n c D) in F.
          destruct (ll1_follow _ _ LA n s1 s2 c T F) as (X & Y).
          split; intros N Fi; [apply X|apply Y]; try (apply com_null1; assumption); apply com_first1; assumption.
        * destruct (two_inside _ _ _ _ W2 T) as (I1 & I2 & D). apply (E2 n c D) in F.
          destruct (ll1_follow _ _ LB n s1 s2 c T F) as (X & Y).
          split; intros N Fi; [apply X|apply Y]; try (apply com_null2; assumption); apply com_first2; assumption.
  Qed.
End Combine.
