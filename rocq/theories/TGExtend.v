(** * TGExtend: grammars with further rules at their end. *)
From Verif Require Import Base Ast Cst Parser TableGen Spec_Parse Spec_Tree Spec_Grammar Spec_Table Spec_Outcome Spec_Predict
  Spec_Extend GrammarProofs ParserProofs TGFirsts TGCells TGTable TGParse TGTrees TGPredict.

Lemma NoDup_apart {A} (l l' : list A) : NoDup (l ++ l') -> forall x, In x l -> ~ In x l'.
Proof.
  induction l as [|a l IH]; intros N x Hx Hx'; [destruct Hx|].
  simpl in N. inversion N as [|? ? Na N']; subst. destruct Hx as [->|Hx].
  - apply Na, in_or_app. right. exact Hx'.
  - exact (IH N' x Hx Hx').
Qed.

Section Extend.
  Variables g h : grammar.
  Hypothesis Ne : g <> [].
  Hypothesis Nd : NoDup (heads (g ++ h)).
  Hypothesis Cl : self_contained g.

  Lemma ext_start : start (g ++ h) = start g.
  Proof. destruct g; [congruence|reflexivity]. Qed.
  Lemma ext_defined n : defined g n -> defined (g ++ h) n.
  Proof. unfold defined, heads. rewrite map_app. intros H. apply in_or_app. left. exact H. Qed.
  Lemma ext_rule r : In r (g ++ h) -> defined g (r_head r) -> In r g.
  Proof.
    intros Hr Hd. apply in_app_or in Hr. destruct Hr as [Hr|Hr]; [exact Hr|exfalso].
    unfold heads in Nd. rewrite map_app in Nd. apply (NoDup_apart _ _ Nd (r_head r) Hd). apply in_map, Hr.
  Qed.
  Lemma ext_alt n s : alternative g n s -> alternative (g ++ h) n s.
  Proof. intros (r & Hr & A). exists r. split; [apply in_or_app; left; exact Hr|exact A]. Qed.
  Lemma ext_alt_back n s : defined g n -> alternative (g ++ h) n s -> alternative g n s.
  Proof. intros Hd (r & Hr & <- & A). exists r. split; [apply ext_rule; assumption|auto]. Qed.
  Lemma alt_defined n s : alternative g n s -> defined g n.
  Proof. intros (r & Hr & <- & _). unfold defined, heads. apply in_map, Hr. Qed.

  (** Forms over the names of [g]. *)
  Definition inside (u : form) : Prop := forall n, In (NT n) u -> defined g n.
  Lemma inside_app u v : inside (u ++ v) <-> inside u /\ inside v.
  Proof.
    unfold inside. split.
    - intros H. split; intros n Hn; apply H, in_or_app; [left|right]; exact Hn.
    - intros (A & B) n Hn. apply in_app_or in Hn. destruct Hn; auto.
  Qed.
  Lemma in_seq_form n s : In (NT n) (seq_form s) -> In (SNonTerminal n) s.
  Proof.
    unfold seq_form. rewrite in_flat_map. intros (x & Hx & Hn). destruct x as [m|t| |str]; cbn in Hn.
    - destruct Hn as [Hn|[]]. injection Hn as ->. exact Hx.
    - apply in_map_iff in Hn. destruct Hn as (c & Hc & _). discriminate.
    - destruct Hn.
    - destruct Hn.
  Qed.
  Lemma inside_alt n s : alternative g n s -> inside (seq_form s).
  Proof. intros Ha m Hm. eapply Cl; [exact Ha|apply in_seq_form, Hm]. Qed.
  Lemma inside_start : inside [NT (start g)].
  Proof.
    intros n [E|[]]. injection E as <-. clear Nd Cl. destruct g; [congruence|left; reflexivity].
  Qed.

  Lemma ext_yields u v : yields g u v -> yields (g ++ h) u v.
  Proof.
    induction 1 as [u|u v w [a n s b Ha] _ IH]; [constructor|].
    eapply ys_step; [apply y1, ext_alt, Ha|exact IH].
  Qed.
  Lemma ext_yields_back u v : yields (g ++ h) u v -> inside u -> yields g u v /\ inside v.
  Proof.
    induction 1 as [u|u v w [a n s b Ha] _ IH]; intros Hi; [split; [constructor|exact Hi]|].
    assert (Hi' := Hi). apply inside_app in Hi'. destruct Hi' as (I1 & I2).
    assert (Hn : defined g n) by (apply I2; left; reflexivity).
    pose proof (ext_alt_back _ _ Hn Ha) as Ha'.
    destruct IH as (Y & I).
    { apply inside_app. split; [exact I1|]. apply inside_app. split; [eapply inside_alt, Ha'|].
      intros m Hm. apply I2. right. exact Hm. }
    split; [|exact I]. eapply ys_step; [apply y1, Ha'|exact Y].
  Qed.
  Lemma ext_first u c : inside u -> first (g ++ h) u c <-> first g u c.
  Proof.
    intros I. split; intros (v & Y); exists v; [apply (ext_yields_back _ _ Y I)|apply ext_yields, Y].
  Qed.
  Lemma ext_nullable u : inside u -> nullable (g ++ h) u <-> nullable g u.
  Proof. intros I. split; intros Y; [apply (ext_yields_back _ _ Y I)|apply ext_yields, Y]. Qed.
  Lemma ext_word w : word (g ++ h) w <-> word g w.
  Proof.
    unfold word. rewrite ext_start. split; intros (N & Y).
    - split; [exact Ne|]. apply (ext_yields_back _ _ Y inside_start).
    - split; [destruct g; [congruence|discriminate]|apply ext_yields, Y].
  Qed.
  Lemma ext_follow n x : follow (g ++ h) n x <-> follow g n x.
  Proof.
    destruct x as [c|]; cbn [follow]; rewrite ext_start; split.
    - intros (a & b & Y). exists a, b. apply (ext_yields_back _ _ Y inside_start).
    - intros (a & b & Y). exists a, b. apply ext_yields, Y.
    - intros (a & Y). exists a. apply (ext_yields_back _ _ Y inside_start).
    - intros (a & Y). exists a. apply ext_yields, Y.
  Qed.
  Lemma follow_defined n x : follow g n x -> defined g n.
  Proof.
    intros H. assert (R : exists a b, yields g [NT (start g)] (a ++ NT n :: b)).
    { destruct x as [c|]; [destruct H as (a & b & Y)|destruct H as (a & Y)]; eauto. }
    destruct R as (a & b & Y). destruct (ext_yields_back _ _ (ext_yields _ _ Y) inside_start) as (_ & I).
    apply I, in_or_app. right. left. reflexivity.
  Qed.

  Lemma ext_follow_code n x : follow_code g n x -> follow_code (g ++ h) n x.
  Proof.
    induction 1 as [_|A a B X b c Ha (v & Y)|A a B x Ha _ IH|A a B X b x Ha Y _ IH].
    - rewrite <- ext_start. apply fc_rule1. destruct g; [congruence|discriminate].
    - eapply fc_rule2; [apply ext_alt, Ha|]. exists v. apply ext_yields, Y.
    - eapply fc_rule3; [apply ext_alt, Ha|exact IH].
    - eapply fc_rule4; [apply ext_alt, Ha|apply ext_yields, Y|exact IH].
  Qed.

  Lemma ext_two n s1 s2 : two_alternatives g n s1 s2 -> two_alternatives (g ++ h) n s1 s2.
  Proof. intros (r & l1 & l2 & l3 & Hr & A). exists r, l1, l2, l3. split; [apply in_or_app; left; exact Hr|exact A]. Qed.

  Lemma ext_late : late_empty g (follow_code g) -> late_empty (g ++ h) (follow_code (g ++ h)).
  Proof.
    intros (n & s1 & s2 & b & H2 & Hn & Hf & Ho). exists n, s1, s2, b.
    split; [apply ext_two, H2|]. split; [apply ext_yields, Hn|]. split; [apply ext_follow_code, Hf|].
    destruct Ho as [Ho|(v & Ho)]; [left; apply ext_yields, Ho|right; exists v; apply ext_yields, Ho].
  Qed.

  (** ** Faults *)
  Lemma ext_leads ns x rest : leads g ns x rest -> leads (g ++ h) ns x rest.
  Proof. intros ((n & Ha) & Y). split; [exists n; apply ext_alt, Ha|apply ext_yields, Y]. Qed.
  Lemma mid_in (a : sequence) x b : In x (a ++ x :: b).
  Proof. apply in_or_app. right. left. reflexivity. Qed.
  Lemma ext_first_fault f : first_fault g f -> first_fault (g ++ h) f.
  Proof.
    intros [ns m rest L N|ns rest L|ns rest L N|ns str rest L].
    - destruct N. destruct L as ((n & Ha) & _). eapply Cl; [exact Ha|apply mid_in].
    - eapply ff_empty_terminal, ext_leads, L.
    - eapply ff_nothing; [apply ext_leads, L|exact N].
    - eapply ff_unknown, ext_leads, L.
  Qed.
  Lemma ext_neighbours B x : neighbours g B x -> neighbours (g ++ h) B x.
  Proof. intros (D & n & a & b & Ha). split; [apply ext_defined, D|]. exists n, a, b. apply ext_alt, Ha. Qed.
  Lemma ext_follow_fault f : follow_fault g f -> follow_fault (g ++ h) f.
  Proof.
    intros [E|n Ha|B m Hn N|B Hn|B str Hn].
    - contradiction.
    - eapply fo_empty_sequence, ext_alt, Ha.
    - destruct N. destruct Hn as (_ & n & a & b & Ha). eapply Cl; [exact Ha|].
      apply in_or_app. right. right. left. reflexivity.
    - eapply fo_empty_terminal, ext_neighbours, Hn.
    - eapply fo_unknown, ext_neighbours, Hn.
  Qed.
  Lemma ext_selectable x : selectable g x -> selectable (g ++ h) x.
  Proof.
    intros (n & a & b & c & Ha & (v & Y) & Fo). exists n, a, b, c.
    split; [apply ext_alt, Ha|]. split; [exists v; apply ext_yields, Y|].
    rewrite Forall_forall in *. intros y Hy W. apply (Fo y Hy). destruct y as [m|t| |str]; cbn in *; auto.
    intros D. apply W, ext_defined, D.
  Qed.
  Lemma ext_cell_fault f : cell_fault g (follow_code g) f -> cell_fault (g ++ h) (follow_code (g ++ h)) f.
  Proof.
    intros [L|m Hs N|Hs|str Hs].
    - apply cf_conflict, ext_late, L.
    - destruct N. destruct Hs as (n & a & b & c & Ha & _). eapply Cl; [exact Ha|apply mid_in].
    - apply cf_nothing, ext_selectable, Hs.
    - eapply cf_unknown, ext_selectable, Hs.
  Qed.

  (** ** Predictive derivations *)
  Variable src : bytes.

  Lemma ext_selected b l ch : (forall s, In s l -> inside (seq_form s)) -> selected g b l ch <-> selected (g ++ h) b l ch.
  Proof.
    intros I. split.
    - induction 1 as [|s l ch Hf _ IH|s l ch Hf _ IH]; [constructor| |].
      + apply sel_take; [|apply IH; intros; apply I; right; assumption]. apply ext_first; [apply I; left; reflexivity|exact Hf].
      + apply sel_skip; [|apply IH; intros; apply I; right; assumption].
        intros Hf'. apply Hf. apply ext_first; [apply I; left; reflexivity|exact Hf'].
    - induction 1 as [|s l ch Hf _ IH|s l ch Hf _ IH]; [constructor| |].
      + apply sel_take; [|apply IH; intros; apply I; right; assumption].
        apply (proj1 (ext_first (seq_form s) b (I _ (or_introl eq_refl)))), Hf.
      + apply sel_skip; [|apply IH; intros; apply I; right; assumption].
        intros Hf'. apply Hf. apply (proj2 (ext_first (seq_form s) b (I _ (or_introl eq_refl)))), Hf'.
  Qed.
  Lemma inside_tail r s : In r g -> In s (r_tail r) -> inside (seq_form s).
  Proof. intros Hr Hs. eapply inside_alt. exists r. eauto. Qed.

  Lemma ext_predicted_both :
    (forall x p t q, predicted g (follow_code g) src x p t q -> predicted (g ++ h) (follow_code (g ++ h)) src x p t q) /\
    (forall s p ts q, predicteds g (follow_code g) src s p ts q -> predicteds (g ++ h) (follow_code (g ++ h)) src s p ts q).
  Proof.
    apply (predicted_both g (follow_code g) src
      (fun x p t q _ => predicted (g ++ h) (follow_code (g ++ h)) src x p t q)
      (fun s p ts q _ => predicteds (g ++ h) (follow_code (g ++ h)) src s p ts q)).
    - intros t p Ht Ho. constructor; assumption.
    - intros p. constructor.
    - intros i r ch p childs q Hr S N _ IH.
      apply (pr_rule _ _ _ i r ch); [rewrite nth_error_app1; [exact Hr|eapply nth_error_bound, Hr]| |exact N|exact IH].
      apply ext_selected; [|exact S]. intros s. apply inside_tail. eapply nth_error_In, Hr.
    - intros i r p Hr S ((s & Hs & Hn) & Hf).
      apply (pr_empty _ _ _ i r); [rewrite nth_error_app1; [exact Hr|eapply nth_error_bound, Hr]| |].
      + apply ext_selected; [|exact S]. intros s'. apply inside_tail. eapply nth_error_In, Hr.
      + split; [exists s; split; [exact Hs|apply ext_yields, Hn]|apply ext_follow_code, Hf].
    - intros p. constructor.
    - intros x s p t m ts q _ H1 _ H2. econstructor; eassumption.
  Qed.
End Extend.
