(** * Repair: left factoring and removal of left recursion keep the words. *)
From Verif Require Import Base Ast Cst Parser Spec_Parse Spec_Tree Spec_Grammar Spec_ParseTree Spec_Helper Spec_Repeat Spec_Repair
  GrammarProofs TGFirsts TGParse Helper Props_Repeat.

Lemma alt_split g1 r g2 n s :
  alternative (g1 ++ r :: g2) n s <-> alternative (g1 ++ g2) n s \/ (r_head r = n /\ In s (r_tail r)).
Proof.
  unfold alternative. split.
  - intros (x & Hx & H). apply in_app_or in Hx. destruct Hx as [Hx|[<-|Hx]]; [left|right; exact H|left];
      exists x; (split; [apply in_or_app; auto|exact H]).
  - intros [(x & Hx & H)|H].
    + exists x. split; [|exact H]. apply in_app_or in Hx. apply in_or_app. destruct Hx; [left|right; right]; assumption.
    + exists r. split; [apply in_elt|exact H].
Qed.
Lemma alt_defined g n s : alternative g n s -> defined g n.
Proof. intros (r & Hr & <- & _). apply in_map, Hr. Qed.

Lemma nodup_snoc {A} (l : list A) x : NoDup l -> ~ In x l -> NoDup (l ++ [x]).
Proof.
  intros D N. apply (NoDup_Add (a := x) (l := l)); [|split; assumption].
  pose proof (Add_app x l []) as H. rewrite app_nil_r in H. exact H.
Qed.

(** The two shapes of a repair: rule [a] gets other alternatives and a rule [h] is added. *)
Section Shape.
  Variables (g1 g2 : grammar) (a h : bytes) (alts alts' new : list sequence).
  Let g := g1 ++ mkRule a alts :: g2.
  Let g' := g1 ++ mkRule a alts' :: g2 ++ [mkRule h new].
  Hypothesis New : ~ defined g h.
  Hypothesis W : wf_grammar g.

  Lemma shape_heads : heads g' = heads g ++ [h].
  Proof. unfold g', g, heads. rewrite !map_app. cbn. rewrite map_app, <- app_assoc. reflexivity. Qed.
  Lemma shape_start : start g' = start g.
  Proof. unfold g', g. destruct g1; reflexivity. Qed.
  Lemma shape_ne : g' <> [].
  Proof. unfold g'. destruct g1; discriminate. Qed.
  Lemma shape_nh : a <> h.
  Proof. intros E. apply New. rewrite <- E. unfold g, defined, heads. rewrite map_app. apply in_elt. Qed.
  Lemma shape_alt n s : alternative g n s <-> alternative (g1 ++ g2) n s \/ (n = a /\ In s alts).
  Proof. unfold g. rewrite alt_split. cbn. intuition. Qed.
  Lemma shape_alt' n s :
    alternative g' n s <-> alternative (g1 ++ g2) n s \/ (n = a /\ In s alts') \/ (n = h /\ In s new).
  Proof.
    unfold g'. rewrite alt_split. cbn [r_head r_tail].
    replace (g1 ++ g2 ++ [mkRule h new]) with ((g1 ++ g2) ++ mkRule h new :: []) by (rewrite app_assoc; reflexivity).
    rewrite alt_split, app_nil_r. cbn [r_head r_tail]. intuition.
  Qed.
  Lemma shape_alt_not_h n s : alternative g n s -> n <> h.
  Proof. intros A ->. apply New. eapply alt_defined, A. Qed.
  Lemma shape_free n s : alternative g n s -> ~ In (SNonTerminal h) s.
  Proof. intros A. eapply wf_seq_free; [eapply wf_sequences; eassumption|exact New]. Qed.
  Lemma shape_rest n s : alternative (g1 ++ g2) n s -> n <> h /\ ~ In (SNonTerminal h) s.
  Proof.
    intros A. assert (B : alternative g n s) by (apply shape_alt; left; exact A).
    split; [eapply shape_alt_not_h|eapply shape_free]; eassumption.
  Qed.
  (** The rules other than [a] do not have head [a]. *)
  Lemma shape_only_a s : ~ alternative (g1 ++ g2) a s.
  Proof.
    intros A. pose proof (wf_distinct _ W) as D. unfold g, heads in D. rewrite map_app in D. cbn in D.
    apply NoDup_remove_2 in D. apply D. apply alt_defined in A. unfold defined, heads in A. rewrite map_app in A. exact A.
  Qed.
  Lemma shape_wf :
    (forall s, In s alts' -> wf_sequence g' s) -> (forall s, In s new -> wf_sequence g' s) -> wf_grammar g'.
  Proof.
    intros A B. split; [exact shape_ne| |].
    - rewrite shape_heads. apply nodup_snoc; [apply W|exact New].
    - intros n s H. apply shape_alt' in H. destruct H as [H|[[_ H]|[_ H]]]; [|apply A, H|apply B, H].
      assert (X : wf_sequence g s) by (eapply wf_sequences; [exact W|apply shape_alt; left; exact H]).
      destruct X as [->|[N F]]; [left; reflexivity|]. right. split; [exact N|].
      eapply Forall_impl; [|exact F]. intros x Hx. destruct x; try exact Hx. unfold wf_symbol, defined in *.
      rewrite shape_heads. apply in_or_app. left. exact Hx.
  Qed.
  Lemma shape_wf_symbols s : Forall (wf_symbol g) s -> Forall (wf_symbol g') s.
  Proof.
    apply Forall_impl. intros x Hx. destruct x; try exact Hx. unfold wf_symbol, defined in *.
    rewrite shape_heads. apply in_or_app. left. exact Hx.
  Qed.
  Lemma shape_wf_h : wf_symbol g' (SNonTerminal h).
  Proof. unfold wf_symbol, defined. rewrite shape_heads. apply in_or_app. right. left. reflexivity. Qed.
End Shape.

(** ** Forms without [h] *)
Definition free (h : bytes) (u : form) : Prop := ~ In (NT h) u.
Lemma free_seq h s : ~ In (SNonTerminal h) s -> free h (seq_form s).
Proof.
  intros N H. unfold seq_form in H. apply in_flat_map in H. destruct H as (x & Hx & H).
  destruct x as [n|t| |str]; cbn in H.
  - destruct H as [H|[]]. injection H as ->. exact (N Hx).
  - apply in_map_iff in H. destruct H as (c & E & _). discriminate.
  - exact H.
  - exact H.
Qed.
Lemma free_cons h x u : free h (x :: u) -> free h u.
Proof. intros H X. apply H. right. exact X. Qed.

(** What is derived from forms without [h], one derivation step at a time: it is
    enough to simulate the alternatives. *)
Lemma simulate g g' h :
  (forall k n s w, n <> h -> alternative g' n s -> genh g' k (seq_form s) w ->
     (forall u v, free h u -> genh g' k u v -> gen g u v) -> gen g [NT n] w) ->
  forall k u w, free h u -> genh g' k u w -> gen g u w.
Proof.
  intros S. induction k as [|k IH]; intros u; induction u as [|x u IHu]; intros w F H; inversion H; subst; try constructor.
  - apply IHu; [eapply free_cons, F|assumption].
  - apply IHu; [eapply free_cons, F|assumption].
  - apply (gen_app g [NT n] u); [|apply IHu; [eapply free_cons, F|assumption]].
    eapply S; [intros ->; apply F; left; reflexivity|eassumption|eassumption|exact IH].
Qed.
Lemma gen_nt g n s w : alternative g n s -> gen g (seq_form s) w -> gen g [NT n] w.
Proof. intros A H. rewrite <- (app_nil_r w). econstructor; [exact A|exact H|constructor]. Qed.
Lemma gen_nt_inv g n w : gen g [NT n] w -> exists s, alternative g n s /\ gen g (seq_form s) w.
Proof. intros H. inversion H as [| |? s ? w1 w2 A H1 H2]; subst. inversion H2; subst. rewrite app_nil_r. eauto. Qed.
Lemma genh_nt_inv g k n w : genh g k [NT n] w -> exists k' s, k = S k' /\ alternative g n s /\ genh g k' (seq_form s) w.
Proof.
  intros H. inversion H as [| |k' ? s ? w1 w2 A H1 H2]; subst. inversion H2; subst. rewrite app_nil_r. eauto.
Qed.
(** The other direction: derivations of the old grammar. *)
Lemma simulate_gen g g' :
  (forall n s w, alternative g n s -> gen g' (seq_form s) w -> gen g' [NT n] w) ->
  forall u w, gen g u w -> gen g' u w.
Proof.
  intros S u w H. induction H as [|c u w _ IH|n s u w1 w2 A _ IH1 _ IH2]; [constructor|constructor; exact IH|].
  apply (gen_app g' [NT n] u); [eapply S; eassumption|exact IH2].
Qed.
Lemma seq_or_nothing s : seq_form (or_nothing s) = seq_form s.
Proof. destruct s; reflexivity. Qed.
Lemma seq_then_h s h : seq_form (then_h s h) = seq_form s ++ [NT h].
Proof.
  assert (E : then_h s h = s ++ [SNonTerminal h] \/ s = [SNothing] /\ then_h s h = [SNonTerminal h]).
  { destruct s as [|[| | |] [|]]; cbn; auto. }
  destruct E as [->|[-> ->]]; [rewrite seq_form_app|]; reflexivity.
Qed.
Lemma word_of_gen g g' : start g' = start g -> g <> [] -> g' <> [] ->
  (forall w, gen g [NT (start g)] w <-> gen g' [NT (start g)] w) -> forall w, word g' w <-> word g w.
Proof.
  intros E N N' H w. unfold word. rewrite E. split; intros [_ Y]; (split; [assumption|]);
    apply gen_yields, H, yields_gen, Y.
Qed.

(** ** Left factoring *)
Section Factor.
  Variables (g1 g2 : grammar) (a h : bytes) (before : list sequence) (common : sequence) (tails after : list sequence).
  Notation g := (g1 ++ mkRule a (before ++ map (app common) tails ++ after) :: g2).
  Notation g' := (g1 ++ mkRule a (before ++ [common ++ [SNonTerminal h]] ++ after) :: g2 ++ [mkRule h (map or_nothing tails)]).
  Hypothesis New : ~ defined g h.
  Hypothesis W : wf_grammar g.
  Hypothesis Cne : common <> [].
  Hypothesis Cnn : common <> [SNothing].
  Hypothesis Tne : tails <> [].

  Lemma factor_alt_tail t : In t tails -> alternative g a (common ++ t).
  Proof. intros H. apply shape_alt. right. split; [reflexivity|]. apply in_or_app. right. apply in_or_app. left. apply in_map, H. Qed.
  Lemma factor_alt_h s : alternative g' h s <-> exists t, In t tails /\ s = or_nothing t.
  Proof.
    rewrite shape_alt'. split.
    - intros [A|[[E _]|[_ H]]].
      + destruct (shape_rest g1 g2 a h _ New W _ _ A) as [X _]. destruct X. reflexivity.
      + destruct (shape_nh g1 g2 a h _ New). symmetry. exact E.
      + apply in_map_iff in H. destruct H as (t & <- & Ht). eauto.
    - intros (t & Ht & ->). right. right. split; [reflexivity|]. apply in_map, Ht.
  Qed.
  (** What the alternatives of the other names are. *)
  Lemma factor_alt n s : n <> h ->
    (alternative g' n s <->
     (alternative g n s /\ alternative g' n s) \/ (n = a /\ s = common ++ [SNonTerminal h])).
  Proof.
    intros N. split; [|intros [[_ H]|[-> ->]]; [exact H|]].
    - intros H. pose proof H as H0. apply shape_alt' in H. destruct H as [H|[[-> H]|[-> _]]]; [| |contradiction].
      + left. split; [|exact H0]. apply shape_alt. left. exact H.
      + apply in_app_or in H. destruct H as [H|H]; [|apply in_app_or in H; destruct H as [[<-|[]]|H]].
        * left. split; [|exact H0]. apply shape_alt. right. split; [reflexivity|]. apply in_or_app. left. exact H.
        * right. auto.
        * left. split; [|exact H0]. apply shape_alt. right. split; [reflexivity|]. apply in_or_app. right. apply in_or_app. right. exact H.
    - apply shape_alt'. right. left. split; [reflexivity|]. apply in_or_app. right. left. reflexivity.
  Qed.
  Lemma factor_alt_old n s : alternative g n s ->
    alternative g' n s \/ (n = a /\ exists t, In t tails /\ s = common ++ t).
  Proof.
    intros H. apply shape_alt in H. destruct H as [H|[-> H]].
    - left. apply shape_alt'. left. exact H.
    - apply in_app_or in H. destruct H as [H|H]; [|apply in_app_or in H; destruct H as [H|H]].
      + left. apply shape_alt'. right. left. split; [reflexivity|]. apply in_or_app. left. exact H.
      + right. split; [reflexivity|]. apply in_map_iff in H. destruct H as (t & <- & Ht). eauto.
      + left. apply shape_alt'. right. left. split; [reflexivity|]. apply in_or_app. right. apply in_or_app. right. exact H.
  Qed.
  Lemma factor_alt_common : alternative g' a (common ++ [SNonTerminal h]).
  Proof. apply shape_alt'. right. left. split; [reflexivity|]. apply in_or_app. right. left. reflexivity. Qed.

  Lemma factor_old_new u w : gen g u w -> gen g' u w.
  Proof.
    apply simulate_gen. intros n s v A H. destruct (factor_alt_old n s A) as [B|(-> & t & Ht & ->)].
    - eapply gen_nt; eassumption.
    - eapply gen_nt; [exact factor_alt_common|]. rewrite seq_form_app in *. apply gen_app_inv in H.
      destruct H as (w1 & w2 & -> & H1 & H2). apply gen_app; [exact H1|]. cbn.
      eapply gen_nt; [apply factor_alt_h; eauto|]. rewrite seq_or_nothing. exact H2.
  Qed.
  Lemma factor_new_old u w : free h u -> gen g' u w -> gen g u w.
  Proof.
    intros F H. apply gen_genh in H. destruct H as (k & H). revert k u w F H. apply simulate.
    intros k n s w N A H S. apply factor_alt in A; [|exact N]. destruct A as [[A _]|[-> ->]].
    - eapply gen_nt; [exact A|]. apply S; [|exact H]. apply free_seq. eapply (shape_free g1 g2 a h); eassumption.
    - rewrite seq_form_app in H. apply genh_app in H. destruct H as (w1 & w2 & -> & H1 & H2).
      cbn in H2. apply genh_nt_inv in H2. destruct H2 as (k' & s & -> & A & H2).
      apply factor_alt_h in A. destruct A as (t & Ht & ->). rewrite seq_or_nothing in H2.
      assert (Fr : ~ In (SNonTerminal h) (common ++ t)).
      { eapply (shape_free g1 g2 a h); [exact New|exact W|]. apply factor_alt_tail, Ht. }
      eapply gen_nt; [apply factor_alt_tail, Ht|]. rewrite seq_form_app. apply gen_app.
      + apply S; [|exact H1]. apply free_seq. intros X. apply Fr, in_or_app. left. exact X.
      + apply S; [|eapply genh_mono; [exact H2|lia]]. apply free_seq. intros X. apply Fr, in_or_app. right. exact X.
  Qed.
  Lemma factor_tail_wf t : In t tails -> Forall (wf_symbol g) common /\ Forall (wf_symbol g) t.
  Proof.
    intros Ht. destruct (wf_sequences _ W _ _ (factor_alt_tail t Ht)) as [E|[_ F]].
    - destruct common as [|x [|y c]]; [contradiction| |discriminate]. cbn in E. injection E as -> ->. contradiction.
    - apply Forall_app in F. exact F.
  Qed.
  Lemma factor_wf : wf_grammar g'.
  Proof.
    apply (shape_wf g1 g2 a h (before ++ map (app common) tails ++ after)); [exact New|exact W| |].
    - intros s H. assert (O : In s (before ++ after) \/ s = common ++ [SNonTerminal h]).
      { apply in_app_or in H. destruct H as [H|H]; [left; apply in_or_app; auto|]. apply in_app_or in H.
        destruct H as [[<-|[]]|H]; [right; reflexivity|left; apply in_or_app; auto]. }
      destruct O as [O| ->].
      + assert (A : alternative g a s).
        { apply shape_alt. right. split; [reflexivity|]. apply in_app_or in O. apply in_or_app.
          destruct O as [O|O]; [left; exact O|right; apply in_or_app; right; exact O]. }
        destruct (wf_sequences _ W _ _ A) as [->|[N F]]; [left; reflexivity|]. right. split; [exact N|].
        eapply shape_wf_symbols, F.
      + right. split; [destruct common; discriminate|]. assert (X : exists t, In t tails) by (destruct tails as [|t ts]; [contradiction|exists t; left; reflexivity]).
        destruct X as (t & Ht). apply Forall_app. split.
        * eapply shape_wf_symbols. exact (proj1 (factor_tail_wf t Ht)).
        * constructor; [apply (shape_wf_h g1 g2 a h [])|constructor].
    - intros s H. apply in_map_iff in H. destruct H as (t & <- & Ht). destruct t as [|x t]; [left; reflexivity|].
      right. split; [discriminate|]. eapply shape_wf_symbols. exact (proj2 (factor_tail_wf _ Ht)).
  Qed.
End Factor.

(** ** Left recursion *)
Section Recursion.
  Variables (g1 g2 : grammar) (a h : bytes) (loops bases : list sequence).
  Notation g := (g1 ++ mkRule a (map (cons (SNonTerminal a)) loops ++ bases) :: g2).
  Notation g' := (g1 ++ mkRule a (map (fun b => then_h b h) bases)
            :: g2 ++ [mkRule h (map (fun l => l ++ [SNonTerminal h]) loops ++ [[SNothing]])]).
  Hypothesis New : ~ defined g h.
  Hypothesis W : wf_grammar g.

  Lemma rec_alt_loop l : In l loops -> alternative g a (SNonTerminal a :: l).
  Proof. intros H. apply shape_alt. right. split; [reflexivity|]. apply in_or_app. left. apply in_map, H. Qed.
  Lemma rec_alt_base b : In b bases -> alternative g a b.
  Proof. intros H. apply shape_alt. right. split; [reflexivity|]. apply in_or_app. right. exact H. Qed.
  Lemma rec_alt_h s : alternative g' h s <-> s = [SNothing] \/ exists l, In l loops /\ s = l ++ [SNonTerminal h].
  Proof.
    rewrite shape_alt'. split.
    - intros [A|[[E _]|[_ H]]].
      + destruct (shape_rest g1 g2 a h _ New W _ _ A) as [X _]. destruct X. reflexivity.
      + destruct (shape_nh g1 g2 a h _ New). symmetry. exact E.
      + apply in_app_or in H. destruct H as [H|[<-|[]]]; [|left; reflexivity].
        apply in_map_iff in H. destruct H as (t & <- & Ht). eauto.
    - intros H. right. right. split; [reflexivity|]. apply in_or_app. destruct H as [->|(l & Hl & ->)].
      + right. left. reflexivity.
      + left. apply (in_map (fun l => l ++ [SNonTerminal h])), Hl.
  Qed.
  Lemma rec_alt_a s : alternative g' a s <-> exists b, In b bases /\ s = then_h b h.
  Proof.
    rewrite shape_alt'. split.
    - intros [A|[[_ H]|[E _]]].
      + exfalso. eapply (shape_only_a g1 g2 a); [exact W|exact A].
      + apply in_map_iff in H. destruct H as (b & <- & Hb). eauto.
      + destruct (shape_nh g1 g2 a h _ New). exact E.
    - intros (b & Hb & ->). right. left. split; [reflexivity|]. apply (in_map (fun b => then_h b h)), Hb.
  Qed.
  Lemma rec_alt_other n s : n <> a -> n <> h -> (alternative g' n s <-> alternative g n s).
  Proof. intros Na Nh. rewrite shape_alt', shape_alt. intuition; contradiction. Qed.

  (** What [h] derives: words of the loops, one behind the other. *)
  Lemma rec_h_words k : forall w, genh g' k [NT h] w ->
    exists ws, w = concat ws /\ Forall (fun v => exists l, In l loops /\ genh g' k (seq_form l) v) ws.
  Proof.
    induction k as [|k IH]; intros w H; apply genh_nt_inv in H; destruct H as (k' & s & E & A & H); [discriminate|].
    injection E as <-. apply rec_alt_h in A. destruct A as [->|(l & Hl & ->)].
    - inversion H; subst. exists []. split; [reflexivity|constructor].
    - rewrite seq_form_app in H. apply genh_app in H. destruct H as (w1 & w2 & -> & H1 & H2). cbn in H2.
      destruct (IH _ H2) as (ws & -> & F). exists (w1 :: ws). split; [reflexivity|]. constructor.
      + exists l. split; [exact Hl|]. eapply genh_mono; [exact H1|lia].
      + eapply Forall_impl; [|exact F]. intros v (l' & Hl' & Hv). exists l'. split; [exact Hl'|]. eapply genh_mono; [exact Hv|lia].
  Qed.
  Lemma rec_h_append r l v : gen g' [NT h] r -> In l loops -> gen g' (seq_form l) v -> gen g' [NT h] (r ++ v).
  Proof.
    intros H Hl Hv. apply gen_genh in H. destruct H as (k & H). apply rec_h_words in H. destruct H as (ws & -> & F).
    assert (E : gen g' [NT h] []).
    { apply (gen_nt _ _ [SNothing]); [apply rec_alt_h; left; reflexivity|constructor]. }
    assert (C : forall x y l, In l loops -> gen g' (seq_form l) x -> gen g' [NT h] y -> gen g' [NT h] (x ++ y)).
    { intros x y l' Hl' Hx Hy. apply (gen_nt _ _ (l' ++ [SNonTerminal h])); [apply rec_alt_h; right; eauto|].
      rewrite seq_form_app. apply gen_app; [exact Hx|exact Hy]. }
    induction F as [|x ws (l' & Hl' & Hx) _ IH]; cbn.
    - rewrite <- (app_nil_r v). eapply C; eassumption.
    - rewrite <- app_assoc. eapply C; [exact Hl'|eapply genh_gen, Hx|exact IH].
  Qed.

  Lemma rec_old_new u w : gen g u w -> gen g' u w.
  Proof.
    apply simulate_gen. intros n s v A H. apply shape_alt in A. destruct A as [A|[-> A]].
    - eapply gen_nt; [|exact H]. apply shape_alt'. left. exact A.
    - apply in_app_or in A. destruct A as [A|A].
      + apply in_map_iff in A. destruct A as (l & <- & Hl). change (seq_form (SNonTerminal a :: l)) with ([NT a] ++ seq_form l) in H.
        apply gen_app_inv in H. destruct H as (w1 & w2 & -> & H1 & H2).
        apply gen_nt_inv in H1. destruct H1 as (s & A & H1). pose proof A as A0. apply rec_alt_a in A. destruct A as (b & Hb & ->).
        rewrite seq_then_h in H1. apply gen_app_inv in H1. destruct H1 as (x & r & -> & Hx & Hr).
        eapply gen_nt; [exact A0|]. rewrite seq_then_h, <- app_assoc. apply gen_app; [exact Hx|].
        eapply rec_h_append; eassumption.
      + eapply gen_nt; [apply rec_alt_a; eauto|]. rewrite seq_then_h, <- (app_nil_r v). apply gen_app; [exact H|].
        apply (gen_nt _ _ [SNothing]); [apply rec_alt_h; left; reflexivity|constructor].
  Qed.
  Lemma rec_new_old u w : free h u -> gen g' u w -> gen g u w.
  Proof.
    intros F H. apply gen_genh in H. destruct H as (k & H). revert k u w F H. apply simulate.
    intros k n s w N A H S. destruct (list_eq_dec ascii_dec n a) as [->|Na].
    - apply rec_alt_a in A. destruct A as (b & Hb & ->). rewrite seq_then_h in H. apply genh_app in H.
      destruct H as (x & r & -> & Hx & Hr). apply rec_h_words in Hr. destruct Hr as (ws & -> & Fw).
      assert (B : gen g [NT a] x).
      { eapply gen_nt; [apply rec_alt_base, Hb|]. apply S; [|exact Hx]. apply free_seq.
        eapply (shape_free g1 g2 a h); [exact New|exact W|apply rec_alt_base, Hb]. }
      clear Hx. revert x B. induction Fw as [|v ws (l & Hl & Hv) _ IH]; intros x B; cbn; [rewrite app_nil_r; exact B|].
      rewrite app_assoc. apply IH. eapply gen_nt; [apply rec_alt_loop, Hl|].
      change (seq_form (SNonTerminal a :: l)) with ([NT a] ++ seq_form l). apply gen_app; [exact B|].
      apply S; [|exact Hv]. apply free_seq. intros X.
      eapply (shape_free g1 g2 a h); [exact New|exact W|apply rec_alt_loop, Hl|right; exact X].
    - apply rec_alt_other in A; [|exact Na|exact N]. eapply gen_nt; [exact A|]. apply S; [|exact H]. apply free_seq.
      eapply (shape_free g1 g2 a h); eassumption.
  Qed.
  Lemma rec_wf : wf_grammar g'.
  Proof.
    apply (shape_wf g1 g2 a h (map (cons (SNonTerminal a)) loops ++ bases)); [exact New|exact W| |].
    - intros s H. apply in_map_iff in H. destruct H as (b & <- & Hb).
      assert (Hh : forall s, Forall (wf_symbol g) s -> wf_sequence g' (s ++ [SNonTerminal h])).
      { intros s F. right. split; [destruct s; discriminate|]. apply Forall_app. split; [eapply shape_wf_symbols, F|].
        constructor; [apply (shape_wf_h g1 g2 a h [])|constructor]. }
      destruct (wf_sequences _ W _ _ (rec_alt_base b Hb)) as [->|[N F]]; [apply (Hh []); constructor|].
      assert (E : then_h b h = b ++ [SNonTerminal h]).
      { destruct b as [|[| | |] [|]]; try reflexivity. apply Forall_inv in F. destruct F. }
      rewrite E. apply Hh, F.
    - intros s H. apply in_app_or in H. destruct H as [H|[<-|[]]]; [|left; reflexivity].
      apply in_map_iff in H. destruct H as (l & <- & Hl). right. split; [destruct l; discriminate|].
      destruct (wf_sequences _ W _ _ (rec_alt_loop l Hl)) as [E|[N F]]; [discriminate|].
      apply Forall_app. split; [eapply shape_wf_symbols, (Forall_inv_tail F)|]. constructor; [apply (shape_wf_h g1 g2 a h [])|constructor].
  Qed.
End Recursion.

(** ** Unfolding *)
Section Unfold.
  Variables (g1 g2 : grammar) (a b : bytes) (before : list sequence) (pre post : sequence) (after alts : list sequence).
  Notation g := (g1 ++ mkRule a (before ++ [pre ++ SNonTerminal b :: post] ++ after) :: g2).
  Notation g' := (g1 ++ mkRule a (before ++ map (fun s => plug pre s post) alts ++ after) :: g2).
  Hypothesis Hb : In (mkRule b alts) g.
  Hypothesis W : wf_grammar g.

  Lemma seq_plug s : seq_form (plug pre s post) = seq_form pre ++ seq_form s ++ seq_form post.
  Proof.
    unfold plug. rewrite seq_or_nothing, !seq_form_app. do 2 f_equal.
    destruct s as [|[| | |] [|]]; reflexivity.
  Qed.
  Lemma unfold_heads : heads g' = heads g.
  Proof. unfold heads. rewrite !map_app. reflexivity. Qed.
  Lemma unfold_alt_b s : alternative g b s <-> In s alts.
  Proof.
    split.
    - intros (r & Hr & Eh & Hs). replace r with (mkRule b alts) in Hs; [exact Hs|].
      pose proof (wf_distinct _ W) as D. revert D Hr Hb. unfold heads. generalize g as l. clear - Eh.
      induction l as [|x l IH]; intros D Hr Hb; [destruct Hr|]. cbn in D. inversion D as [|? ? N D']; subst.
      destruct Hr as [->|Hr]; destruct Hb as [E|Hb'].
      + symmetry. exact E.
      + destruct N. apply (in_map r_head) in Hb'. exact Hb'.
      + subst x. destruct N. apply (in_map r_head) in Hr. exact Hr.
      + apply IH; assumption.
    - intros H. exists (mkRule b alts). auto.
  Qed.
  Lemma unfold_alt_there : alternative g a (pre ++ SNonTerminal b :: post).
  Proof. apply shape_alt. right. split; [reflexivity|]. apply in_or_app. right. left. reflexivity. Qed.
  Lemma unfold_alt_old n s : alternative g n s -> alternative g' n s \/ (n = a /\ s = pre ++ SNonTerminal b :: post).
  Proof.
    rewrite !shape_alt. intros [H|[-> H]]; [auto|]. apply in_app_or in H. destruct H as [H|H]; [|apply in_app_or in H; destruct H as [[<-|[]]|H]].
    - left. right. split; [reflexivity|]. apply in_or_app. auto.
    - right. auto.
    - left. right. split; [reflexivity|]. apply in_or_app. right. apply in_or_app. auto.
  Qed.
  Lemma unfold_alt_new n s : alternative g' n s -> alternative g n s \/ (n = a /\ exists s', In s' alts /\ s = plug pre s' post).
  Proof.
    rewrite !shape_alt. intros [H|[-> H]]; [auto|]. apply in_app_or in H. destruct H as [H|H]; [|apply in_app_or in H; destruct H as [H|H]].
    - left. right. split; [reflexivity|]. apply in_or_app. auto.
    - right. split; [reflexivity|]. apply in_map_iff in H. destruct H as (s' & <- & Hs). eauto.
    - left. right. split; [reflexivity|]. apply in_or_app. right. apply in_or_app. auto.
  Qed.
  Lemma unfold_alt_plug s : In s alts -> alternative g' a (plug pre s post).
  Proof.
    intros H. apply shape_alt. right. split; [reflexivity|]. apply in_or_app. right. apply in_or_app. left.
    apply (in_map (fun s => plug pre s post)), H.
  Qed.

  Lemma unfold_new_old u w : gen g' u w -> gen g u w.
  Proof.
    apply simulate_gen. intros n s v A H. apply unfold_alt_new in A. destruct A as [A|(-> & s' & Hs & ->)]; [eapply gen_nt; eassumption|].
    eapply gen_nt; [exact unfold_alt_there|]. rewrite seq_plug in H. apply gen_app_inv in H. destruct H as (w1 & w2 & -> & H1 & H2).
    apply gen_app_inv in H2. destruct H2 as (w3 & w4 & -> & H3 & H4).
    rewrite seq_form_app. apply gen_app; [exact H1|]. change (seq_form (SNonTerminal b :: post)) with ([NT b] ++ seq_form post).
    apply gen_app; [|exact H4]. eapply gen_nt; [apply unfold_alt_b, Hs|exact H3].
  Qed.
  Lemma unfold_old_new u w : gen g u w -> gen g' u w.
  Proof.
    intros H. apply gen_genh in H. destruct H as (k & H). revert u w H.
    induction k as [|k IH]; intros u; induction u as [|x u IHu]; intros w H; inversion H as [|? c ? v H1|? n s ? w1 w2 A H1 H2]; subst;
      try constructor; try (apply IHu; assumption).
    apply (gen_app g' [NT n] u); [|apply IHu; assumption].
    destruct (unfold_alt_old n s A) as [B|(-> & ->)]; [eapply gen_nt; [exact B|apply IH, H1]|].
    rewrite seq_form_app in H1. change (seq_form (SNonTerminal b :: post)) with ([NT b] ++ seq_form post) in H1.
    apply genh_app in H1. destruct H1 as (x1 & x2 & -> & X1 & X2). apply genh_app in X2. destruct X2 as (x3 & x4 & -> & X3 & X4).
    apply genh_nt_inv in X3. destruct X3 as (k' & s & -> & As & X3). apply unfold_alt_b in As.
    eapply gen_nt; [apply unfold_alt_plug, As|]. rewrite seq_plug. apply gen_app; [apply IH, X1|].
    apply gen_app; [apply IH; eapply genh_mono; [exact X3|lia]|apply IH, X4].
  Qed.
  Lemma unfold_wf : wf_grammar g'.
  Proof.
    assert (Sy : forall s, Forall (wf_symbol g) s -> Forall (wf_symbol g') s).
    { intros s. apply Forall_impl. intros [n|t| |x] Hx; try exact Hx. unfold wf_symbol, defined in *. rewrite unfold_heads. exact Hx. }
    split; [destruct g1; discriminate|rewrite unfold_heads; apply W|].
    intros n s A. apply unfold_alt_new in A. destruct A as [A|(-> & s' & Hs & ->)].
    - destruct (wf_sequences _ W _ _ A) as [->|[N F]]; [left; reflexivity|right; split; [exact N|apply Sy, F]].
    - assert (F : Forall (wf_symbol g) (pre ++ SNonTerminal b :: post)).
      { destruct (wf_sequences _ W _ _ unfold_alt_there) as [E|[_ F]]; [|exact F]. destruct pre as [|? [|]]; discriminate. }
      apply Forall_app in F. destruct F as [F1 F2]. apply Forall_inv_tail in F2.
      apply unfold_alt_b in Hs. apply (wf_sequences _ W) in Hs.
      assert (Fm : Forall (wf_symbol g') (pre ++ match s' with [SNothing] => [] | _ => s' end ++ post)).
      { apply Sy. apply Forall_app. split; [exact F1|]. apply Forall_app. split; [|exact F2].
        destruct Hs as [->|[_ F]]; [constructor|]. destruct s' as [|[| | |] [|]]; try exact F; constructor. }
      unfold plug. destruct (pre ++ match s' with [SNothing] => [] | _ => s' end ++ post) as [|x l]; [left; reflexivity|].
      right. split; [discriminate|exact Fm].
  Qed.
End Unfold.

(** ** Trees of a factored grammar *)
Section FactorTrees.
  Variables (g1 g2 : grammar) (a h : bytes) (before : list sequence) (common : sequence) (tails after : list sequence).
  Notation g := (g1 ++ mkRule a (before ++ map (app common) tails ++ after) :: g2).
  Notation g' := (g1 ++ mkRule a (before ++ [common ++ [SNonTerminal h]] ++ after) :: g2 ++ [mkRule h (map or_nothing tails)]).
  Hypothesis New : ~ defined g h.
  Hypothesis W : wf_grammar g.
  Hypothesis Cne : common <> [].
  Hypothesis Cnn : common <> [SNothing].
  Hypothesis Tne : tails <> [].
  Variable src : bytes.
  Notation k := (Z.of_nat (length g)).

  Lemma factor_heads : heads g' = heads g ++ [h].
  Proof. apply shape_heads. Qed.
  Lemma heads_length (x : grammar) : length (heads x) = length x.
  Proof. apply map_length. Qed.
  Lemma factor_index i n : nth_error (heads g') i = Some n ->
    (n = h /\ i = length g) \/ (n <> h /\ nth_error (heads g) i = Some n /\ (Z.of_nat i =? k)%Z = false).
  Proof.
    rewrite factor_heads. intros H. destruct (Nat.lt_ge_cases i (length (heads g))) as [L|L].
    - rewrite nth_error_app1 in H by exact L. right. rewrite heads_length in L. split; [|split; [exact H|apply Z.eqb_neq; lia]].
      intros ->. apply New. eapply nth_error_In, H.
    - rewrite nth_error_app2 in H by exact L. destruct (i - length (heads g)) as [|[|j]] eqn:E; cbn in H; try discriminate.
      injection H as <-. left. split; [reflexivity|]. rewrite heads_length in *. lia.
  Qed.
  Lemma no_nothing s p ts q : Forall (wf_symbol g) s -> ptrees g src s p ts q ->
    filter (fun c => negb (n_type c =? -2)%Z) ts = ts.
  Proof.
    intros F H. induction H as [p|x s p t m ts q Ht _ IH]; [reflexivity|]. cbn [filter].
    rewrite IH by exact (Forall_inv_tail F). apply Forall_inv in F.
    inversion Ht; subst; [reflexivity|destruct F|]. cbn.
    destruct (Z.of_nat i =? -2)%Z eqn:E; [apply Z.eqb_eq in E; lia|reflexivity].
  Qed.
  Lemma unfactor_other ty p q l : (ty =? k)%Z = false ->
    unfactor k (Node ty p q l) = [Node ty p q (flat_map (unfactor k) l)].
  Proof. intros E. cbn [unfactor]. rewrite E. reflexivity. Qed.
  Lemma neg_type z : (z < 0)%Z -> (z =? k)%Z = false.
  Proof. intros H. apply Z.eqb_neq. lia. Qed.

  Lemma factor_tree_back :
    (forall x p t q, ptree g' src x p t q ->
       (x = SNonTerminal h -> exists l, In l tails /\ ptrees g src l p (unfactor k t) q) /\
       (x <> SNonTerminal h -> exists t0, unfactor k t = [t0] /\ ptree g src x p t0 q)) /\
    (forall s p ts q, ptrees g' src s p ts q ->
       (~ In (SNonTerminal h) s -> ptrees g src s p (flat_map (unfactor k) ts) q) /\
       (forall s1, s = s1 ++ [SNonTerminal h] -> ~ In (SNonTerminal h) s1 ->
          exists l, In l tails /\ ptrees g src (s1 ++ l) p (flat_map (unfactor k) ts) q)).
  Proof.
    apply (ptree_both g' src
      (fun x p t q _ =>
       (x = SNonTerminal h -> exists l, In l tails /\ ptrees g src l p (unfactor k t) q) /\
       (x <> SNonTerminal h -> exists t0, unfactor k t = [t0] /\ ptree g src x p t0 q))
      (fun s p ts q _ =>
       (~ In (SNonTerminal h) s -> ptrees g src s p (flat_map (unfactor k) ts) q) /\
       (forall s1, s = s1 ++ [SNonTerminal h] -> ~ In (SNonTerminal h) s1 ->
          exists l, In l tails /\ ptrees g src (s1 ++ l) p (flat_map (unfactor k) ts) q))).
    - intros t p N E. split; [discriminate|]. intros _. eexists. split.
      + unfold literal_at, mk. rewrite unfactor_other by (apply neg_type; reflexivity). reflexivity.
      + constructor; assumption.
    - intros p. split; [discriminate|]. intros _. eexists. split.
      + unfold nothing_at, mk. rewrite unfactor_other by (apply neg_type; reflexivity). reflexivity.
      + constructor.
    - intros i n s p childs q Hi A Hc [IH1 IH2]. destruct (factor_index i n Hi) as [[-> ->]|(N & Hi' & Ek)].
      + split; [|congruence]. intros _. apply (factor_alt_h g1 g2 a h before common tails after New W) in A.
        destruct A as (l & Hl & ->). exists l. split; [exact Hl|]. unfold mk. cbn [unfactor]. rewrite Z.eqb_refl.
        destruct (factor_tail_wf g1 g2 a h before common tails after New W Cne Cnn l Hl) as [_ Fl].
        destruct l as [|x l].
        * cbn in Hc. inversion Hc as [|? ? ? t0 m0 ts0 ? H1 H2]; subst. inversion H2; subst. inversion H1; subst.
          unfold nothing_at, mk. cbn [flat_map]. rewrite unfactor_other by (apply neg_type; reflexivity). cbn. constructor.
        * cbn [or_nothing] in *.
          assert (Fr : ~ In (SNonTerminal h) (x :: l)).
          { intros X. eapply (shape_free g1 g2 a h); [exact New|exact W| |apply in_or_app; right; exact X].
            eapply factor_alt_tail, Hl. }
          specialize (IH1 Fr). rewrite (no_nothing _ _ _ _ Fl IH1). exact IH1.
      + split; [congruence|]. intros _. eexists. split; [unfold mk; rewrite unfactor_other by exact Ek; reflexivity|].
        apply (factor_alt g1 g2 a h before common tails after n s N) in A. destruct A as [[A _]|[-> ->]].
        * eapply pt_rule; [exact Hi'|exact A|]. apply IH1. eapply (shape_free g1 g2 a h); eassumption.
        * destruct (IH2 common eq_refl) as (l & Hl & H).
          { intros X. assert (Y : exists t, In t tails) by (destruct tails as [|t ts]; [contradiction|exists t; left; reflexivity]).
            destruct Y as (t & Ht). eapply (shape_free g1 g2 a h); [exact New|exact W| |apply in_or_app; left; exact X].
            eapply factor_alt_tail, Ht. }
          eapply pt_rule; [exact Hi'|eapply factor_alt_tail, Hl|exact H].
    - intros p. split; [intros _; constructor|]. intros [|x s1] E; discriminate.
    - intros x s p t m ts q Ht [IHh IHn] Hts [IH1 IH2]. split.
      + intros Fr. destruct IHn as (t0 & Et & H0); [intros ->; apply Fr; left; reflexivity|].
        cbn [flat_map]. rewrite Et. econstructor; [exact H0|]. apply IH1. intros X. apply Fr. right. exact X.
      + intros [|y s1] E Fr; cbn in E; injection E as -> ->.
        * destruct (IHh eq_refl) as (l & Hl & H). exists l. split; [exact Hl|]. cbn [app flat_map].
          inversion Hts; subst. cbn. rewrite app_nil_r. exact H.
        * destruct IHn as (t0 & Et & H0); [intros ->; apply Fr; left; reflexivity|].
          destruct (IH2 s1 eq_refl) as (l & Hl & H); [intros X; apply Fr; right; exact X|].
          exists l. split; [exact Hl|]. cbn [app flat_map]. rewrite Et. econstructor; eassumption.
  Qed.

  Lemma factor_tree_there :
    (forall x p t q, ptree g src x p t q -> exists t', ptree g' src x p t' q /\ unfactor k t' = [t]) /\
    (forall s p ts q, ptrees g src s p ts q -> exists ts', ptrees g' src s p ts' q /\ flat_map (unfactor k) ts' = ts).
  Proof.
    apply (ptree_both g src
      (fun x p t q _ => exists t', ptree g' src x p t' q /\ unfactor k t' = [t])
      (fun s p ts q _ => exists ts', ptrees g' src s p ts' q /\ flat_map (unfactor k) ts' = ts)).
    - intros t p N E. eexists. split; [constructor; assumption|].
      unfold literal_at, mk. rewrite unfactor_other by (apply neg_type; reflexivity). reflexivity.
    - intros p. eexists. split; [constructor|].
      unfold nothing_at, mk. rewrite unfactor_other by (apply neg_type; reflexivity). reflexivity.
    - intros i n s p childs q Hi A Hc (ts' & H & E).
      assert (Hi' : nth_error (heads g') i = Some n).
      { rewrite factor_heads, nth_error_app1; [exact Hi|]. apply nth_error_Some. congruence. }
      assert (Ek : (Z.of_nat i =? k)%Z = false).
      { apply Z.eqb_neq. assert (i < length (heads g)) by (apply nth_error_Some; congruence). rewrite heads_length in *. lia. }
      destruct (factor_alt_old g1 g2 a h before common tails after n s A) as [B|(-> & l & Hl & ->)].
      + exists (mk (Z.of_nat i) p q ts'). split; [eapply pt_rule; eassumption|].
        unfold mk. rewrite unfactor_other by exact Ek. rewrite E. reflexivity.
      + apply ptrees_split in H. destruct H as (t1 & m & t2 & -> & H1 & H2).
        assert (Hh : exists th, ptree g' src (SNonTerminal h) m th q /\ unfactor k th = flat_map (unfactor k) t2).
        { assert (Hk : nth_error (heads g') (length g) = Some h).
          { rewrite factor_heads, nth_error_app2 by (rewrite heads_length; apply le_n).
            rewrite heads_length, Nat.sub_diag. reflexivity. }
          assert (Ah : alternative g' h (or_nothing l)).
          { apply (factor_alt_h g1 g2 a h before common tails after New W). eauto. }
          destruct (factor_tail_wf g1 g2 a h before common tails after New W Cne Cnn l Hl) as [_ Fl].
          destruct l as [|x l].
          - inversion H2; subst. exists (mk k q q [nothing_at q]). split.
            + eapply pt_rule; [exact Hk|exact Ah|]. cbn. econstructor; constructor.
            + unfold mk. cbn [unfactor]. rewrite Z.eqb_refl. unfold nothing_at, mk. cbn [flat_map].
              rewrite unfactor_other by (apply neg_type; reflexivity). reflexivity.
          - exists (mk k m q t2). split; [eapply pt_rule; [exact Hk|exact Ah|exact H2]|].
            unfold mk. cbn [unfactor]. rewrite Z.eqb_refl.
            assert (Fr : ~ In (SNonTerminal h) (x :: l)).
            { intros X. eapply (shape_free g1 g2 a h); [exact New|exact W| |apply in_or_app; right; exact X].
              eapply factor_alt_tail, Hl. }
            eapply no_nothing; [exact Fl|]. apply (proj1 (proj2 factor_tree_back _ _ _ _ H2) Fr). }
        destruct Hh as (th & Hth & Eth). exists (mk (Z.of_nat i) p q (t1 ++ [th])). split.
        * eapply pt_rule; [exact Hi'|apply factor_alt_common|].
          assert (Ap : forall s p ts m s' ts' q, ptrees g' src s p ts m -> ptrees g' src s' m ts' q ->
            ptrees g' src (s ++ s') p (ts ++ ts') q).
          { intros s0 p0 ts0 m0 s1 ts1 q1 X Y. induction X; [exact Y|]. cbn. econstructor; [eassumption|auto]. }
          eapply Ap; [exact H1|]. econstructor; [exact Hth|constructor].
        * unfold mk. rewrite unfactor_other by exact Ek. rewrite flat_map_app. cbn [flat_map]. rewrite app_nil_r, Eth, <- flat_map_app, E.
          reflexivity.
    - intros p. exists []. split; [constructor|reflexivity].
    - intros x s p t m ts q _ (t' & H & E) _ (ts' & H' & E'). exists (t' :: ts'). split; [econstructor; eassumption|].
      cbn [flat_map]. rewrite E, E'. reflexivity.
  Qed.
End FactorTrees.
