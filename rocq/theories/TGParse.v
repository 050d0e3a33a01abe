(** * TGParse: parsing with generated tables. *)
From Verif Require Import Base ByteSet Ast Cst Parser TableGen Spec_Parse Spec_Tree Spec_Grammar Spec_Table
  ByteSetProofs GrammarProofs ParserProofs TreeProofs ParseApi ParseApi2
  TGFirsts TGFollows TGTable TGMain TGCells TGClosed.

Lemma FromGrammar_table order fuel g tbl names :
  NoDup (heads g) -> terminals_nulfree g ->
  FromGrammar_order order fuel g = Ok (tbl, names) -> table_spec g tbl.
Proof.
  intros Nd Nf E.
  destruct (FromGrammar_generated _ _ _ _ _ E) as (firsts & follows & Ef & Eo & G & _).
  pose proof (findFirsts_exact _ _ _ Nd Nf Ef) as FE.
  pose proof (findFollows_exact _ _ _ _ Nd Nf FE Eo) as FO.
  split; [exact (gn_keys _ _ _ _ G)|]. intros i r b Hi.
  destruct (gn_rows _ _ _ _ G i r Hi) as (rw & fol & Hrw & Hfol & Hc & _ & Hop).
  exists rw. split; [exact Hrw|]. fold (row_get b rw). rewrite Hc.
  exact (cell_of_exact g firsts follows Nf FE _ (fo_rules _ _ FO) i r fol b Hi Hfol Hop).
Qed.

Lemma heads_nth g i n : nth_error (heads g) i = Some n -> exists r, nth_error g i = Some r /\ r_head r = n.
Proof.
  unfold heads. rewrite nth_error_map. destruct (nth_error g i) as [r|]; simpl; [|discriminate].
  intros E. injection E as <-. eauto.
Qed.

Lemma selected_in g b l l' s : selected g b l l' -> (In s l' <-> In s l /\ first g (seq_form s) b).
Proof.
  induction 1 as [|x l l' Hx _ IH|x l l' Hx _ IH]; simpl.
  - tauto.
  - rewrite IH. split; [intros [->|[H1 H2]]; auto|]. intros [[->|H1] H2]; auto.
  - rewrite IH. split; [intros [H1 H2]; auto|]. intros [[->|H1] H2]; [destruct (Hx H2)|auto].
Qed.

Lemma selected_two g b l s1 s2 l' :
  selected g b l (s1 :: s2 :: l') -> exists l1 l2 l3, l = l1 ++ s1 :: l2 ++ s2 :: l3.
Proof.
  remember (s1 :: s2 :: l') as z eqn:Ez. intros H. induction H as [|x l y Hx H _|x l y Hx _ IH]; [discriminate| |].
  - injection Ez as -> ->. exists [].
    assert (Hin : In s2 l) by (apply (proj1 (selected_in _ _ _ _ s2 H)); left; reflexivity).
    apply in_split in Hin. destruct Hin as (l2 & l3 & ->). exists l2, l3. reflexivity.
  - destruct (IH Ez) as (l1 & l2 & l3 & ->). exists (x :: l1), l2, l3. reflexivity.
Qed.

Lemma rule_unique g r r' : NoDup (heads g) -> In r g -> In r' g -> r_head r = r_head r' -> r = r'.
Proof.
  unfold heads. induction g as [|x g IH]; intros N H H' E; [destruct H|].
  simpl in N. inversion N as [|? ? Hx N']; subst.
  destruct H as [->|H], H' as [->|H']; auto.
  - exfalso. apply Hx. rewrite E. apply in_map, H'.
  - exfalso. apply Hx. rewrite <- E. apply in_map, H.
Qed.

Lemma symbol_dec (a b : symbol) : {a = b} + {a <> b}.
Proof. decide equality; apply (list_eq_dec ascii_dec). Qed.
Lemma sequence_dec (a b : sequence) : {a = b} + {a <> b}.
Proof. apply list_eq_dec, symbol_dec. Qed.

Lemma alt_pair g n s s' :
  NoDup (heads g) -> alternative g n s -> alternative g n s' -> s <> s' ->
  two_alternatives g n s s' \/ two_alternatives g n s' s.
Proof.
  intros N (r & Hr & Er & Hs) (r' & Hr' & Er' & Hs') D.
  rewrite <- (rule_unique g r r' N Hr Hr' ltac:(congruence)) in Hs'. clear r' Hr' Er'.
  apply in_split in Hs. destruct Hs as (l1 & l2 & E). rewrite E in Hs'. apply in_app_or in Hs'.
  destruct Hs' as [H|[H|H]]; [|destruct (D H)|].
  - right. apply in_split in H. destruct H as (m1 & m2 & ->).
    exists r, m1, m2, l2. rewrite E, <- app_assoc. auto.
  - left. apply in_split in H. destruct H as (m1 & m2 & ->). exists r, l1, m1, m2. auto.
Qed.

Lemma two_alternatives_alt g n s s' :
  two_alternatives g n s s' -> alternative g n s /\ alternative g n s'.
Proof.
  intros (r & l1 & l2 & l3 & Hr & Hn & E). split; exists r; (split; [exact Hr|]; split; [exact Hn|]); rewrite E;
    apply in_or_app; right; [left; reflexivity|right; apply in_or_app; right; left; reflexivity].
Qed.

Section Parse.
  Variable g : grammar.
  Variable tbl : table.
  Context {FC : bytes -> option ascii -> Prop}.
  Hypothesis W : wf_grammar g.
  Hypothesis T : table_spec_wrt FC g tbl.
  Hypothesis D : first_disjoint g.
  Let Nd := wf_distinct _ W.
  Let Nf := wf_nulfree _ W.

  (** A cell stands for one alternative, or for leaving the rule out. *)
  Lemma cell_alternative i n b ops :
    nth_error (heads g) i = Some n -> cell tbl (Z.of_nat i) b ops ->
    (exists s, alternative g n s /\ first g (seq_form s) b /\ operands g s ops /\ ops <> []) \/
    (ops = [] /\ nullable g [NT n] /\ FC n (ahead b) /\
     forall s, alternative g n s -> ~ first g (seq_form s) b).
  Proof.
    intros Hn (rw & H1 & H2). apply heads_nth in Hn. destruct Hn as (r & Hr & <-).
    destruct (proj2 T i r b Hr) as (rw' & H1' & Hc). rewrite H1 in H1'. injection H1' as <-.
    rewrite H2 in Hc. destruct Hc as (chosen & Sel & Hops & Hsk).
    assert (Hin : In r g) by (eapply nth_error_In; exact Hr).
    destruct chosen as [|s [|s2 l]].
    - right. inversion Hops; subst. destruct (Hsk eq_refl) as [(s & Hs & Hn) Hf].
      split; [reflexivity|]. split; [|split; [exact Hf|]].
      + apply nullable_nt. exists s. split; [exists r; auto|exact Hn].
      + intros s' (r' & Hr' & E & Hs') Hfirst.
        rewrite (rule_unique g r' r Nd Hr' Hin E) in Hs'.
        assert (X : In s' []) by (apply (selected_in _ _ _ _ s' Sel); auto). destruct X.
    - left. exists s. assert (X : In s (r_tail r) /\ first g (seq_form s) b)
        by (apply (selected_in _ _ _ _ s Sel); left; reflexivity).
      destruct X as [X1 X2]. split; [exists r; auto|]. split; [exact X2|].
      simpl in Hops. rewrite app_nil_r in Hops. split; [exact Hops|].
      intros ->. inversion Hops; subst. eapply first_nil, X2.
    - exfalso. destruct (selected_two _ _ _ _ _ _ Sel) as (l1 & l2 & l3 & E).
      assert (X1 : In s (r_tail r) /\ first g (seq_form s) b)
        by (apply (selected_in _ _ _ _ s Sel); left; reflexivity).
      assert (X2 : In s2 (r_tail r) /\ first g (seq_form s2) b)
        by (apply (selected_in _ _ _ _ s2 Sel); right; left; reflexivity).
      eapply (D (r_head r) s s2 b); [|apply X1|apply X2].
      exists r, l1, l2, l3. auto.
  Qed.

  (** Conversely. *)
  Lemma cell_total i n b : nth_error (heads g) i = Some n ->
    (exists ops, cell tbl (Z.of_nat i) b ops) \/
    (exists rw, map_get Z.eqb (Z.of_nat i) tbl = Some rw /\ map_get Ascii.eqb b rw = None /\
      (forall s, alternative g n s -> ~ first g (seq_form s) b) /\
      ~ (nullable g [NT n] /\ FC n (ahead b))).
  Proof.
    intros Hn. apply heads_nth in Hn. destruct Hn as (r & Hr & <-).
    destruct (proj2 T i r b Hr) as (rw & H1 & Hc).
    assert (Hin : In r g) by (eapply nth_error_In; exact Hr).
    destruct (map_get Ascii.eqb b rw) as [ops|] eqn:E; [left; exists ops, rw; auto|].
    right. exists rw. split; [exact H1|]. split; [exact E|]. destruct Hc as [Sel Hsk]. split.
    - intros s (r' & Hr' & Er & Hs) Hf. rewrite (rule_unique g r' r Nd Hr' Hin Er) in Hs.
      assert (X : In s []) by (apply (selected_in _ _ _ _ s Sel); auto). destruct X.
    - intros [Hn Hf]. apply Hsk. split; [|exact Hf]. apply nullable_nt in Hn.
      destruct Hn as (s & (r' & Hr' & Er & Hs) & Hn).
      rewrite (rule_unique g r' r Nd Hr' Hin Er) in Hs. exists s. auto.
  Qed.

  Lemma alternative_operands n s ops : alternative g n s -> operands g s ops -> ops <> [] ->
    Forall (wf_symbol g) s.
  Proof.
    intros Ha Ho Hne. destruct (wf_sequences _ W _ _ Ha) as [->|[_ H]]; [|exact H].
    inversion Ho as [|x op l l' Hx]; subst. inversion Hx.
  Qed.

  (** ** Soundness (C27) *)
  Lemma derives_derivation_both src :
    (forall op p t q, derives tbl src op p t q ->
       forall x, operand g x op -> wf_symbol g x -> p <= length src ->
       derivation g src x p t q /\ q <= length src) /\
    (forall ops p ts q, derives_all tbl src ops p ts q ->
       forall s, operands g s ops -> Forall (wf_symbol g) s -> p <= length src ->
       derivations g src s p ts q /\ q <= length src).
  Proof.
    apply (derives_both tbl src
      (fun op p t q _ => forall x, operand g x op -> wf_symbol g x -> p <= length src ->
         derivation g src x p t q /\ q <= length src)
      (fun ops p ts q _ => forall s, operands g s ops -> Forall (wf_symbol g) s -> p <= length src ->
         derivations g src s p ts q /\ q <= length src)).
    - intros t p Ht Ho x Hx Hw Hp. inversion Hx; subst. simpl in Hw.
      pose proof (occurs_bound _ _ _ Ho (proj2 Hw) Hp) as B. split; [|exact B].
      constructor; [exact Ht|]. rewrite text_of_nat. apply occurs_slice; assumption.
    - intros p x Hx Hw Hp. inversion Hx; subst. simpl in Hw. destruct Hw as [Hw _]. congruence.
    - intros n ops p childs q Hn Hc Hne Hd IH x Hx Hw Hp. inversion Hx; subst.
      match goal with H : nth_error _ _ = Some ?m |- _ => rename H into Hi, m into name end.
      destruct (cell_alternative _ _ _ _ Hi Hc) as [(s & Ha & _ & Ho & _)|[E _]]; [|congruence].
      destruct (IH s Ho (alternative_operands _ _ _ Ha Ho Hne) Hp) as [IH1 IH2].
      split; [|exact IH2]. econstructor; eassumption.
    - intros n p Hn Hc x Hx Hw Hp. inversion Hx; subst.
      match goal with H : nth_error _ _ = Some ?m |- _ => rename H into Hi, m into name end.
      destruct (cell_alternative _ _ _ _ Hi Hc) as [(s & _ & _ & _ & E)|(_ & Hnu & _)]; [congruence|].
      split; [|exact Hp]. constructor; assumption.
    - intros p _ x Hx. inversion Hx. lia.
    - intros p _ _ x Hx. inversion Hx. lia.
    - intros p s Ho Hw Hp. inversion Ho; subst. split; [constructor|exact Hp].
    - intros op ops p t m ts q Hd IH1 Hds IH2 s Ho Hw Hp. inversion Ho; subst. inversion Hw; subst.
      match goal with H : operand g ?x op, H' : wf_symbol g ?x |- _ => destruct (IH1 x H H' Hp) as [A1 A2] end.
      match goal with H : Forall2 _ ?l ops, H' : Forall _ ?l |- _ => destruct (IH2 l H H' A2) as [B1 B2] end.
      split; [econstructor; eassumption|exact B2].
  Qed.
End Parse.

Scheme derivation_ind2 := Induction for derivation Sort Prop
with derivations_ind2 := Induction for derivations Sort Prop.
Combined Scheme derivation_both from derivation_ind2, derivations_ind2.

Lemma slice_split src p m q : p <= m -> m <= q ->
  slice_nat src p q = slice_nat src p m ++ slice_nat src m q.
Proof. apply firstn_skipn_split. Qed.

Lemma slice_empty src p : slice_nat src p p = [].
Proof. unfold slice_nat. rewrite Nat.sub_diag. reflexivity. Qed.

Lemma derivation_yields_both g src :
  (forall x p t q, derivation g src x p t q ->
     p <= q /\ yields g (sym_form x) (chars (slice_nat src p q))) /\
  (forall s p ts q, derivations g src s p ts q ->
     p <= q /\ yields g (seq_form s) (chars (slice_nat src p q))).
Proof.
  apply (derivation_both g src
    (fun x p t q _ => p <= q /\ yields g (sym_form x) (chars (slice_nat src p q)))
    (fun s p ts q _ => p <= q /\ yields g (seq_form s) (chars (slice_nat src p q)))).
  - intros t p Ht E. split; [lia|]. rewrite text_of_nat in E. rewrite E. constructor.
  - intros i n s p childs q Hi Ha _ [H1 H2]. split; [exact H1|].
    eapply yields_trans; [apply yields_alt, Ha|exact H2].
  - intros i n p Hi Hn. split; [lia|]. rewrite slice_empty. exact Hn.
  - intros p. split; [lia|]. rewrite slice_empty. constructor.
  - intros x s p t m ts q _ [H1 H2] _ [H3 H4]. split; [lia|].
    rewrite (slice_split src p m q) by assumption. unfold chars. rewrite map_app.
    apply (yields_app g (sym_form x) (seq_form s)); assumption.
Qed.

Lemma derivation_tree_word g src t : g <> [] -> derivation_tree g src t -> word g src.
Proof.
  intros Hg H. split; [exact Hg|]. destruct (proj1 (derivation_yields_both g src) _ _ _ _ H) as [_ Y].
  unfold slice_nat in Y. rewrite Nat.sub_0_r in Y. simpl skipn in Y. rewrite firstn_all in Y. exact Y.
Qed.

Lemma start_operand g : g <> [] -> operand g (SNonTerminal (start g)) (OpNonTerminal 0).
Proof. intros Hg. apply (opr_nonterminal g _ 0). destruct g; [congruence|reflexivity]. Qed.
Lemma start_defined g : g <> [] -> defined g (start g).
Proof. intros Hg. destruct g; [congruence|left; reflexivity]. Qed.

Lemma byte_at_nulfree src q : ~ In NUL src -> q <= length src -> byte_at src q = NUL -> q = length src.
Proof.
  intros H Hq E. destruct (Nat.eq_dec q (length src)) as [|N]; [assumption|].
  exfalso. apply H. rewrite <- E. apply nth_In. lia.
Qed.

Lemma sound g tbl FC src t :
  wf_grammar g -> table_spec_wrt FC g tbl -> first_disjoint g -> ~ In NUL src ->
  derives_text tbl src t -> derivation_tree g src t.
Proof.
  intros W T D Hn (q & H & Hq).
  destruct (proj1 (derives_derivation_both g tbl W T D src) _ _ _ _ H (SNonTerminal (start g)))
    as [H1 H2]; [apply start_operand, W|apply start_defined, W|lia|].
  rewrite (byte_at_nulfree _ _ Hn H2 Hq) in H1. exact H1.
Qed.

(** ** Completeness (C28) *)

(** Leftmost big-step generation. *)
Inductive gen (g : grammar) : form -> bytes -> Prop :=
| gen_nil : gen g [] []
| gen_ch c u w : gen g u w -> gen g (Ch c :: u) (c :: w)
| gen_nt n s u w1 w2 :
    alternative g n s -> gen g (seq_form s) w1 -> gen g u w2 -> gen g (NT n :: u) (w1 ++ w2).

Lemma gen_app_inv g u v : forall w, gen g (u ++ v) w -> exists w1 w2, w = w1 ++ w2 /\ gen g u w1 /\ gen g v w2.
Proof.
  induction u as [|x u IH]; intros w H; simpl in H.
  - exists [], w. split; [reflexivity|]. split; [constructor|exact H].
  - inversion H; subst.
    + match goal with H : gen g (u ++ v) _ |- _ => destruct (IH _ H) as (a & b & -> & Ha & Hb) end.
      exists (c :: a), b. split; [reflexivity|]. split; [constructor; exact Ha|exact Hb].
    + match goal with H : gen g (u ++ v) _ |- _ => destruct (IH _ H) as (a & b & -> & Ha & Hb) end.
      exists (w1 ++ a), b. split; [apply app_assoc|]. split; [econstructor; eassumption|exact Hb].
Qed.
Lemma gen_app g u v w1 w2 : gen g u w1 -> gen g v w2 -> gen g (u ++ v) (w1 ++ w2).
Proof.
  intros H1 H2. induction H1; simpl; [exact H2|constructor; assumption|].
  rewrite <- app_assoc. econstructor; eassumption.
Qed.
Lemma gen_chars g w : gen g (chars w) w.
Proof. induction w; simpl; constructor; assumption. Qed.
Lemma gen_back g u v w : yields1 g u v -> gen g v w -> gen g u w.
Proof.
  intros [a n s b Ha] H. apply gen_app_inv in H. destruct H as (w1 & w2 & -> & H1 & H2).
  apply gen_app_inv in H2. destruct H2 as (w3 & w4 & -> & H3 & H4).
  apply gen_app; [exact H1|]. econstructor; eassumption.
Qed.
Lemma yields_gen g u w : yields g u (chars w) -> gen g u w.
Proof.
  remember (chars w) as v eqn:E. induction 1; subst; [apply gen_chars|].
  eapply gen_back; eauto.
Qed.
Lemma gen_yields g u w : gen g u w -> yields g u (chars w).
Proof.
  induction 1 as [|c u w _ IH|n s u w1 w2 Ha _ IH1 _ IH2]; [constructor| |].
  - apply (yields_app g [Ch c] u [Ch c] (chars w)); [constructor|exact IH].
  - unfold chars. rewrite map_app. apply (yields_app g [NT n] u); [|exact IH2].
    eapply yields_trans; [apply yields_alt, Ha|exact IH1].
Qed.
Lemma gen_nullable g u : gen g u [] -> nullable g u.
Proof. intros H. apply gen_yields in H. exact H. Qed.
Lemma gen_first g u c w : gen g u (c :: w) -> first g u c.
Proof. intros H. apply gen_yields in H. exists (chars w). exact H. Qed.

(** Items of the stack and symbols. *)
Inductive item_of (g : grammar) : gsym -> item -> Prop :=
| io_ch c : item_of g (Ch c) (Byte c)
| io_nt n i : nth_error (heads g) i = Some n -> item_of g (NT n) (Row (Z.of_nat i)).

Lemma operands_items g s ops : operands g s ops -> Forall2 (item_of g) (seq_form s) (items ops).
Proof.
  induction 1 as [|x op s ops Hx _ IH]; [constructor|]. simpl. apply Forall2_app; [|exact IH].
  destruct Hx as [t|n i Hi]; simpl.
  - clear. induction t; simpl; constructor; [constructor|assumption].
  - constructor; [constructor; exact Hi|constructor].
Qed.

Section LL1.
  Variable g : grammar.
  Variable tbl : table.
  Variable F : bytes -> option ascii -> Prop.
  Context {FC : bytes -> option ascii -> Prop}.
  Hypothesis W : wf_grammar g.
  Hypothesis T : table_spec_wrt FC g tbl.
  Hypothesis L : LL1_wrt F g.
  Hypothesis CF : closed_follow g F.
  Let Nd := wf_distinct _ W.
  Let D := ll1_first _ _ L.

  (** The non-terminals of [u], standing before [x], are reachable and covered. *)
  Definition covered (u : form) (x : option ascii) : Prop :=
    forall a A b, u = a ++ NT A :: b -> reachable g A /\
      (forall c, first g b c -> F A (Some c)) /\ (nullable g b -> F A x).

  Lemma covered_tail s u x : covered (s :: u) x -> covered u x.
  Proof. intros H a A b ->. apply (H (s :: a) A b). reflexivity. Qed.
  Lemma covered_alt n s x : reachable g n -> F n x -> alternative g n s -> covered (seq_form s) x.
  Proof.
    intros R Hx Ha a A b E. apply seq_form_split in E. destruct E as (s1 & s2 & -> & -> & ->).
    destruct CF as (_ & C2 & C3). split; [eapply reachable_alt; eassumption|]. split.
    - intros c Hc. eapply C2; eassumption.
    - intros Hn. eapply C3; eassumption.
  Qed.
  Lemma covered_head n u x : covered (NT n :: u) x ->
    reachable g n /\ (forall c, first g u c -> F n (Some c)) /\ (nullable g u -> F n x).
  Proof. intros H. apply (H [] n u). reflexivity. Qed.

  (** What can be empty does not start with what follows it. *)
  Lemma no_first c u : firstr g c u -> nullr g u -> covered u (Some c) -> False.
  Proof.
    induction 1 as [rest|n s rest Ha Hf IH|n rest Hn Hf IH]; intros Hnull Hc.
    - inversion Hnull.
    - inversion Hnull as [|n' s' rest' Ha' Hs' Hrest]; subst.
      destruct (covered_head _ _ _ Hc) as (R & _ & C).
      assert (Fn : F n (Some c)) by (apply C, nullr_nullable, Hrest).
      destruct (sequence_dec s s') as [->|N].
      + apply IH; [exact Hs'|]. eapply covered_alt; eassumption.
      + apply firstr_first in Hf. apply nullr_nullable in Hs'.
        destruct (alt_pair g n s s' Nd Ha Ha' N) as [P|P].
        * destruct (ll1_follow _ _ L _ _ _ c P Fn) as [_ X]. exact (X Hs' Hf).
        * destruct (ll1_follow _ _ L _ _ _ c P Fn) as [X _]. exact (X Hs' Hf).
    - inversion Hnull; subst. apply IH; [assumption|]. eapply covered_tail; exact Hc.
  Qed.

  Lemma no_first_nt n c : reachable g n -> F n (Some c) -> nullable g [NT n] -> ~ first g [NT n] c.
  Proof.
    intros R Fn Hn Hf. apply (no_first c [NT n]).
    - apply firstr_first, Hf.
    - apply nullr_nullable, Hn.
    - intros a A b E. destruct a as [|y a]; [|destruct a; discriminate]. injection E as <- <-.
      split; [exact R|]. split; [intros d Hd; destruct (first_nil _ _ Hd)|]. intros _. exact Fn.
  Qed.

  Lemma alternative_same n s s' b :
    alternative g n s -> alternative g n s' -> first g (seq_form s) b -> first g (seq_form s') b -> s = s'.
  Proof.
    intros H H' Hb Hb'. destruct (sequence_dec s s') as [|N]; [assumption|exfalso].
    destruct (alt_pair g n s s' Nd H H' N) as [P|P]; eapply D; eassumption.
  Qed.

  Section Complete.
    (** The generator finds enough of the FOLLOW sets. *)
    Hypothesis Sub : forall n x, nullable g [NT n] -> F n x -> FC n x.
    Variable src : bytes.
    Hypothesis Nsrc : ~ In NUL src.

    Lemma alternative_defined n s : alternative g n s -> exists i, nth_error (heads g) i = Some n.
    Proof. intros (r & Hr & <- & _). apply In_nth_error. apply in_map, Hr. Qed.

    Lemma skipn_byte k w rest : skipn k src = w ++ rest ->
      byte_at src k = match w ++ rest with [] => NUL | c :: _ => c end.
    Proof.
      intros E. unfold byte_at. rewrite <- (Nat.add_0_r k), <- nth_skipn, E.
      destruct (w ++ rest); reflexivity.
    Qed.
    Definition next (w : bytes) : option ascii := match w with [] => None | c :: _ => Some c end.
    Lemma next_ahead k w : skipn k src = w -> ahead (byte_at src k) = next w.
    Proof.
      intros E. assert (E' : skipn k src = [] ++ w) by exact E. rewrite (skipn_byte _ _ _ E'). simpl.
      destruct w as [|c w]; [reflexivity|]. unfold ahead. simpl.
      destruct (Ascii.eqb_spec c NUL) as [->|N]; [|reflexivity].
      exfalso. apply Nsrc. rewrite <- (firstn_skipn k src), E. apply in_or_app. right. left. reflexivity.
    Qed.

    Lemma gen_rewrites u w : gen g u w -> forall its k rest form,
      Forall2 (item_of g) u its -> skipn k src = w ++ rest -> covered u (next rest) ->
      rewrites_star tbl src (k, its ++ form) (k + length w, form).
    Proof.
      induction 1 as [|c u w _ IH|n s u w1 w2 Ha Hg1 IH1 Hg2 IH2]; intros its k rest form Hi Hk Hc.
      - inversion Hi; subst. simpl. rewrite Nat.add_0_r. constructor.
      - inversion Hi as [|a b l l' Hab Hl]; subst. inversion Hab; subst. simpl.
        econstructor; [apply rw_byte; apply (skipn_byte _ _ _ Hk)|].
        replace (k + S (length w)) with (S k + length w) by lia.
        eapply IH; [exact Hl| |eapply covered_tail; exact Hc].
        replace (S k) with (k + 1) by lia. rewrite <- skipn_skipn_add, Hk. reflexivity.
      - inversion Hi as [|a b l l' Hab Hl]; subst. inversion Hab as [|n0 i Hin]; subst. cbn [app].
        destruct (covered_head _ _ _ Hc) as (R & C1 & C2).
        assert (Fn : F n (next (w2 ++ rest))).
        { destruct w2 as [|c w2]; simpl.
          - apply C2, gen_nullable, Hg2.
          - apply C1. eapply gen_first, Hg2. }
        assert (Hk2 : skipn (k + length w1) src = w2 ++ rest).
        { rewrite <- skipn_skipn_add, Hk, <- !app_assoc.
          rewrite skipn_app, skipn_all2, Nat.sub_diag by lia. reflexivity. }
        rewrite app_length, Nat.add_assoc. eapply rws_trans.
        2:{ eapply IH2; [exact Hl|exact Hk2|eapply covered_tail; exact Hc]. }
        destruct w1 as [|c w1].
        + (* the rule is left out *)
          cbn [length] in *. rewrite Nat.add_0_r in *.
          apply gen_nullable in Hg1.
          assert (Hn : nullable g [NT n]) by (apply nullable_nt; exists s; auto).
          pose proof (next_ahead _ _ Hk2) as Hah.
          assert (NoF : forall s', alternative g n s' -> ~ first g (seq_form s') (byte_at src k)).
          { intros s' Ha' Hf. assert (Hnz : byte_at src k <> NUL).
            { intros E. rewrite E in Hf. eapply first_alt_nul; [apply wf_nulfree, W|exact Ha'|exact Hf]. }
            unfold ahead in Hah. destruct (Ascii.eqb_spec (byte_at src k) NUL) as [|_]; [contradiction|].
            rewrite <- Hah in Fn. eapply no_first_nt; [exact R|exact Fn|exact Hn|].
            apply first_nt. exists s'. auto. }
          apply (Sub _ _ Hn) in Fn. rewrite <- Hah in Fn.
          destruct (cell_total g tbl W T i n (byte_at src k) Hin) as [(ops & Hcell)|(rw & _ & _ & _ & X)].
          * destruct (cell_alternative g tbl W T D _ _ _ _ Hin Hcell) as [(s' & Ha' & Hf & _)|(-> & _)].
            -- destruct (NoF _ Ha' Hf).
            -- apply rws_one. apply (rw_row tbl src (Z.of_nat i) [] k); [lia|exact Hcell].
          * destruct X. auto.
        + (* the rule is rewritten *)
          assert (Hb : byte_at src k = c).
          { rewrite <- app_assoc in Hk. rewrite (skipn_byte _ _ _ Hk). reflexivity. }
          pose proof (gen_first _ _ _ _ Hg1) as Hf.
          destruct (cell_total g tbl W T i n (byte_at src k) Hin) as [(ops & Hcell)|(rw & _ & _ & X & _)].
          * destruct (cell_alternative g tbl W T D _ _ _ _ Hin Hcell) as [(s' & Ha' & Hf' & Ho & _)|(_ & _ & _ & X)].
            -- rewrite Hb in Hf'. rewrite (alternative_same _ _ _ _ Ha' Ha Hf' Hf) in Ho.
               econstructor; [apply rw_row; [lia|exact Hcell]|].
               eapply IH1; [apply operands_items, Ho| |].
               ++ rewrite <- app_assoc in Hk. exact Hk.
               ++ eapply covered_alt; eassumption.
            -- destruct (X s Ha). rewrite Hb. exact Hf.
          * destruct (X s Ha). rewrite Hb. exact Hf.
    Qed.

    Lemma covered_start : covered [NT (start g)] None.
    Proof.
      intros a A b E. destruct a as [|y a]; [|destruct a; discriminate]. injection E as <- <-.
      split; [apply reachable_start|]. split; [intros c Hc; destruct (first_nil _ _ Hc)|].
      intros _. apply CF.
    Qed.

    Lemma complete : word g src -> table_public tbl -> exists t, derives_text tbl src t.
    Proof.
      intros [Hg Hy] Hp. apply yields_gen in Hy.
      apply (rws_derives_text tbl src None Hp (length src)).
      - apply (gen_rewrites _ _ Hy [Row 0] 0 [] []).
        + constructor; [|constructor]. apply (io_nt g _ 0). destruct g; [congruence|reflexivity].
        + rewrite app_nil_r. reflexivity.
        + exact covered_start.
      - apply byte_at_out. lia.
    Qed.
  End Complete.

  (** ** Termination (C33) *)
  Section Halt.
    Variable src : bytes.

    Definition irreducible (c : nat * list item) : Prop := forall c', ~ rewrites tbl src c c'.
    Definition halts (c : nat * list item) : Prop :=
      exists c', rewrites_star tbl src c c' /\ irreducible c'.
    Lemma halts_star a b : rewrites_star tbl src a b -> halts b -> halts a.
    Proof. intros H (c & H1 & H2). exists c. split; [eapply rws_trans; eassumption|exact H2]. Qed.

    (** [u] is the end of a sentential form. *)
    Definition sent (u : form) : Prop := exists p, yields g [NT (start g)] (p ++ u).
    Lemma sent_tail x u : sent (x :: u) -> sent u.
    Proof. intros (p & H). exists (p ++ [x]). rewrite <- app_assoc. exact H. Qed.
    Lemma sent_alt n s u : sent (NT n :: u) -> alternative g n s -> sent (seq_form s ++ u).
    Proof.
      intros (p & H) Ha. exists p. eapply yields_trans; [exact H|]. apply yields_one, y1, Ha.
    Qed.
    Lemma sent_behind n u x : sent (NT n :: u) -> behind g u x -> F n x.
    Proof. intros (p & H) Hb. eapply (closed_covers g F _ CF H); [reflexivity|exact Hb]. Qed.
    Lemma sent_reachable n u : sent (NT n :: u) -> reachable g n.
    Proof. intros (p & H). exists p, u. exact H. Qed.
    Lemma sent_nulfree u : sent u -> ~ In (Ch NUL) u.
    Proof.
      intros (p & H) Hin. assert (X : ~ In (Ch NUL) (p ++ u)).
      { revert H. generalize (p ++ u) as v. apply yields_snoc_ind.
        - intros [E|[]]. discriminate.
        - intros v w _ Hv Hst X. destruct Hst as [a n s b Ha]. apply in_app_or in X. destruct X as [X|X].
          + apply Hv. apply in_or_app. left. exact X.
          + apply in_app_or in X. destruct X as [X|X].
            * eapply form_nulfree_alt; [apply wf_nulfree, W|exact Ha|exact X].
            * apply Hv. apply in_or_app. right. right. exact X. }
      apply X. apply in_or_app. right. exact Hin.
    Qed.

    Lemma no_cell_irreducible i b k its rw :
      b = byte_at src k ->
      map_get Z.eqb (Z.of_nat i) tbl = Some rw -> map_get Ascii.eqb b rw = None ->
      irreducible (k, Row (Z.of_nat i) :: its).
    Proof.
      intros -> H1 H2 c' R. inversion R; subst; try lia.
      match goal with H : cell _ _ _ _ |- _ => destruct H as (rw' & H3 & H4) end. congruence.
    Qed.

    Lemma consume k u : firstr g (byte_at src k) u -> forall v its ivs,
      Forall2 (item_of g) u its -> Forall2 (item_of g) v ivs -> sent (u ++ v) ->
      halts (k, its ++ ivs) \/
      exists u' its', Forall2 (item_of g) u' its' /\ sent u' /\
        rewrites_star tbl src (k, its ++ ivs) (S k, its').
    Proof.
      remember (byte_at src k) as b eqn:Eb.
      induction 1 as [rest|n s rest Ha Hf IH|n rest Hn Hf IH]; intros v its ivs Hi Hv Hs.
      - inversion Hi as [|x y l l' Hxy Hl]; subst. inversion Hxy; subst. right.
        exists (rest ++ v), (l' ++ ivs). split; [apply Forall2_app; assumption|].
        split; [exact (sent_tail _ _ Hs)|]. apply rws_one. cbn [app]. apply rw_byte. reflexivity.
      - inversion Hi as [|x y l l' Hxy Hl]; subst. inversion Hxy as [|n0 i Hin]; subst. cbn [app] in *.
        apply firstr_first in Hf.
        destruct (cell_total g tbl W T i n (byte_at src k) Hin) as [(ops & Hcell)|(rw & _ & _ & X & _)];
          [|destruct (X s Ha Hf)].
        destruct (cell_alternative g tbl W T D _ _ _ _ Hin Hcell) as [(s' & Ha' & Hf' & Ho & _)|(_ & _ & _ & X)];
          [|destruct (X s Ha Hf)].
        rewrite (alternative_same _ _ _ _ Ha' Ha Hf' Hf) in Ho.
        assert (St : rewrites_star tbl src (k, Row (Z.of_nat i) :: l' ++ ivs) (k, items ops ++ l' ++ ivs))
          by (apply rws_one, rw_row; [lia|exact Hcell]).
        destruct (IH (rest ++ v) (items ops) (l' ++ ivs)) as [H|(u' & its' & H1 & H2 & H3)].
        + apply operands_items, Ho.
        + apply Forall2_app; assumption.
        + eapply sent_alt; eassumption.
        + left. eapply halts_star; eassumption.
        + right. exists u', its'. split; [exact H1|]. split; [exact H2|]. eapply rws_trans; eassumption.
      - inversion Hi as [|x y l l' Hxy Hl]; subst. inversion Hxy as [|n0 i Hin]; subst. cbn [app] in *.
        apply firstr_first in Hf. apply nullr_nullable in Hn.
        assert (Fn : F n (Some (byte_at src k))).
        { eapply sent_behind; [exact Hs|]. apply first_app. left. exact Hf. }
        destruct (cell_total g tbl W T i n (byte_at src k) Hin) as [(ops & Hcell)|(rw & H1 & H2 & _ & _)].
        + destruct (cell_alternative g tbl W T D _ _ _ _ Hin Hcell) as [(s' & Ha' & Hf' & _)|(-> & _)].
          { exfalso. eapply no_first_nt; [eapply sent_reachable, Hs|exact Fn|exact Hn|].
            apply first_nt. exists s'. auto. }
          assert (St : rewrites_star tbl src (k, Row (Z.of_nat i) :: l' ++ ivs) (k, l' ++ ivs))
            by (apply rws_one; apply (rw_row tbl src (Z.of_nat i) [] k); [lia|exact Hcell]).
          destruct (IH v l' ivs Hl Hv (sent_tail _ _ Hs)) as [H|(u' & its' & H1 & H2 & H3)].
          * left. eapply halts_star; eassumption.
          * right. exists u', its'. split; [exact H1|]. split; [exact H2|]. eapply rws_trans; eassumption.
        + left. exists (k, Row (Z.of_nat i) :: l' ++ ivs). split; [constructor|].
          eapply no_cell_irreducible; [reflexivity|eassumption|eassumption].
    Qed.

    Lemma halts_all m : forall k u its, length src - k <= m -> sent u ->
      Forall2 (item_of g) u its -> halts (k, its).
    Proof.
      induction m as [m IHm] using lt_wf_ind. intros k u. revert k.
      assert (Smaller : forall k u' its', k < length src -> length src - k <= m -> sent u' ->
        Forall2 (item_of g) u' its' -> halts (S k, its')).
      { intros k u' its' Hk Hm Hs Hi. eapply (IHm (length src - S k)); [lia|apply le_n|exact Hs|exact Hi]. }
      induction u as [|x u IH]; intros k its Hm Hs Hi; inversion Hi as [|x0 y l l' Hxy Hl]; subst.
      - exists (k, []). split; [constructor|]. intros c' R. inversion R.
      - inversion Hxy as [c|n i Hin]; subst.
        + destruct (ascii_dec (byte_at src k) c) as [E|N].
          * assert (Hk : k < length src).
            { apply byte_at_in. rewrite E. intros ->. eapply sent_nulfree; [exact Hs|left; reflexivity]. }
            eapply halts_star; [apply rws_one, rw_byte, E|].
            eapply Smaller; [exact Hk|exact Hm|exact (sent_tail _ _ Hs)|exact Hl].
          * exists (k, Byte c :: l'). split; [constructor|]. intros c' R. inversion R; subst. congruence.
        + destruct (cell_total g tbl W T i n (byte_at src k) Hin) as [(ops & Hcell)|(rw & H1 & H2 & _ & _)].
          * destruct (cell_alternative g tbl W T D _ _ _ _ Hin Hcell) as [(s' & Ha' & Hf' & _)|(-> & Hnull & _)].
            -- assert (Hk : k < length src).
               { apply byte_at_in. intros E. rewrite E in Hf'.
                 eapply first_alt_nul; [apply wf_nulfree, W|exact Ha'|exact Hf']. }
               destruct (consume k (NT n :: u)) with (v := @nil gsym) (its := Row (Z.of_nat i) :: l') (ivs := @nil item)
                 as [H|(u' & its' & H1 & H2 & H3)].
               ++ eapply fr_here; [exact Ha'|apply firstr_first, Hf'].
               ++ exact Hi.
               ++ constructor.
               ++ rewrite app_nil_r. exact Hs.
               ++ rewrite app_nil_r in H. exact H.
               ++ rewrite app_nil_r in H3. eapply halts_star; [exact H3|]. eapply Smaller; eassumption.
            -- eapply halts_star; [apply rws_one; apply (rw_row tbl src (Z.of_nat i) [] k); [lia|exact Hcell]|].
               apply IH; [exact Hm|exact (sent_tail _ _ Hs)|exact Hl].
          * exists (k, Row (Z.of_nat i) :: l'). split; [constructor|].
            eapply no_cell_irreducible; [reflexivity|eassumption|eassumption].
    Qed.

    Lemma halts_start : halts (0, [Row 0]).
    Proof.
      apply (halts_all (length src) 0 [NT (start g)] [Row 0]); [lia|exists []; constructor|].
      constructor; [|constructor]. apply (io_nt g _ 0).
      pose proof (wf_nonempty _ W). destruct g; [congruence|reflexivity].
    Qed.
  End Halt.
End LL1.

(** A configuration that cannot be rewritten is the end or an error. *)
Lemma irreducible_stuck tbl src names k form :
  irreducible tbl src (k, form) ->
  (form = [] /\ byte_at src k = NUL) \/ exists e, stuck tbl src names k form e.
Proof.
  intros I. destruct form as [|[n|c] form].
  - destruct (ascii_dec (byte_at src k) NUL) as [E|N]; [left; auto|right; eexists; constructor; exact N].
  - right. destruct (Z_lt_le_dec n 0) as [Hn|Hn].
    + destruct (Z.eq_dec n (-2)) as [->|N2]; [|eexists; apply st_builtin; assumption].
      destruct (ascii_dec (byte_at src k) LF) as [E|N1]; [exfalso; eapply I; apply rw_eol_lf, E|].
      destruct (ascii_dec (byte_at src k) CR) as [E|N3]; [exfalso; eapply I; apply rw_eol_cr, E|].
      eexists. apply st_eol; assumption.
    + destruct (map_get Z.eqb n tbl) as [rw|] eqn:E1; [|eexists; apply st_no_row; assumption].
      destruct (map_get Ascii.eqb (byte_at src k) rw) as [ops|] eqn:E2.
      * exfalso. eapply I. apply rw_row; [exact Hn|]. exists rw. split; eassumption.
      * eexists. eapply st_no_cell; eassumption.
  - right. destruct (ascii_dec (byte_at src k) c) as [E|N]; [exfalso; eapply I; apply rw_byte, E|].
    eexists. constructor. exact N.
Qed.

Lemma halts_outcome tbl src names :
  table_public tbl -> halts tbl src (0, [Row 0]) ->
  (exists t, derives_text tbl src t) \/ (exists k e, refuses tbl src names k e).
Proof.
  intros Hp ((k & form) & Hr & Hi). destruct (irreducible_stuck tbl src names k form Hi) as [[-> E]|(e & S)].
  - left. exact (rws_derives_text tbl src None Hp k Hr E).
  - right. exists k, e, form. auto.
Qed.

Lemma halts_parse tbl m src text :
  table_public tbl -> has_row0 tbl -> delivers src text -> halts tbl text (0, [Row 0]) ->
  exists fuel, result fuel tbl (Some m) src <> NoFuel.
Proof.
  intros Hp Hr0 Hd H. destruct (halts_outcome tbl text (Some m) Hp H) as [(t & Ht)|(k & e & Hk)].
  - destruct (proj2 (parse_iff_derivation tbl m src text t Hp Hd) Ht) as (fuel & nm & E).
    exists fuel. rewrite E. discriminate.
  - destruct (proj2 (error_diagnosis tbl m src text e Hp Hr0 Hd) (ex_intro _ k Hk)) as (fuel & E).
    exists fuel. unfold fails_with in E. rewrite E. discriminate.
Qed.
