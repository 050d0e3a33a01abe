(** * TGTime: parsers of LL(1) grammars take linear time. *)
From Verif Require Import Base ByteSet Ast Cst Parser TableGen Spec_Parse Spec_Tree Spec_Grammar Spec_Table
  Spec_Time ByteSetProofs GrammarProofs ParserProofs TreeProofs ParseApi ParseApi2
  TGFirsts TGFollows TGTable TGMain TGCells TGClosed TGParse.

(** The rules expanded before byte [c] is matched. *)
Inductive chain (g : grammar) (c : ascii) : form -> list bytes -> Prop :=
| ch_ch rest : chain g c (Ch c :: rest) []
| ch_here n s rest l :
    alternative g n s -> chain g c (seq_form s) l -> chain g c (NT n :: rest) (n :: l)
| ch_skip n rest l : nullr g [NT n] -> chain g c rest l -> chain g c (NT n :: rest) l.

Lemma chain_first g c u l : chain g c u l -> first g u c.
Proof.
  intros H. apply firstr_first.
  induction H; [apply fr_ch|eapply fr_here; eassumption|apply fr_skip; assumption].
Qed.
Lemma first_chain g c u : first g u c -> exists l, chain g c u l.
Proof.
  intros H. apply firstr_first in H.
  induction H as [rest|n s rest Ha _ [l IH]|n rest Hn _ [l IH]]; eexists;
    [apply ch_ch|eapply ch_here; eassumption|apply ch_skip; eassumption].
Qed.
Lemma chain_app g c v u : forall l, chain g c (v ++ u) l ->
  chain g c v l \/ (nullable g v /\ first g u c).
Proof.
  induction v as [|x v IH]; intros l H; simpl in H.
  - right. split; [constructor|]. eapply chain_first, H.
  - inversion H as [rest|n s rest l' Ha Hc|n rest l' Hn Hc]; subst.
    + left. apply ch_ch.
    + left. eapply ch_here; eassumption.
    + destruct (IH _ Hc) as [X|[X1 X2]]; [left; apply ch_skip; assumption|].
      right. split; [|exact X2]. apply (nullable_app g [NT n] v). split; [apply nullr_nullable, Hn|exact X1].
Qed.
Lemma chain_more g c u v l : chain g c u l -> chain g c (u ++ v) l.
Proof.
  induction 1 as [rest|n s rest l Ha Hc IH|n rest l Hn Hc IH]; simpl;
    [apply ch_ch|eapply ch_here; eassumption|apply ch_skip; assumption].
Qed.

Section LL1.
  Variable g : grammar.
  Variable F : bytes -> option ascii -> Prop.
  Hypothesis W : wf_grammar g.
  Hypothesis L : LL1_wrt F g.
  Hypothesis CF : closed_follow g F.
  Let Nd := wf_distinct _ W.
  Let D := ll1_first _ _ L.

  Lemma skip_not_first n c u : sent g (NT n :: u) -> nullable g [NT n] -> first g u c -> ~ first g [NT n] c.
  Proof.
    intros Hs Hn Hf. eapply (no_first_nt g F W L CF).
    - eapply sent_reachable, Hs.
    - eapply (sent_behind g F CF); [exact Hs|exact Hf].
    - exact Hn.
  Qed.

  Lemma chain_fun c u l : chain g c u l -> forall v l', sent g (u ++ v) -> chain g c u l' -> l = l'.
  Proof.
    induction 1 as [rest|n s rest l Ha Hc IH|n rest l Hn Hc IH]; intros v l' Hs H'.
    - inversion H'; reflexivity.
    - inversion H' as [|n' s' rest' l2 Ha' Hc'|n' rest' l2 Hn' Hc']; subst.
      + assert (s = s').
        { eapply (alternative_same g F W L n s s' c); [exact Ha|exact Ha'| |]; eapply chain_first; eassumption. }
        subst s'. f_equal. eapply (IH (rest ++ v)); [|exact Hc']. eapply sent_alt; eassumption.
      + exfalso. eapply (skip_not_first n c (rest ++ v)); [exact Hs|apply nullr_nullable, Hn'| |].
        * apply first_app. left. eapply chain_first, Hc'.
        * apply first_nt. exists s. split; [exact Ha|eapply chain_first, Hc].
    - inversion H' as [|n' s' rest' l2 Ha' Hc'|n' rest' l2 Hn' Hc']; subst.
      + exfalso. eapply (skip_not_first n c (rest ++ v)); [exact Hs|apply nullr_nullable, Hn| |].
        * apply first_app. left. eapply chain_first, Hc.
        * apply first_nt. exists s'. split; [exact Ha'|eapply chain_first, Hc'].
      + eapply (IH v); [exact (sent_tail _ _ _ Hs)|exact Hc'].
  Qed.

  Lemma chain_suffix c u l : chain g c u l -> forall v n l1 l2, sent g (u ++ v) -> l = l1 ++ n :: l2 ->
    chain g c [NT n] (n :: l2).
  Proof.
    induction 1 as [rest|m s rest l Ha Hc IH|m rest l Hn Hc IH]; intros v n l1 l2 Hs E.
    - destruct l1; discriminate.
    - destruct l1 as [|x l1]; injection E as -> E.
      + subst l. eapply ch_here; eassumption.
      + eapply (IH (rest ++ v)); [eapply sent_alt; eassumption|exact E].
    - eapply (IH v); [exact (sent_tail _ _ _ Hs)|exact E].
  Qed.

  Lemma chain_nodup c u l : chain g c u l -> forall v, sent g (u ++ v) -> NoDup l.
  Proof.
    induction 1 as [rest|m s rest l Ha Hc IH|m rest l Hn Hc IH]; intros v Hs.
    - constructor.
    - constructor; [|eapply (IH (rest ++ v)), sent_alt; eassumption].
      intros Hin. apply in_split in Hin. destruct Hin as (l1 & l2 & ->).
      assert (H1 : chain g c [NT m] (m :: l2)).
      { eapply (chain_suffix c (seq_form s) (l1 ++ m :: l2) Hc (rest ++ v)); [eapply sent_alt; eassumption|reflexivity]. }
      assert (H2 : chain g c [NT m] (m :: l1 ++ m :: l2)) by (eapply ch_here; eassumption).
      pose proof (chain_fun c [NT m] _ H1 (rest ++ v) _ Hs H2) as E.
      apply (f_equal (@length bytes)) in E. simpl in E. rewrite app_length in E. simpl in E. lia.
    - eapply (IH v), sent_tail, Hs.
  Qed.

  Lemma chain_heads c u l : chain g c u l -> incl l (heads g).
  Proof.
    induction 1 as [rest|m s rest l Ha Hc IH|m rest l Hn Hc IH].
    - intros x [].
    - intros x [<-|Hx]; [|apply IH, Hx]. destruct Ha as (r & Hr & <- & _). apply in_map, Hr.
    - exact IH.
  Qed.

  Lemma chain_length c u l : sent g u -> chain g c u l -> length l <= length g.
  Proof.
    intros Hs H. unfold heads. rewrite <- (map_length r_head g).
    apply NoDup_incl_length; [|exact (chain_heads _ _ _ H)].
    eapply (chain_nodup c u l H []). rewrite app_nil_r. exact Hs.
  Qed.

  Lemma sent_first_nul u : sent g u -> ~ first g u NUL.
  Proof.
    intros (p & H) (v & Y).
    assert (X : sent g (Ch NUL :: v)).
    { exists p. eapply yields_trans; [exact H|]. apply yields_app; [constructor|exact Y]. }
    eapply sent_nulfree; [exact W|exact X|left; reflexivity].
  Qed.

  (** ** Running *)
  Variable tbl : table.
  Variable src : bytes.
  Variable names : names_map.
  Hypothesis T : table_spec g tbl.

  (** The sentential form on the stack. *)
  Inductive rep : list ParserOp -> form -> Prop :=
  | rp_eos : rep [OpEOS] []
  | rp_function n p k ops u : rep ops u -> rep (OpFunction n p k :: ops) u
  | rp_char c ops u : rep ops u -> rep (OpChar c :: ops) (Ch c :: u)
  | rp_terminal t ops u : rep ops u -> rep (OpTerminal t :: ops) (chars t ++ u)
  | rp_nonterminal n i ops u :
      nth_error (heads g) i = Some n -> rep ops u -> rep (OpNonTerminal (Z.of_nat i) :: ops) (NT n :: u).

  Definition weight_of (op : ParserOp) : nat :=
    match op with
    | OpNonTerminal _ => 2
    | OpTerminal t => length t + 2
    | _ => 1
    end.
  Definition weight (ops : list ParserOp) : nat := list_sum (map weight_of ops).
  Lemma weight_app a b : weight (a ++ b) = weight a + weight b.
  Proof. unfold weight. rewrite map_app. apply list_sum_app. Qed.
  Lemma weight_cons x b : weight (x :: b) = weight_of x + weight b.
  Proof. reflexivity. Qed.

  Lemma rep_chars t ops u : rep ops u -> rep (map OpChar t ++ ops) (chars t ++ u).
  Proof. intros H. induction t; simpl; [exact H|constructor; exact IHt]. Qed.
  Lemma weight_chars t : weight (map OpChar t) = length t.
  Proof. induction t; [reflexivity|]. unfold weight in *. simpl in *. lia. Qed.
  Lemma rep_operands s ops' ops u : operands g s ops' -> rep ops u -> rep (ops' ++ ops) (seq_form s ++ u).
  Proof.
    intros H Hr. induction H as [|x op s ops' Hx _ IH]; [exact Hr|]. simpl. rewrite <- app_assoc.
    destruct Hx; simpl; constructor; assumption.
  Qed.
  Lemma weight_operands s ops : operands g s ops -> weight ops = sequence_cost s.
  Proof.
    intros H. induction H as [|x op s ops Hx _ IH]; [reflexivity|].
    unfold weight, sequence_cost in *. simpl in *. rewrite IH.
    destruct Hx; reflexivity.
  Qed.

  Lemma list_max_in x l : In x l -> x <= list_max l.
  Proof.
    intros H. pose proof (proj1 (list_max_le l (list_max l)) (le_n _)) as A.
    rewrite Forall_forall in A. apply A, H.
  Qed.
  Lemma cost_max n s : alternative g n s -> sequence_cost s <= largest_alternative g.
  Proof.
    intros (r & Hr & _ & Hs). unfold largest_alternative. apply list_max_in.
    apply in_map. apply in_flat_map. exists r. auto.
  Qed.

  Let N := length g.
  Let M := largest_alternative g.

  (** [e] expansions are still possible. *)
  Definition budget (k : nat) (u : form) (e : nat) : Prop :=
    N * (length src - k - 1) <= e /\
    forall l, chain g (byte_at src k) u l -> N * (length src - k - 1) + length l <= e.

  Lemma run_bound fuel : forall st u e, rep (ps_ops st) u -> sent g u -> budget (ps_off st) u e ->
    weight (ps_ops st) + M * e <= fuel -> fst (run tbl src names fuel st) <> NoFuel.
  Proof.
    induction fuel as [|fuel IH]; intros [ops prods k] u e Hr Hs Hb Hw; cbn [ps_ops ps_off] in *.
    - exfalso. destruct Hr; rewrite weight_cons in Hw; simpl in Hw; lia.
    - cbn [run]. unfold step. cbn [ps_ops ps_off ps_prods].
      destruct Hr as [|n p a ops u Hr|c ops u Hr|t ops u Hr|n i ops u Hi Hr].
      + unfold processEOS. destruct (negb _); [discriminate|]. destruct prods; [discriminate|].
        destruct names; discriminate.
      + unfold processFunction. rewrite weight_cons in Hw. cbn [weight_of] in Hw. destruct (Nat.eqb a 0).
        * eapply (IH _ u e); cbn [ps_ops ps_off]; try eassumption. lia.
        * destruct (pop_childs _ a prods []) as [[ch pr]| | |]; try discriminate.
          eapply (IH _ u e); cbn [ps_ops ps_off]; try eassumption. lia.
      + unfold processChar. rewrite peek_byte_at. destruct (Ascii.eqb_spec c (byte_at src k)) as [E|]; [|discriminate].
        simpl negb. cbn iota. rewrite weight_cons in Hw. cbn [weight_of] in Hw.
        assert (Hk : k < length src).
        { apply byte_at_in. rewrite <- E. intros ->. eapply sent_nulfree; [exact W|exact Hs|left; reflexivity]. }
        eapply (IH _ u e); cbn [ps_ops ps_off]; [exact Hr|exact (sent_tail _ _ _ Hs)| |lia].
        destruct Hb as [Hb _]. split.
        * eapply Nat.le_trans; [|exact Hb]. apply Nat.mul_le_mono_l. lia.
        * intros l Hl. pose proof (chain_length _ _ _ (sent_tail _ _ _ Hs) Hl) as Hlen. fold N in Hlen.
          assert (Hk2 : S k < length src).
          { apply byte_at_in. intros E2. rewrite E2 in Hl. apply chain_first in Hl.
            eapply sent_first_nul; [exact (sent_tail _ _ _ Hs)|exact Hl]. }
          eapply Nat.le_trans; [|exact Hb].
          replace (length src - k - 1) with (S (length src - S k - 1)) by lia.
          rewrite Nat.mul_succ_r. lia.
      + unfold processTerminal. rewrite push_all_app.
        eapply (IH _ (chars t ++ u) e); cbn [ps_ops ps_off]; try eassumption.
        * apply rep_chars. constructor. exact Hr.
        * rewrite weight_app, weight_chars, !weight_cons in *. cbn [weight_of] in *. lia.
      + unfold processNonTerminal. destruct (Z.ltb_spec (Z.of_nat i) 0) as [|_]; [lia|].
        unfold processTableNonTerminal, table_get, row_get. rewrite peek_byte_at.
        destruct (map_get Z.eqb (Z.of_nat i) tbl) as [rw|] eqn:E1; [|discriminate].
        destruct (map_get Ascii.eqb (byte_at src k) rw) as [ops'|] eqn:E2; [|discriminate].
        rewrite push_all_app. rewrite weight_cons in Hw. cbn [weight_of] in Hw.
        assert (Hcell : cell tbl (Z.of_nat i) (byte_at src k) ops') by (exists rw; auto).
        destruct Hb as [Hb1 Hb2].
        destruct (cell_alternative g tbl W T D _ _ _ _ Hi Hcell) as [(s & Ha & Hf & Ho & _)|(-> & Hn & _)].
        * destruct (first_chain _ _ _ Hf) as (l & Hl).
          pose proof (Hb2 _ (ch_here g _ n s u l Ha Hl)) as B0. simpl length in B0.
          eapply (IH _ (seq_form s ++ u) (e - 1)); cbn [ps_ops ps_off].
          -- apply rep_operands; [exact Ho|]. constructor. exact Hr.
          -- eapply sent_alt; eassumption.
          -- split; [lia|]. intros l2 Hl2. apply chain_app in Hl2. destruct Hl2 as [Hl2|[X1 X2]].
             ++ pose proof (Hb2 _ (ch_here g _ n s u l2 Ha Hl2)) as B. simpl length in B. lia.
             ++ exfalso. eapply (skip_not_first n); [exact Hs| |exact X2|].
                ** apply nullable_nt. exists s. auto.
                ** apply first_nt. exists s. auto.
          -- rewrite weight_app, weight_cons, (weight_operands _ _ Ho). cbn [weight_of].
             pose proof (cost_max _ _ Ha) as Hc. fold M in Hc.
             assert (He : S (e - 1) = e).
             { revert B0. generalize (N * (length src - k - 1)). intros z B0. lia. }
             assert (Hm : M * e = M * (e - 1) + M) by (rewrite <- Nat.mul_succ_r, He; reflexivity). lia.
        * eapply (IH _ u e); cbn [ps_ops ps_off app].
          -- constructor. exact Hr.
          -- exact (sent_tail _ _ _ Hs).
          -- split; [exact Hb1|]. intros l Hl. apply Hb2. apply ch_skip; [apply nullr_nullable, Hn|exact Hl].
          -- rewrite weight_cons. cbn [weight_of]. lia.
  Qed.

  Lemma run_init_bound :
    fst (run tbl src names (3 + N * M * length src) init_state) <> NoFuel.
  Proof.
    assert (S0 : sent g [NT (start g)]) by (exists []; constructor).
    apply (run_bound _ init_state [NT (start g)] (N * length src)).
    - unfold init_state. cbn [ps_ops]. apply (rp_nonterminal _ 0).
      + pose proof (wf_nonempty _ W). destruct g; [congruence|reflexivity].
      + constructor.
    - exact S0.
    - cbn [init_state ps_off]. split; [apply Nat.mul_le_mono_l; lia|]. intros l Hl.
      pose proof (chain_length _ _ _ S0 Hl) as Hlen. fold N in Hlen.
      assert (Hk2 : 0 < length src).
      { apply byte_at_in. intros E2. rewrite E2 in Hl. apply chain_first in Hl.
        eapply sent_first_nul; [exact S0|exact Hl]. }
      replace (length src) with (S (length src - 0 - 1)) at 2 by lia. rewrite Nat.mul_succ_r. lia.
    - cbn [init_state ps_ops]. rewrite !weight_cons. cbn [weight_of weight map list_sum fold_right].
      rewrite Nat.mul_assoc, (Nat.mul_comm M N). lia.
  Qed.
End LL1.
