(** * TGSub: proofs about parsing the text of a sub-tree on its own (C77). *)
From Verif Require Import Base ByteSet Ast Cst Parser TableGen Spec_Parse Spec_Tree Spec_Grammar Spec_Table Spec_Reorder Spec_Sub
  GrammarProofs ParserProofs TreeProofs ParseApi ParseApi2 TGFirsts TGFollows TGMain TGCells TGClosed TGNames TGParse TGTrees TGReorder.
From Coq Require Import Permutation.

(** ** The same rules with another first one *)
Section Restart.
  Variables g g' : grammar.
  Hypothesis P : Permutation g g'.

  Lemma perm_alternative n s : alternative g n s <-> alternative g' n s.
  Proof.
    split; intros (r & Hr & H); exists r; (split; [|exact H]); eapply Permutation_in; try exact Hr; [exact P|symmetry; exact P].
  Qed.
  Lemma perm_yields u v : yields g u v <-> yields g' u v.
  Proof.
    split; induction 1 as [u|u v w [a n s b H] _ IH]; try constructor.
    - eapply ys_step; [apply y1, perm_alternative, H|exact IH].
    - eapply ys_step; [apply y1, perm_alternative, H|exact IH].
  Qed.
  Lemma perm_first u c : first g u c <-> first g' u c.
  Proof. split; intros (v & H); exists v; apply perm_yields, H. Qed.
  Lemma perm_nullable u : nullable g u <-> nullable g' u.
  Proof. apply perm_yields. Qed.
  Lemma perm_defined n : defined g n <-> defined g' n.
  Proof.
    unfold defined, heads. split; apply Permutation_in; [|symmetry]; apply Permutation_map, P.
  Qed.
  Lemma perm_two n s1 s2 : two_alternatives g n s1 s2 <-> two_alternatives g' n s1 s2.
  Proof.
    split; intros (r & l1 & l2 & l3 & Hr & H); exists r, l1, l2, l3; (split; [|exact H]); eapply Permutation_in; try exact Hr;
      [exact P|symmetry; exact P].
  Qed.
  Lemma perm_disjoint : first_disjoint g -> first_disjoint g'.
  Proof. intros D n s1 s2 c H H1 H2. eapply (D n s1 s2 c); [apply perm_two, H|apply perm_first, H1|apply perm_first, H2]. Qed.
  Lemma perm_wf : wf_grammar g -> wf_grammar g'.
  Proof.
    intros W. constructor.
    - intros ->. apply (wf_nonempty _ W). apply Permutation_nil. symmetry. exact P.
    - eapply Permutation_NoDup; [apply Permutation_map, P|apply W].
    - intros n s H. apply perm_alternative in H. destruct (wf_sequences _ W _ _ H) as [->|[Hne Hw]]; [left; reflexivity|right].
      split; [exact Hne|]. eapply Forall_impl; [|exact Hw].
      intros [x|t| |t] Hx; cbn in *; auto. apply perm_defined, Hx.
  Qed.
  (** FOLLOW: bytes do not depend on the first rule. *)
  Lemma perm_follow_some n c x : follow_code g n x -> x = Some c -> follow_code g' n (Some c).
  Proof.
    induction 1 as [H|A a B X b d H Hf|A a B x H _ IH|A a B X b x H Hn _ IH]; intros E; try discriminate.
    - injection E as ->. eapply fc_rule2; [apply perm_alternative, H|apply perm_first, Hf].
    - eapply fc_rule3; [apply perm_alternative, H|apply IH, E].
    - eapply fc_rule4; [apply perm_alternative, H|apply perm_nullable, Hn|apply IH, E].
  Qed.
  (** The end of input comes from the first rule. *)
  Lemma perm_follow_none x : follow_code g (start g') x -> forall n y, follow_code g' n y -> y = None -> follow_code g n x.
  Proof.
    intros H0. induction 1 as [H|A a B X b d H Hf|A a B y H _ IH|A a B X b y H Hn _ IH]; intros E; try discriminate; [exact H0| |].
    - eapply fc_rule3; [apply perm_alternative, H|apply IH, E].
    - eapply fc_rule4; [apply perm_alternative, H|apply perm_nullable, Hn|apply IH, E].
  Qed.
End Restart.

Lemma follow_nulfree g n x : wf_grammar g -> follow_code g n x -> x <> Some NUL.
Proof.
  intros W. induction 1 as [H|A a B X b d H Hf|A a B y H _ IH|A a B X b y H Hn _ IH]; try discriminate; try exact IH.
  intros E. injection E as ->. destruct X as [m|t| |t]; cbn in Hf.
  - apply first_nt in Hf. destruct Hf as (s & Hs & Hf). eapply first_alt_nul; [apply wf_nulfree, W|exact Hs|exact Hf].
  - apply (wf_nulfree _ W A _ t H); [apply in_or_app; right; right; left; reflexivity|].
    destruct t as [|c t]; [destruct (first_nil _ _ Hf)|]. cbn in Hf. apply first_ch in Hf. left. exact Hf.
  - destruct (first_nil _ _ Hf).
  - destruct (first_nil _ _ Hf).
Qed.

Lemma restart_not_late g g' x : wf_grammar g -> Permutation g g' -> follow_code g (start g') x ->
  ~ late_empty g (follow_code g) -> ~ late_empty g' (follow_code g').
Proof.
  intros W P H0 L (n & s1 & s2 & b & H2 & Hn & Hf & H1). apply L.
  assert (P' : Permutation g' g) by (symmetry; exact P). pose proof (perm_wf _ _ P W) as W'.
  unfold ahead in Hf. destruct (Ascii.eqb b NUL) eqn:E.
  - apply Ascii.eqb_eq in E. subst b.
    assert (Hn1 : nullable g (seq_form s1)).
    { destruct H1 as [H1|H1]; [apply (perm_nullable _ _ P'), H1|]. exfalso.
      eapply first_alt_nul; [apply wf_nulfree, W'|exact (proj1 (two_alternatives_alt _ _ _ _ H2))|exact H1]. }
    pose proof (perm_follow_none g g' P x H0 _ _ Hf eq_refl) as Hx.
    destruct x as [c|].
    + exists n, s1, s2, c. split; [apply (perm_two _ _ P'), H2|]. split; [apply (perm_nullable _ _ P'), Hn|].
      split; [|left; exact Hn1]. unfold ahead. destruct (Ascii.eqb c NUL) eqn:Ec; [|exact Hx].
      apply Ascii.eqb_eq in Ec. subst c. destruct (follow_nulfree _ _ _ W Hx eq_refl).
    + exists n, s1, s2, NUL. split; [apply (perm_two _ _ P'), H2|]. split; [apply (perm_nullable _ _ P'), Hn|].
      split; [exact Hx|left; exact Hn1].
  - exists n, s1, s2, b. split; [apply (perm_two _ _ P'), H2|]. split; [apply (perm_nullable _ _ P'), Hn|].
    split; [unfold ahead; rewrite E; eapply perm_follow_some; [exact P'|exact Hf|reflexivity]|].
    destruct H1 as [H1|H1]; [left; apply (perm_nullable _ _ P'), H1|right; apply (perm_first _ _ P'), H1].
Qed.

Lemma sub_leaf u ty p q : subnode u (mk ty p q []) -> n_type u = ty.
Proof. unfold mk. intros H. inversion H as [|? ? ? ? c Hc]; subst; [reflexivity|destruct Hc]. Qed.

(** ** Sub-trees *)
Section Sub.
  Variable g : grammar.
  Variable tbl : table.
  Hypothesis W : wf_grammar g.
  Hypothesis T : table_spec g tbl.
  Hypothesis D : first_disjoint g.
  Variable src : bytes.

  (** A symbol that can start with the next byte takes it. *)
  Lemma takes_both :
    (forall op p t q, derives tbl src op p t q -> forall x, operand g x op ->
       p <= q /\ (first g (sym_form x) (byte_at src p) -> p < q)) /\
    (forall ops p ts q, derives_all tbl src ops p ts q -> forall s, operands g s ops ->
       p <= q /\ (first g (seq_form s) (byte_at src p) -> p < q)).
  Proof.
    apply (derives_both tbl src
      (fun op p t q _ => forall x, operand g x op -> p <= q /\ (first g (sym_form x) (byte_at src p) -> p < q))
      (fun ops p ts q _ => forall s, operands g s ops -> p <= q /\ (first g (seq_form s) (byte_at src p) -> p < q))).
    - intros t p Ht Ho x Hx. assert (0 < length t) by (destruct t; [congruence|cbn; lia]). lia.
    - intros p x Hx. inversion Hx; subst. split; [lia|]. intros H. destruct (first_nil _ _ H).
    - intros n ops p childs q Hn Hc Hne Hd IH x Hx. inversion Hx as [|m i Hi]; subst.
      destruct (cell_alternative g tbl W T D _ _ _ _ Hi Hc) as [(s & Ha & Hf & Ho & _)|[E _]]; [|congruence].
      destruct (IH s Ho) as [A B]. split; [exact A|]. intros _. apply B, Hf.
    - intros n p Hn Hc x Hx. inversion Hx as [|m i Hi]; subst. split; [lia|]. cbn. intros H. exfalso.
      destruct (cell_alternative g tbl W T D _ _ _ _ Hi Hc) as [(s & _ & _ & _ & E)|(_ & _ & _ & X)]; [congruence|].
      apply first_nt in H. destruct H as (s & Hs & Hf). exact (X _ Hs Hf).
    - intros p _ x Hx. inversion Hx. lia.
    - intros p _ _ x Hx. inversion Hx. lia.
    - intros p s Ho. inversion Ho; subst. split; [lia|]. intros H. destruct (first_nil _ _ H).
    - intros op ops p t m ts q Hd IH1 Hds IH2 s Ho. inversion Ho as [|x y l l' Hx Hl]; subst.
      destruct (IH1 _ Hx) as [A1 A2]. destruct (IH2 _ Hl) as [B1 B2]. split; [lia|].
      intros H. cbn [seq_form flat_map] in H. apply first_app in H. destruct H as [H|[_ H]]; [specialize (A2 H); lia|].
      destruct (Nat.eq_dec p m) as [<-|N]; [|lia]. apply B2, H.
  Qed.

  (** Each node of a rule is the derivation of that rule, and something can follow it. *)
  Definition placed (u : node) : Prop :=
    exists i m p q, n_type u = Z.of_nat i /\ derives tbl src (OpNonTerminal (Z.of_nat i)) p u q /\ q <= length src /\
      nth_error (heads g) i = Some m /\ exists y, follow_code g m y.

  Lemma next_follow A a B s m ts q y :
    alternative g A (a ++ SNonTerminal B :: s) -> follow_code g A y ->
    (exists ops, operands g s ops /\ derives_all tbl src ops m ts q) -> Forall (wf_symbol g) s -> m <= length src ->
    exists z, follow_code g B z.
  Proof.
    intros Ha Hf (ops & Ho & Hd) Hw Hm. destruct s as [|X s].
    - exists y. eapply fc_rule3; eassumption.
    - inversion Ho as [|x op l l' Hx Hl]; subst. inversion Hw as [|x0 l0 Hw1 Hw2]; subst.
      inversion Hd as [|op' ops' p t m' ts' q' H1 H2]; subst.
      destruct (proj1 (derives_derivation_both g tbl W T D src) _ _ _ _ H1 X Hx Hw1 Hm) as [Dv B1].
      destruct (proj1 (derivation_yields_both g src) _ _ _ _ Dv) as [Le Y].
      destruct (Nat.eq_dec m m') as [<-|N].
      + rewrite slice_empty in Y. exists y. eapply fc_rule4; eassumption.
      + destruct (slice_cons src m m') as (w & E); [lia|exact B1|]. rewrite E in Y.
        exists (Some (byte_at src m)). eapply fc_rule2; [exact Ha|]. exists (chars w). exact Y.
  Qed.

  Lemma placed_both :
    (forall op p t q, derives tbl src op p t q -> forall x, operand g x op -> wf_symbol g x -> p <= length src ->
       (forall B, x = SNonTerminal B -> exists y, follow_code g B y) ->
       forall u, subnode u t -> (0 <= n_type u)%Z -> placed u) /\
    (forall ops p ts q, derives_all tbl src ops p ts q -> forall A a s y,
       alternative g A (a ++ s) -> follow_code g A y -> operands g s ops -> Forall (wf_symbol g) s -> p <= length src ->
       forall u t, In t ts -> subnode u t -> (0 <= n_type u)%Z -> placed u).
  Proof.
    apply (derives_both tbl src
      (fun op p t q _ => forall x, operand g x op -> wf_symbol g x -> p <= length src ->
         (forall B, x = SNonTerminal B -> exists y, follow_code g B y) ->
         forall u, subnode u t -> (0 <= n_type u)%Z -> placed u)
      (fun ops p ts q _ => forall A a s y,
         alternative g A (a ++ s) -> follow_code g A y -> operands g s ops -> Forall (wf_symbol g) s -> p <= length src ->
         forall u t, In t ts -> subnode u t -> (0 <= n_type u)%Z -> placed u)).
    - intros t p Ht Ho x Hx Hw Hp Hy u Hu Ht0. apply sub_leaf in Hu. lia.
    - intros p x Hx Hw Hp Hy u Hu Ht0. inversion Hu as [E|ty p0 q0 l c Hc Hs]; subst; [cbn in Ht0; lia|].
      cbn in Hc; destruct Hc as [<-|[]]. apply sub_leaf in Hs. lia.
    - intros n ops p childs q Hn Hc Hne Hd IH x Hx Hw Hp Hy u Hu Ht0. inversion Hx as [|m i Hi]; subst.
      destruct (Hy m eq_refl) as (y & Fy).
      destruct (cell_alternative g tbl W T D _ _ _ _ Hi Hc) as [(s & Ha & Hf & Ho & _)|[E _]]; [|congruence].
      pose proof (alternative_operands g W _ _ _ Ha Ho Hne) as Hws.
      inversion Hu as [E|ty p0 q0 l c Hcc Hs]; subst.
      + exists i, m, p, q. split; [reflexivity|]. split; [econstructor; eassumption|].
        split; [eapply (proj2 (derives_derivation_both g tbl W T D src)); eassumption|]. split; [exact Hi|exists y; exact Fy].
      + eapply (IH m [] s y); eauto.
    - intros n p Hn Hc x Hx Hw Hp Hy u Hu Ht0. inversion Hx as [|m i Hi]; subst.
      destruct (Hy m eq_refl) as (y & Fy).
      inversion Hu as [E|ty p0 q0 l c Hcc Hs]; subst.
      + exists i, m, p, p. split; [reflexivity|]. split; [apply d_nonterminal_empty; assumption|]. eauto.
      + destruct Hcc as [<-|[]]. apply sub_leaf in Hs. lia.
    - intros p _ x Hx. inversion Hx. lia.
    - intros p _ _ x Hx. inversion Hx. lia.
    - intros p A a s y _ _ _ _ _ u t [].
    - intros op ops p t m ts q Hd IH1 Hds IH2 A a s y Ha Fy Ho Hw Hp u t0 Hin Hu Ht0.
      inversion Ho as [|x op' l l' Hx Hl]; subst. inversion Hw as [|x0 l0 Hw1 Hw2]; subst.
      destruct (proj1 (derives_derivation_both g tbl W T D src) _ _ _ _ Hd x Hx Hw1 Hp) as [_ Hm].
      destruct Hin as [<-|Hin].
      + eapply (IH1 x); eauto. intros B ->. eapply next_follow; [exact Ha|exact Fy| |exact Hw2|exact Hm]. eauto.
      + eapply (IH2 A (a ++ [x]) l y); eauto. rewrite <- app_assoc. exact Ha.
  Qed.

  Lemma sub_placed t q : derives tbl src (OpNonTerminal 0) 0 t q ->
    forall u, subnode u t -> (0 <= n_type u)%Z -> placed u.
  Proof.
    intros H. eapply (proj1 placed_both); [exact H|apply start_operand, W|apply start_defined, W|lia|].
    intros B E. injection E as <-. exists None. apply fc_rule1, W.
  Qed.

  (** ** Parsing the part from [p0] to [qe] *)
  Variable g' : grammar.
  Variable tbl' : table.
  Hypothesis P : Permutation g g'.
  Hypothesis T' : table_spec g' tbl'.
  Hypothesis Nul : ~ In NUL src.
  Variables p0 qe : nat.
  Hypothesis Lp : p0 <= qe.
  Hypothesis Lq : qe <= length src.
  Variables names names' : list (Z * bytes).
  Hypothesis Nm : forall i, map_get Z.eqb (Z.of_nat i) names = nth_error (heads g) i.
  Hypothesis Nm' : forall i, map_get Z.eqb (Z.of_nat i) names' = nth_error (heads g') i.

  Let part := slice_nat src p0 qe.
  Let idn := fun n : bytes => n.
  Let W' : wf_grammar g' := perm_wf _ _ P W.
  Let D' : first_disjoint g' := perm_disjoint _ _ P D.

  Lemma part_byte k : k < qe - p0 -> byte_at part k = byte_at src (p0 + k).
  Proof.
    intros H. unfold part, slice_nat, byte_at.
    assert (L : k < length (firstn (qe - p0) (skipn p0 src))) by (rewrite firstn_length, skipn_length; lia).
    transitivity (nth k (skipn p0 src) NUL).
    - rewrite <- (firstn_skipn (qe - p0) (skipn p0 src)) at 2. rewrite app_nth1; [reflexivity|exact L].
    - rewrite <- (firstn_skipn p0 src) at 2. rewrite app_nth2; rewrite firstn_length; [|lia]. f_equal. lia.
  Qed.
  Lemma part_end : byte_at part (qe - p0) = NUL.
  Proof. unfold byte_at. apply nth_overflow. unfold part, slice_nat. rewrite firstn_length. lia. Qed.

  Lemma idn_seq s : map (rename_symbol idn) s = s.
  Proof. rewrite <- map_id. apply map_ext. intros []; reflexivity. Qed.
  Lemma ops_corr s ops ops' : operands g s ops -> operands g' s ops' -> Forall2 (corr_op idn g g') ops ops'.
  Proof. intros H H'. eapply operands_corr; [exact H|]. rewrite idn_seq. exact H'. Qed.

  (** In front of the end the same alternative is taken, at the end none. *)
  Lemma part_cell a k n p q ops : p0 <= p -> q <= qe -> p <= q ->
    nth_error (heads g) a = Some n -> nth_error (heads g') k = Some n ->
    cell tbl (Z.of_nat a) (byte_at src p) ops ->
    (ops = [] -> p = q) -> (ops <> [] -> p < q) -> (q = qe -> follow_code g' n None) ->
    exists ops', cell tbl' (Z.of_nat k) (byte_at part (p - p0)) ops' /\
      ((ops = [] /\ ops' = []) \/
       ops <> [] /\ ops' <> [] /\ exists s, alternative g n s /\ operands g s ops /\ operands g' s ops').
  Proof.
    intros L1 L2 L3 Hi Hj Hc E0 E1 Hf.
    destruct (Nat.eq_dec p qe) as [->|N].
    - rewrite part_end. assert (ops = []) as -> by (destruct ops; [reflexivity|specialize (E1 ltac:(discriminate)); lia]).
      assert (q = qe) by lia. subst q. specialize (Hf eq_refl).
      destruct (cell_alternative g tbl W T D a n _ _ Hi Hc) as [(s & _ & _ & _ & E)|(_ & Hn & _ & _)]; [congruence|].
      destruct (cell_total g' tbl' W' T' k n NUL Hj) as [(ops' & Hc')|(_ & _ & _ & _ & Y)].
      + exists ops'. split; [exact Hc'|left; split; [reflexivity|]].
        destruct (cell_alternative g' tbl' W' T' D' k n _ _ Hj Hc') as [(s & Ha & Hf' & _)|(-> & _)]; [|reflexivity].
        exfalso. eapply first_alt_nul; [apply wf_nulfree, W'|exact Ha|exact Hf'].
      + exfalso. apply Y. split; [apply (perm_nullable _ _ P), Hn|exact Hf].
    - rewrite part_byte by lia. replace (p0 + (p - p0)) with p by lia.
      assert (Hb : byte_at src p <> NUL). { intros E. apply byte_at_nulfree in E; [lia|exact Nul|lia]. }
      assert (Ah : ahead (byte_at src p) = Some (byte_at src p)).
      { unfold ahead. destruct (Ascii.eqb (byte_at src p) NUL) eqn:E; [apply Ascii.eqb_eq in E; congruence|reflexivity]. }
      destruct (cell_total g' tbl' W' T' k n (byte_at src p) Hj) as [(ops' & Hc')|(_ & _ & _ & X & Y)].
      + exists ops'. split; [exact Hc'|].
        destruct (cell_alternative g tbl W T D a n _ ops Hi Hc) as [(s & Ha & Hfi & Ho & Hne)|(-> & Hn & Hfo & Hno)];
        destruct (cell_alternative g' tbl' W' T' D' k n _ ops' Hj Hc') as [(s' & Ha' & Hf' & Ho' & Hne')|(-> & Hn' & Hfo' & Hno')].
        * right. split; [exact Hne|]. split; [exact Hne'|]. exists s. split; [exact Ha|]. split; [exact Ho|].
          replace s with s'; [exact Ho'|]. apply (perm_alternative _ _ P) in Ha'. apply (perm_first _ _ P) in Hf'.
          destruct (sequence_dec s' s) as [E|Ns]; [exact E|exfalso].
          destruct (alt_pair g n _ _ (wf_distinct _ W) Ha' Ha Ns) as [Q|Q]; eapply D; [exact Q|exact Hf'|exact Hfi|exact Q|exact Hfi|exact Hf'].
        * destruct (Hno' s); [apply (perm_alternative _ _ P), Ha|apply (perm_first _ _ P), Hfi].
        * destruct (Hno s'); [apply (perm_alternative _ _ P), Ha'|apply (perm_first _ _ P), Hf'].
        * left. auto.
      + exfalso.
        destruct (cell_alternative g tbl W T D a n _ ops Hi Hc) as [(s & Ha & Hfi & Ho & Hne)|(-> & Hn & Hfo & Hno)].
        * apply (X s); [apply (perm_alternative _ _ P), Ha|apply (perm_first _ _ P), Hfi].
        * apply Y. split; [apply (perm_nullable _ _ P), Hn|]. rewrite Ah in *. eapply perm_follow_some; [exact P|exact Hfo|reflexivity].
  Qed.

  Lemma moved_mk ty p q l : p0 <= p -> p <= q ->
    moved (Z.of_nat p0) (mk ty p q l) = mk ty (p - p0) (q - p0) (map (moved (Z.of_nat p0)) l).
  Proof. intros. unfold mk. cbn [moved]. f_equal; lia. Qed.
  Lemma same_row_at a k n p q l l' : p0 <= p -> p <= q ->
    nth_error (heads g) a = Some n -> nth_error (heads g') k = Some n ->
    same_trees idn names names' (map (moved (Z.of_nat p0)) l) l' ->
    same_tree idn names names' (moved (Z.of_nat p0) (mk (Z.of_nat a) p q l)) (mk (Z.of_nat k) (p - p0) (q - p0) l').
  Proof.
    intros L1 L2 Hi Hj Hl. rewrite moved_mk by assumption. constructor; [right|exact Hl].
    exists n. rewrite Nm, Nm'. repeat split; auto; lia.
  Qed.
  Lemma same_nothing_at p : p0 <= p ->
    same_trees idn names names' (map (moved (Z.of_nat p0)) [nothing_at p]) [nothing_at (p - p0)].
  Proof.
    intros L. cbn [map]. unfold nothing_at. rewrite moved_mk by lia. constructor; [|constructor].
    apply same_builtin; [lia|constructor].
  Qed.

  Lemma part_derives :
    (forall op p t q, derives tbl src op p t q -> forall x op', operand g x op -> wf_symbol g x -> corr_op idn g g' op op' ->
       p0 <= p -> q <= qe -> (q = qe -> forall B, x = SNonTerminal B -> follow_code g' B None) ->
       exists t', derives tbl' part op' (p - p0) t' (q - p0) /\
         same_tree idn names names' (moved (Z.of_nat p0) t) t') /\
    (forall ops p ts q, derives_all tbl src ops p ts q -> forall A a s ops',
       alternative g A (a ++ s) -> operands g s ops -> Forall (wf_symbol g) s -> Forall2 (corr_op idn g g') ops ops' ->
       p0 <= p -> q <= qe -> (q = qe -> follow_code g' A None) ->
       exists ts', derives_all tbl' part ops' (p - p0) ts' (q - p0) /\
         same_trees idn names names' (map (moved (Z.of_nat p0)) ts) ts').
  Proof.
    apply (derives_both tbl src
      (fun op p t q _ => forall x op', operand g x op -> wf_symbol g x -> corr_op idn g g' op op' ->
         p0 <= p -> q <= qe -> (q = qe -> forall B, x = SNonTerminal B -> follow_code g' B None) ->
         exists t', derives tbl' part op' (p - p0) t' (q - p0) /\
           same_tree idn names names' (moved (Z.of_nat p0) t) t')
      (fun ops p ts q _ => forall A a s ops',
         alternative g A (a ++ s) -> operands g s ops -> Forall (wf_symbol g) s -> Forall2 (corr_op idn g g') ops ops' ->
         p0 <= p -> q <= qe -> (q = qe -> follow_code g' A None) ->
         exists ts', derives_all tbl' part ops' (p - p0) ts' (q - p0) /\
           same_trees idn names names' (map (moved (Z.of_nat p0)) ts) ts')).
    - intros t p Ht Ho x op' Hx Hw Co L1 L2 Hf. inversion Co; subst.
      exists (literal_at (p - p0) (p - p0 + length t)). split.
      + replace (p + length t - p0) with (p - p0 + length t) by lia. apply d_terminal; [exact Ht|].
        intros i Hi. rewrite part_byte by lia. rewrite <- (Ho i Hi). f_equal. lia.
      + unfold literal_at. rewrite moved_mk by lia. replace (p + length t - p0) with (p - p0 + length t) by lia.
        apply same_builtin; [lia|constructor].
    - intros p x op' Hx Hw Co L1 L2 Hf. inversion Co; subst. eexists. split; [apply d_terminal_empty|].
      rewrite moved_mk by lia. apply same_builtin; [lia|apply same_nothing_at, L1].
    - intros n ops p childs q Hn Hc Hne Hd IH x op' Hx Hw Co L1 L2 Hf.
      inversion Hx as [|m i Hi]; subst.
      inversion Co as [|i1 j (a1 & k & m' & E1 & -> & Ha1 & Hk)]; subst. apply Nat2Z.inj in E1. subst a1.
      rewrite Hi in Ha1. injection Ha1 as <-. unfold idn in Hk.
      destruct (cell_alternative g tbl W T D _ _ _ _ Hi Hc) as [(s & Ha & Hfi & Ho & _)|[E _]]; [|congruence].
      destruct (proj2 takes_both _ _ _ _ Hd s Ho) as [Le Lt]. specialize (Lt Hfi).
      destruct (part_cell i k m p q ops L1 L2 Le Hi Hk Hc) as (ops' & Hc' & [[E _]|(_ & Hne' & s1 & Ha1 & Ho1 & Ho1')]);
        [congruence|intros _; exact Lt|intros E; exact (Hf E m eq_refl)|congruence|].
      destruct (IH m [] s1 ops') as (ts' & Hd' & Hs);
        [exact Ha1|exact Ho1|eapply alternative_operands; eassumption|eapply ops_corr; eassumption|exact L1|exact L2|
         intros E; exact (Hf E m eq_refl)|].
      eexists. split; [apply (d_nonterminal _ _ _ ops'); [lia|exact Hc'|exact Hne'|exact Hd']|].
      apply (same_row_at _ _ m); assumption.
    - intros n p Hn Hc x op' Hx Hw Co L1 L2 Hf.
      inversion Hx as [|m i Hi]; subst.
      inversion Co as [|i1 j (a1 & k & m' & E1 & -> & Ha1 & Hk)]; subst. apply Nat2Z.inj in E1. subst a1.
      rewrite Hi in Ha1. injection Ha1 as <-. unfold idn in Hk.
      destruct (part_cell i k m p p [] L1 L2 (le_n _) Hi Hk Hc) as (ops' & Hc' & [[_ ->]|(E & _)]);
        [reflexivity|congruence|intros E; exact (Hf E m eq_refl)| |congruence].
      eexists. split; [apply d_nonterminal_empty; [lia|exact Hc']|].
      apply (same_row_at _ _ m); auto. apply same_nothing_at, L1.
    - intros p _ x op' Hx. inversion Hx. lia.
    - intros p _ _ x op' Hx. inversion Hx. lia.
    - intros p A a s ops' _ _ _ Co L1 L2 _. inversion Co; subst. eexists. split; constructor.
    - intros op ops p t m ts q Hd IH1 Hds IH2 A a s ops' Ha Ho Hw Co L1 L2 Hf.
      inversion Ho as [|x op1 l l' Hx Hl]; subst. inversion Hw as [|x0 l0 Hw1 Hw2]; subst.
      inversion Co as [|op2 op' ops2 ops'' Co1 Co2]; subst.
      destruct (proj1 takes_both _ _ _ _ Hd x Hx) as [Le _]. destruct (proj2 takes_both _ _ _ _ Hds l Hl) as [Le' _].
      destruct (IH1 x op' Hx Hw1 Co1 L1) as (t' & X1 & X2); [lia| |].
      + intros -> B ->. assert (q = qe) by lia. subst q. specialize (Hf eq_refl).
        apply (perm_alternative _ _ P) in Ha.
        destruct l as [|X l]; [eapply fc_rule3; eassumption|]. eapply fc_rule4; [exact Ha| |exact Hf].
        inversion Hl as [|x2 op3 l2 l2' Hx2 Hl2]; subst. inversion Hw2; subst.
        inversion Hds as [|op9 ops9 p9 t1 m' ts9 q9 H1b H2b]; subst.
        destruct (proj1 takes_both _ _ _ _ H1b X Hx2) as [Le1 _]. destruct (proj2 takes_both _ _ _ _ H2b l Hl2) as [Le2 _].
        assert (m' = qe) by lia. subst m'.
        destruct (proj1 (derives_derivation_both g tbl W T D src) _ _ _ _ H1b X Hx2) as [Dv _]; [assumption|lia|].
        destruct (proj1 (derivation_yields_both g src) _ _ _ _ Dv) as [_ Y]. rewrite slice_empty in Y.
        apply (perm_nullable _ _ P), Y.
      + destruct (IH2 A (a ++ [x]) l ops'') as (ts' & Y1 & Y2); auto; [rewrite <- app_assoc; exact Ha|lia|].
        exists (t' :: ts'). split; [econstructor; eassumption|]. cbn [map]. constructor; assumption.
  Qed.
End Sub.

Lemma accepted_not_late order fuel g tbl names :
  wf_grammar g -> FromGrammar_order order fuel g = Ok (tbl, names) -> ~ late_empty g (follow_code g).
Proof.
  intros W E. pose proof (wf_nulfree _ W) as Nf. pose proof (wf_distinct _ W) as Nd.
  intros (n & s1 & s2 & b & (r & l1 & l2 & l3 & Hin & <- & Et) & H2 & Hb & H1).
  destruct (FromGrammar_generated _ _ _ _ _ E) as (firsts & follows & Ef & Eo & G & _).
  pose proof (findFirsts_exact _ _ _ Nd Nf Ef) as FE.
  pose proof (findFollows_exact _ _ _ _ Nd Nf FE Eo) as FO.
  apply In_nth_error in Hin. destruct Hin as (i & Hi).
  destruct (gn_rows _ _ _ _ G i r Hi) as (rw & fol & _ & Hfol & _ & Hcl & _).
  apply Hcl. apply (clash_exact g firsts follows Nf FE _ (fo_rules _ _ FO) i r fol Hi Hfol).
  exists l1, s1, l2, s2, l3, b. auto.
Qed.

(** The part of the text below a node, parsed from the rule of the node. *)
Lemma part_parses g tbl src g' tbl' names names' i m p u q :
  wf_grammar g -> table_spec g tbl -> first_disjoint g -> Permutation g g' -> table_spec g' tbl' -> ~ In NUL src ->
  (forall i, map_get Z.eqb (Z.of_nat i) names = nth_error (heads g) i) ->
  (forall i, map_get Z.eqb (Z.of_nat i) names' = nth_error (heads g') i) ->
  derives tbl src (OpNonTerminal (Z.of_nat i)) p u q -> q <= length src ->
  nth_error (heads g) i = Some m -> start g' = m ->
  exists t', derives_text tbl' (slice_nat src p q) t' /\
    same_tree (fun n => n) names names' (moved (Z.of_nat p) u) t'.
Proof.
  intros W T D P T' Nul Nm Nm' Hd Hq Hi Hs.
  assert (Ho : operand g (SNonTerminal m) (OpNonTerminal (Z.of_nat i))) by (constructor; exact Hi).
  destruct (proj1 (takes_both g tbl W T D src) _ _ _ _ Hd _ Ho) as [Le _].
  assert (Ne : g' <> []) by (apply (perm_wf _ _ P W)).
  destruct (proj1 (part_derives g tbl W T D src g' tbl' P T' Nul p q Le Hq names names' Nm Nm') _ _ _ _ Hd
    (SNonTerminal m) (OpNonTerminal 0) Ho) as (t' & H1 & H2).
  - cbn. eapply nth_error_In, Hi.
  - constructor. exists i, 0, m. split; [reflexivity|]. split; [reflexivity|]. split; [exact Hi|].
    destruct g'; [congruence|]. cbn in *. congruence.
  - lia.
  - lia.
  - intros _ B E. injection E as <-. rewrite <- Hs. apply fc_rule1, Ne.
  - rewrite Nat.sub_diag in H1. exists t'. split; [|exact H2]. exists (q - p). split; [exact H1|].
    unfold byte_at. apply nth_overflow. unfold slice_nat. rewrite firstn_length. lia.
Qed.
