(** * Helper: helper rules change neither words nor LL(1) nor trees. *)
From Verif Require Import Base Ast Cst Parser Spec_Parse Spec_Tree Spec_Grammar Spec_ParseTree Spec_Helper
  GrammarProofs TGFirsts ConvertProofs.

Lemma beq_refl n : bytes_eqb n n = true.
Proof. apply bytes_eqb_eq. reflexivity. Qed.
Lemma beq_ne n h : n <> h -> bytes_eqb n h = false.
Proof. intros H. destruct (bytes_eqb n h) eqn:E; [|reflexivity]. apply bytes_eqb_eq in E. contradiction. Qed.

Scheme ptree_ind2 := Induction for ptree Sort Prop
  with ptrees_ind2 := Induction for ptrees Sort Prop.
Combined Scheme ptree_both from ptree_ind2, ptrees_ind2.

Lemma inline_app h u a b : inline h u (a ++ b) = inline h u a ++ inline h u b.
Proof. apply flat_map_app. Qed.
Lemma inline_free h u s : ~ In (SNonTerminal h) s -> inline h u s = s.
Proof.
  induction s as [|x s IH]; intros H; [reflexivity|]. cbn [inline flat_map]. fold (inline h u s).
  rewrite IH by (intros X; apply H; right; exact X). destruct x as [n|t| |str]; try reflexivity.
  cbn [inline_symbol]. rewrite beq_ne; [reflexivity|]. intros ->. apply H. left. reflexivity.
Qed.
Lemma wf_seq_free g s h : wf_sequence g s -> ~ defined g h -> ~ In (SNonTerminal h) s.
Proof.
  intros [->|[_ W]] N H; [destruct H as [H|[]]; discriminate|]. rewrite Forall_forall in W. apply N, (W _ H).
Qed.

(** ** Forms *)
Definition inl_sym (h : bytes) (u : sequence) (x : gsym) : form :=
  match x with NT n => if bytes_eqb n h then seq_form u else [x] | Ch _ => [x] end.
Definition inl (h : bytes) (u : sequence) (v : form) : form := flat_map (inl_sym h u) v.
Lemma inl_app h u a b : inl h u (a ++ b) = inl h u a ++ inl h u b.
Proof. apply flat_map_app. Qed.
Lemma inl_chars h u w : inl h u (chars w) = chars w.
Proof. induction w as [|c w IH]; [reflexivity|]. cbn. unfold chars in IH. rewrite <- IH at 2. reflexivity. Qed.
Lemma inl_seq h u s : inl h u (seq_form s) = seq_form (inline h u s).
Proof.
  induction s as [|x s IH]; [reflexivity|]. cbn [seq_form flat_map inline]. fold (seq_form s) (inline h u s).
  rewrite inl_app, IH, seq_form_app. f_equal. destruct x as [n|t| |str]; try reflexivity.
  - cbn. rewrite app_nil_r. destruct (bytes_eqb n h); [reflexivity|]. reflexivity.
  - cbn. rewrite app_nil_r. apply inl_chars.
Qed.
Lemma inl_nt h u n : n <> h -> inl h u [NT n] = [NT n].
Proof. intros H. cbn. rewrite (beq_ne _ _ H). reflexivity. Qed.
Lemma inl_cons_nt h u n v : n <> h -> inl h u (NT n :: v) = NT n :: inl h u v.
Proof. intros H. cbn. rewrite (beq_ne _ _ H). reflexivity. Qed.

Section One.
  Variables (g g0 : grammar) (h : bytes) (u : sequence).
  Hypothesis G : g = map (inline_rule h u) g0.
  Hypothesis New : ~ defined g h.
  Hypothesis Wu : wf_sequence g u.
  Notation g' := (g0 ++ [mkRule h [u]]).

  Lemma heads_g0 : heads g0 = heads g.
  Proof. rewrite G. unfold heads. rewrite map_map. reflexivity. Qed.
  Lemma heads_g' : heads g' = heads g ++ [h].
  Proof. unfold heads. rewrite map_app. fold (heads g0). rewrite heads_g0. reflexivity. Qed.
  Lemma u_free : ~ In (SNonTerminal h) u.
  Proof. exact (wf_seq_free _ _ _ Wu New). Qed.
  Lemma not_h n : defined g n -> n <> h.
  Proof. intros D ->. exact (New D). Qed.

  Lemma alt_down n s : alternative g' n s -> (n <> h /\ alternative g n (inline h u s)) \/ (n = h /\ s = u).
  Proof.
    intros (r & Hr & <- & Hs). apply in_app_or in Hr. destruct Hr as [Hr|[<-|[]]].
    - left. assert (A : alternative g (r_head r) (inline h u s)).
      { exists (inline_rule h u r). rewrite G. split; [apply in_map, Hr|]. split; [reflexivity|]. cbn. apply in_map, Hs. }
      split; [|exact A]. destruct A as (r' & Hr' & E & _). apply not_h. rewrite <- E. apply in_map, Hr'.
    - right. cbn in *. destruct Hs as [<-|[]]. auto.
  Qed.
  Lemma alt_up n s : alternative g n s -> n <> h /\ exists s', s = inline h u s' /\ alternative g' n s'.
  Proof.
    intros (r & Hr & <- & Hs). split; [apply not_h, in_map, Hr|]. rewrite G in Hr. apply in_map_iff in Hr.
    destruct Hr as (r0 & <- & Hr). cbn in Hs. apply in_map_iff in Hs. destruct Hs as (s' & <- & Hs).
    exists s'. split; [reflexivity|]. exists r0. split; [apply in_or_app; left; exact Hr|]. split; [reflexivity|exact Hs].
  Qed.
  Lemma alt_helper : alternative g' h u.
  Proof. exists (mkRule h [u]). split; [apply in_or_app; right; left; reflexivity|]. split; [reflexivity|left; reflexivity]. Qed.

  Lemma down1 v w : yields1 g' v w -> yields g (inl h u v) (inl h u w).
  Proof.
    intros [a n s b A]. rewrite !inl_app. destruct (alt_down n s A) as [(N & A')|(-> & ->)].
    - rewrite inl_seq, inl_cons_nt by exact N. apply yields_one. constructor. exact A'.
    - rewrite inl_seq, (inline_free _ _ _ u_free). cbn [inl flat_map inl_sym]. rewrite beq_refl. constructor.
  Qed.
  Lemma down v w : yields g' v w -> yields g (inl h u v) (inl h u w).
  Proof. induction 1 as [v|v w x H _ IH]; [constructor|]. eapply yields_trans; [apply down1, H|exact IH]. Qed.
  Lemma expand v : yields g' v (inl h u v).
  Proof.
    induction v as [|x v IH]; [constructor|]. change (x :: v) with ([x] ++ v). rewrite inl_app. apply yields_app; [|exact IH].
    cbn. rewrite app_nil_r. destruct x as [n|c]; [|constructor]. cbn. destruct (bytes_eqb n h) eqn:E; [|constructor].
    apply bytes_eqb_eq in E. subst n. apply yields_alt, alt_helper.
  Qed.
  Lemma up1 v w : yields1 g v w -> yields g' v w.
  Proof.
    intros [a n s b A]. destruct (alt_up n s A) as (_ & s' & -> & A'). rewrite <- inl_seq.
    eapply yields_trans; [apply yields_one, y1, A'|]. apply (yields_ctx g' a b), expand.
  Qed.
  Lemma up v w : yields g v w -> yields g' v w.
  Proof. induction 1 as [v|v w x H _ IH]; [constructor|]. eapply yields_trans; [apply up1, H|exact IH]. Qed.

  Lemma h_first v c : first g' v c <-> first g (inl h u v) c.
  Proof.
    split.
    - intros (w & H). apply down in H. exists (inl h u w). exact H.
    - intros (w & H). exists w. eapply yields_trans; [apply expand|apply up, H].
  Qed.
  Lemma h_nullable v : nullable g' v <-> nullable g (inl h u v).
  Proof.
    split; intros H; [apply down in H; exact H|]. eapply yields_trans; [apply expand|apply up, H].
  Qed.

  Hypothesis Ne : g <> [].
  Lemma g0_ne : g0 <> [].
  Proof. intros E. apply Ne. rewrite G, E. reflexivity. Qed.
  Lemma h_start : start g' = start g.
  Proof. pose proof g0_ne as N. rewrite G. clear -N. destruct g0 as [|r l]; [destruct (N eq_refl)|reflexivity]. Qed.
  Lemma start_defined : defined g (start g).
  Proof. revert Ne. unfold defined. clear. destruct g; [contradiction|]. left. reflexivity. Qed.
  Lemma start_ne : start g <> h.
  Proof. apply not_h, start_defined. Qed.

  Lemma h_word w : word g' w <-> word g w.
  Proof.
    unfold word. rewrite h_start. split; intros (_ & H).
    - split; [exact Ne|]. apply down in H. rewrite inl_chars, inl_nt in H by exact start_ne. exact H.
    - split; [destruct g0; discriminate|]. apply up, H.
  Qed.
  Lemma h_follow n x : n <> h -> (follow g' n x <-> follow g n x).
  Proof.
    intros N. unfold follow. rewrite h_start. destruct x as [c|].
    - split.
      + intros (a & b & H). apply down in H. rewrite inl_app, inl_nt, inl_cons_nt in H by (exact N || exact start_ne).
        exists (inl h u a), (inl h u b). exact H.
      + intros (a & b & H). exists a, b. apply up, H.
    - split.
      + intros (a & H). apply down in H. rewrite inl_app, !inl_nt in H by (exact N || exact start_ne).
        exists (inl h u a). exact H.
      + intros (a & H). exists a. apply up, H.
  Qed.
  Lemma two_down n s1 s2 : two_alternatives g' n s1 s2 -> n <> h /\ two_alternatives g n (inline h u s1) (inline h u s2).
  Proof.
    intros (r & l1 & l2 & l3 & Hr & <- & E). apply in_app_or in Hr. destruct Hr as [Hr|[<-|[]]].
    - assert (I : In (inline_rule h u r) g) by (rewrite G; apply in_map, Hr).
      split; [apply not_h, (in_map r_head _ _ I)|]. exists (inline_rule h u r), (map (inline h u) l1), (map (inline h u) l2), (map (inline h u) l3).
      split; [exact I|]. split; [reflexivity|]. cbn. rewrite E, map_app. cbn. rewrite map_app. reflexivity.
    - cbn in E. destruct l1 as [|? l1]; [|destruct l1; discriminate]. injection E as _ E. destruct l2; discriminate.
  Qed.
  Lemma two_up n s1 s2 : two_alternatives g n s1 s2 -> n <> h /\ exists s1' s2',
    s1 = inline h u s1' /\ s2 = inline h u s2' /\ two_alternatives g' n s1' s2'.
  Proof.
    intros (r & l1 & l2 & l3 & Hr & <- & E). split; [apply not_h, in_map, Hr|]. rewrite G in Hr. apply in_map_iff in Hr.
    destruct Hr as (r0 & <- & Hr). cbn in E. apply map_eq_app in E. destruct E as (k1 & k2 & E & _ & E2).
    destruct k2 as [|s1' k2]; [discriminate|]. injection E2 as <- E2. apply map_eq_app in E2. destruct E2 as (k3 & k4 & -> & _ & E4).
    destruct k4 as [|s2' k4]; [discriminate|]. injection E4 as <- _. exists s1', s2'. split; [reflexivity|]. split; [reflexivity|].
    exists r0, k1, k3, k4. split; [apply in_or_app; left; exact Hr|]. split; [reflexivity|exact E].
  Qed.
  Lemma h_LL1 : LL1 g' <-> LL1 g.
  Proof.
    split; intros [D E F]; split.
    - intros n s1 s2 c T F1 F2. destruct (two_up _ _ _ T) as (_ & s1' & s2' & -> & -> & T').
      rewrite <- inl_seq, <- h_first in F1, F2. exact (D _ _ _ _ T' F1 F2).
    - intros n s1 s2 T F1 F2. destruct (two_up _ _ _ T) as (_ & s1' & s2' & -> & -> & T').
      rewrite <- inl_seq, <- h_nullable in F1, F2. exact (E _ _ _ T' F1 F2).
    - intros n s1 s2 c T Fo. destruct (two_up _ _ _ T) as (N & s1' & s2' & -> & -> & T').
      rewrite <- !inl_seq, <- !h_first, <- !h_nullable. apply (F n); [exact T'|]. apply h_follow; assumption.
    - intros n s1 s2 c T F1 F2. destruct (two_down _ _ _ T) as (_ & T').
      rewrite h_first, inl_seq in F1, F2. exact (D _ _ _ _ T' F1 F2).
    - intros n s1 s2 T F1 F2. destruct (two_down _ _ _ T) as (_ & T').
      rewrite h_nullable, inl_seq in F1, F2. exact (E _ _ _ T' F1 F2).
    - intros n s1 s2 c T Fo. destruct (two_down _ _ _ T) as (N & T').
      rewrite !h_first, !h_nullable, !inl_seq. apply (F n); [exact T'|]. apply h_follow; assumption.
  Qed.
  Lemma h_reachable m : reachable g m -> reachable g' m.
  Proof. intros (a & b & H). exists a, b. rewrite h_start. apply up, H. Qed.

  Lemma h_wf : wf_grammar g -> wf_grammar g'.
  Proof.
    intros [_ Nd Ws].
    assert (Df : forall n, defined g n -> defined g' n).
    { intros n H. unfold defined. rewrite heads_g'. apply in_or_app. left. exact H. }
    assert (Dh : defined g' h) by (unfold defined; rewrite heads_g'; apply in_or_app; right; left; reflexivity).
    split.
    - destruct g0; discriminate.
    - rewrite heads_g'. apply (Permutation.Permutation_NoDup (Permutation.Permutation_cons_append _ _)).
      constructor; [exact New|exact Nd].
    - assert (Sym : forall x, wf_symbol g x -> wf_symbol g' x).
      { intros [n|t| |str]; cbn; auto. }
      assert (Seq : forall s, wf_sequence g s -> wf_sequence g' s).
      { intros s [->|[N W]]; [left; reflexivity|]. right. split; [exact N|]. eapply Forall_impl; [|exact W]. exact Sym. }
      intros n s A. destruct (alt_down n s A) as [(N & A')|(-> & ->)]; [|apply Seq, Wu].
      apply Ws in A'.
      assert (Une : u <> []) by (destruct Wu as [->|[X _]]; [discriminate|exact X]).
      assert (Long : forall x, inline_symbol h u x <> []).
      { intros [m|t| |str]; cbn; try discriminate. destruct (bytes_eqb m h); [exact Une|discriminate]. }
      destruct A' as [E|[Ni W]].
      + destruct s as [|x s]; [discriminate|]. cbn [inline flat_map] in E. fold (inline h u s) in E.
        assert (S0 : s = []).
        { destruct s as [|y s]; [reflexivity|]. cbn [inline flat_map] in E. specialize (Long y) as Ly. specialize (Long x).
          destruct (inline_symbol h u x) as [|a l]; [contradiction|]. destruct (inline_symbol h u y) as [|b l']; [contradiction|].
          destruct l; discriminate. }
        subst s. cbn in E. rewrite app_nil_r in E. destruct x as [m|t| |str]; cbn in E; try discriminate; [|left; reflexivity].
        destruct (bytes_eqb m h) eqn:Em; [|discriminate]. apply bytes_eqb_eq in Em. subst m. right. split; [discriminate|].
        constructor; [exact Dh|constructor].
      + right. split; [intros ->; apply Ni; reflexivity|]. apply Forall_forall. intros x Hx. rewrite Forall_forall in W.
        destruct x as [m|t| |str].
        * destruct (bytes_eq_dec m h) as [->|Nm]; [exact Dh|]. apply Sym, W. apply in_flat_map. exists (SNonTerminal m).
          split; [exact Hx|]. cbn. rewrite (beq_ne _ _ Nm). left. reflexivity.
        * apply Sym, W. apply in_flat_map. exists (STerminal t). split; [exact Hx|left; reflexivity].
        * apply Sym, W. apply in_flat_map. exists SNothing. split; [exact Hx|left; reflexivity].
        * apply Sym, W. apply in_flat_map. exists (SUnknown str). split; [exact Hx|left; reflexivity].
  Qed.

  (** ** Trees *)
  Variable src : bytes.
  Notation k := (Z.of_nat (length g)).
  Lemma heads_len : length (heads g) = length g.
  Proof. apply map_length. Qed.
  Lemma trees_down :
    (forall x p t q, ptree g' src x p t q -> ptrees g src (inline_symbol h u x) p (splice k t) q) /\
    (forall s p l q, ptrees g' src s p l q -> ptrees g src (inline h u s) p (flat_map (splice k) l) q).
  Proof.
    apply (ptree_both g' src (fun x p t q _ => ptrees g src (inline_symbol h u x) p (splice k t) q)
                             (fun s p l q _ => ptrees g src (inline h u s) p (flat_map (splice k) l) q)).
    - intros t p N E. cbn [inline_symbol literal_at mk splice flat_map].
      destruct (k <=? -1)%Z eqn:Ek; [apply Z.leb_le in Ek; lia|]. econstructor; [apply pt_terminal; assumption|constructor].
    - intros p. cbn [inline_symbol nothing_at mk splice flat_map].
      destruct (k <=? -2)%Z eqn:Ek; [apply Z.leb_le in Ek; lia|]. econstructor; [apply pt_nothing|constructor].
    - intros i n s p childs q Hi A _ IH. unfold mk. cbn [splice inline_symbol].
      rewrite heads_g' in Hi. destruct (Nat.lt_ge_cases i (length g)) as [L|L].
      + rewrite nth_error_app1 in Hi by (rewrite heads_len; exact L).
        assert (N : n <> h) by (apply not_h; eapply nth_error_In, Hi).
        rewrite (beq_ne _ _ N). destruct (alt_down n s A) as [(_ & A')|(E & _)]; [|contradiction].
        destruct (k <=? Z.of_nat i)%Z eqn:Ek; [apply Z.leb_le in Ek; lia|].
        econstructor; [|constructor]. eapply pt_rule; eassumption.
      + rewrite nth_error_app2 in Hi by (rewrite heads_len; exact L). rewrite heads_len in Hi.
        destruct (i - length g) as [|d] eqn:Ed; [|destruct d; discriminate]. injection Hi as <-. rewrite beq_refl.
        destruct (alt_down h s A) as [(X & _)|(_ & ->)]; [contradiction|].
        destruct (k <=? Z.of_nat i)%Z eqn:Ek; [|apply Z.leb_gt in Ek; lia].
        rewrite (inline_free _ _ _ u_free) in IH. exact IH.
    - intros p. constructor.
    - intros x s p t m ts q _ H1 _ H2. cbn [inline flat_map]. fold (inline h u s).
      revert H1 H2. generalize (inline_symbol h u x) (splice k t) (inline h u s) (flat_map (splice k) ts). clear.
      intros a la b lb Ha Hb. induction Ha as [p|x s p t m' ts q' H1 H2 IH]; [exact Hb|].
      cbn. econstructor; [exact H1|apply IH, Hb].
  Qed.
  Lemma ptrees_split gr a : forall b p l q, ptrees gr src (a ++ b) p l q ->
    exists la lb m, l = la ++ lb /\ ptrees gr src a p la m /\ ptrees gr src b m lb q.
  Proof.
    induction a as [|x a IH]; intros b p l q H; [exists [], l, p; split; [reflexivity|]; split; [constructor|exact H]|].
    cbn in H. inversion H as [|? ? ? t m ts ? H1 H2]; subst. destruct (IH _ _ _ _ H2) as (la & lb & m' & -> & Ha & Hb).
    exists (t :: la), lb, m'. split; [reflexivity|]. split; [econstructor; eassumption|exact Hb].
  Qed.
  Lemma refold s : forall p l q, ptrees g' src (inline h u s) p l q ->
    exists l', ptrees g' src s p l' q /\ flat_map (splice k) l' = flat_map (splice k) l.
  Proof.
    induction s as [|x s IH]; intros p l q H; [exists l; auto|].
    cbn [inline flat_map] in H. fold (inline h u s) in H. apply ptrees_split in H. destruct H as (la & lb & m & -> & Ha & Hb).
    destruct (IH _ _ _ Hb) as (lb' & Hb' & E).
    assert (X : exists t, ptree g' src x p t m /\ splice k t = flat_map (splice k) la).
    { assert (Y : ptrees g' src [x] p la m -> exists t, ptree g' src x p t m /\ splice k t = flat_map (splice k) la).
      { intros Z. inversion Z as [|? ? ? t ? ts ? H1 H2]; subst. inversion H2; subst. exists t. split; [exact H1|].
        cbn. rewrite app_nil_r. reflexivity. }
      destruct x as [n|t| |str]; try exact (Y Ha). cbn in Ha. destruct (bytes_eqb n h) eqn:En; [|exact (Y Ha)].
      apply bytes_eqb_eq in En. subst n. exists (mk k p m la). split.
      - apply pt_rule with (s := u); [|apply alt_helper|exact Ha].
        rewrite heads_g', nth_error_app2 by (rewrite heads_len; apply le_n). rewrite heads_len, Nat.sub_diag. reflexivity.
      - unfold mk. cbn [splice]. rewrite Z.leb_refl. reflexivity. }
    destruct X as (t & Ht & Et). exists (t :: lb'). split; [econstructor; eassumption|].
    cbn. rewrite Et, E, flat_map_app. reflexivity.
  Qed.
  Lemma trees_up :
    (forall x p t q, ptree g src x p t q -> exists t', ptree g' src x p t' q /\ splice k t' = [t]) /\
    (forall s p l q, ptrees g src s p l q -> exists l', ptrees g' src s p l' q /\ flat_map (splice k) l' = l).
  Proof.
    apply (ptree_both g src (fun x p t q _ => exists t', ptree g' src x p t' q /\ splice k t' = [t])
                            (fun s p l q _ => exists l', ptrees g' src s p l' q /\ flat_map (splice k) l' = l)).
    - intros t p N E. eexists. split; [apply pt_terminal; assumption|]. cbn.
      destruct (k <=? -1)%Z eqn:Ek; [apply Z.leb_le in Ek; lia|]. reflexivity.
    - intros p. eexists. split; [apply pt_nothing|]. cbn.
      destruct (k <=? -2)%Z eqn:Ek; [apply Z.leb_le in Ek; lia|]. reflexivity.
    - intros i n s p childs q Hi A _ (l' & Hl & El).
      destruct (alt_up n s A) as (_ & s' & -> & A'). destruct (refold _ _ _ _ Hl) as (l2 & Hl2 & E2).
      assert (L : i < length g) by (rewrite <- heads_len; apply nth_error_Some; rewrite Hi; discriminate).
      exists (mk (Z.of_nat i) p q l2). split.
      + eapply pt_rule; [|exact A'|exact Hl2]. rewrite heads_g', nth_error_app1 by (rewrite heads_len; exact L). exact Hi.
      + unfold mk. cbn [splice]. destruct (k <=? Z.of_nat i)%Z eqn:Ek; [apply Z.leb_le in Ek; lia|]. rewrite E2, El. reflexivity.
    - intros p. exists []. split; [constructor|reflexivity].
    - intros x s p t m ts q _ (t' & H1 & E1) _ (l' & H2 & E2). exists (t' :: l'). split; [econstructor; eassumption|].
      cbn. rewrite E1, E2. reflexivity.
  Qed.
  Lemma tree_down t' : parse_tree g' src t' -> exists t, splice k t' = [t] /\ parse_tree g src t.
  Proof.
    unfold parse_tree. rewrite h_start. intros H. apply (proj1 trees_down) in H. cbn [inline_symbol] in H.
    rewrite (beq_ne _ _ start_ne) in H. inversion H as [|? ? ? t ? ts ? H1 H2 X Y E]; subst. inversion H2; subst. exists t. auto.
  Qed.
  Lemma tree_up t : parse_tree g src t -> exists t', parse_tree g' src t' /\ splice k t' = [t].
  Proof. unfold parse_tree. rewrite h_start. apply trees_up. Qed.
End One.

Lemma splice_splice k k' : (k <= k')%Z -> forall t, flat_map (splice k) (splice k' t) = splice k t.
Proof.
  intros L. induction t as [ty p q l IH] using node_ind'. cbn [splice].
  assert (E : flat_map (splice k) (flat_map (splice k') l) = flat_map (splice k) l).
  { induction IH as [|c l Hc _ IHl]; [reflexivity|]. cbn. rewrite flat_map_app, Hc, IHl. reflexivity. }
  destruct (k' <=? ty)%Z eqn:E'.
  - apply Z.leb_le in E'. destruct (k <=? ty)%Z eqn:Ek; [exact E|]. apply Z.leb_gt in Ek. lia.
  - cbn. rewrite app_nil_r, E. reflexivity.
Qed.
