(** * TGReorder: proofs about grammars in another order, with other names (C59). *)
From Verif Require Import Base ByteSet Ast Cst Parser TableGen Spec_Parse Spec_Tree Spec_Grammar Spec_Table Spec_Reorder
  GrammarProofs ParserProofs ParseApi ParseApi2 TGMain TGCells TGClosed TGNames TGParse.
From Coq Require Import Permutation.

Definition ren_gsym (f : bytes -> bytes) (x : gsym) : gsym := match x with NT n => NT (f n) | Ch c => Ch c end.
Definition ren_form f := map (ren_gsym f).

Lemma ren_seq_form f s : seq_form (map (rename_symbol f) s) = ren_form f (seq_form s).
Proof.
  induction s as [|x s IH]; [reflexivity|]. cbn [map seq_form flat_map]. unfold ren_form in *. rewrite map_app.
  unfold seq_form in IH. rewrite IH. f_equal.
  destruct x; cbn; try reflexivity. unfold ren_gsym. rewrite map_map. reflexivity.
Qed.
Lemma ren_sym_form f x : sym_form (rename_symbol f x) = ren_form f (sym_form x).
Proof. destruct x; cbn; try reflexivity. unfold ren_form. rewrite map_map. reflexivity. Qed.
Lemma ren_form_inv f h u : (forall n, h (f n) = n) -> ren_form h (ren_form f u) = u.
Proof. intros E. unfold ren_form. rewrite map_map. rewrite <- map_id. apply map_ext. intros [n|c]; cbn; rewrite ?E; reflexivity. Qed.
Lemma ren_seq_inv f h s : (forall n, h (f n) = n) -> map (rename_symbol h) (map (rename_symbol f) s) = s.
Proof. intros E. rewrite map_map. rewrite <- map_id. apply map_ext. intros []; cbn; rewrite ?E; reflexivity. Qed.

(** One direction: every alternative of [g] is one of [g']. *)
Record into (f : bytes -> bytes) (g g' : grammar) : Prop := {
  in_start : f (start g) = start g';
  in_nonempty : g <> [] -> g' <> [];
  in_alt : forall n s, alternative g n s -> alternative g' (f n) (map (rename_symbol f) s);
  in_def : forall n, defined g n -> defined g' (f n) }.

Section Into.
  Variable f : bytes -> bytes.
  Variables g g' : grammar.
  Hypothesis I : into f g g'.

  Lemma into_yields u v : yields g u v -> yields g' (ren_form f u) (ren_form f v).
  Proof.
    induction 1 as [u|u v w [a n s b H] _ IH]; [constructor|].
    eapply ys_step; [|exact IH]. unfold ren_form. rewrite !map_app. cbn [map ren_gsym].
    fold (ren_form f (seq_form s)). rewrite <- ren_seq_form. apply y1. apply I, H.
  Qed.
  Lemma into_first u c : first g u c -> first g' (ren_form f u) c.
  Proof. intros (v & H). exists (ren_form f v). apply (into_yields _ _ H). Qed.
  Lemma into_nullable u : nullable g u -> nullable g' (ren_form f u).
  Proof. intros H. apply (into_yields _ _ H). Qed.
  Lemma into_first_seq s c : first g (seq_form s) c -> first g' (seq_form (map (rename_symbol f) s)) c.
  Proof. rewrite ren_seq_form. apply into_first. Qed.

  Lemma into_follow n x : follow_code g n x -> follow_code g' (f n) x.
  Proof.
    induction 1 as [H|A a B X b c H Hf|A a B x H _ IH|A a B X b x H Hn _ IH].
    - rewrite (in_start _ _ _ I). apply fc_rule1, (in_nonempty _ _ _ I), H.
    - apply (in_alt _ _ _ I) in H. rewrite map_app in H. cbn [map rename_symbol] in H.
      eapply fc_rule2; [exact H|]. rewrite ren_sym_form. apply into_first, Hf.
    - apply (in_alt _ _ _ I) in H. rewrite map_app in H. eapply fc_rule3; [exact H|exact IH].
    - apply (in_alt _ _ _ I) in H. rewrite map_app in H. cbn [map rename_symbol] in H.
      eapply fc_rule4; [exact H| |exact IH]. rewrite ren_sym_form. apply into_nullable, Hn.
  Qed.
End Into.

(** ** Both tables *)
Section Two.
  Variables f h : bytes -> bytes.
  Variables g g' : grammar.
  Hypothesis FH : renaming f h.
  Hypothesis I : into f g g'.
  Hypothesis J : into h g' g.
  Variables tbl tbl' : table.
  Hypothesis W : wf_grammar g.
  Hypothesis W' : wf_grammar g'.
  Hypothesis T : table_spec g tbl.
  Hypothesis T' : table_spec g' tbl'.
  Hypothesis D : first_disjoint g.
  Hypothesis D' : first_disjoint g'.

  (** Rows of corresponding rules. *)
  Definition corr (i j : Z) : Prop :=
    exists a b n, i = Z.of_nat a /\ j = Z.of_nat b /\
      nth_error (heads g) a = Some n /\ nth_error (heads g') b = Some (f n).
  Inductive corr_op : ParserOp -> ParserOp -> Prop :=
  | co_t t : corr_op (OpTerminal t) (OpTerminal t)
  | co_n i j : corr i j -> corr_op (OpNonTerminal i) (OpNonTerminal j).

  Lemma operands_corr s : forall ops ops',
    operands g s ops -> operands g' (map (rename_symbol f) s) ops' -> Forall2 corr_op ops ops'.
  Proof.
    induction s as [|x s IH]; intros ops ops' H H'; inversion H; subst; inversion H'; subst; [constructor|].
    constructor; [|apply IH; assumption].
    match goal with A : operand g x _, B : operand g' _ _ |- _ => destruct A as [t|n i E]; inversion B; subst end.
    - constructor.
    - constructor. exists i, i0, n. auto.
  Qed.

  Lemma corr_cell i j b ops : corr i j -> cell tbl i b ops ->
    exists ops', cell tbl' j b ops' /\ Forall2 corr_op ops ops'.
  Proof.
    intros (a & k & n & -> & -> & Hi & Hj) Hc.
    destruct (cell_total g' tbl' W' T' k (f n) b Hj) as [(ops' & Hc')|(_ & _ & _ & X & Y)].
    - exists ops'. split; [exact Hc'|].
      destruct (cell_alternative g tbl W T D a n b ops Hi Hc) as [(s & Ha & Hf & Ho & _)|(-> & Hn & Hfo & Hno)];
      destruct (cell_alternative g' tbl' W' T' D' k (f n) b ops' Hj Hc') as [(s' & Ha' & Hf' & Ho' & _)|(-> & Hn' & Hfo' & Hno')].
      + assert (s' = map (rename_symbol f) s).
        { destruct (sequence_dec s' (map (rename_symbol f) s)) as [E|N]; [exact E|exfalso].
          destruct (alt_pair g' (f n) _ _ (wf_distinct _ W') Ha' (in_alt _ _ _ I _ _ Ha) N) as [P|P];
            eapply D'; [exact P|exact Hf'|apply (into_first_seq _ _ _ I), Hf|exact P|apply (into_first_seq _ _ _ I), Hf|exact Hf']. }
        subst s'. eapply operands_corr; eassumption.
      + destruct (Hno' _ (in_alt _ _ _ I _ _ Ha)). apply (into_first_seq _ _ _ I), Hf.
      + apply (in_alt _ _ _ J) in Ha'. rewrite (proj1 FH) in Ha'.
        destruct (Hno _ Ha'). apply (into_first_seq _ _ _ J), Hf'.
      + constructor.
    - exfalso. destruct (cell_alternative g tbl W T D a n b ops Hi Hc) as [(s & Ha & Hf & Ho & _)|(-> & Hn & Hfo & Hno)].
      + apply (X _ (in_alt _ _ _ I _ _ Ha)). apply (into_first_seq _ _ _ I), Hf.
      + apply Y. split; [apply (into_nullable _ _ _ I _ Hn)|apply (into_follow _ _ _ I _ _ Hfo)].
  Qed.

  Lemma corr_start : corr 0 0.
  Proof.
    exists 0, 0, (start g). split; [reflexivity|]. split; [reflexivity|].
    pose proof (wf_nonempty _ W). pose proof (wf_nonempty _ W'). rewrite (in_start _ _ _ I).
    destruct g, g'; try congruence. split; reflexivity.
  Qed.

  (** *** Errors *)
  Inductive corr_item : item -> item -> Prop :=
  | ci_byte c : corr_item (Byte c) (Byte c)
  | ci_row i j : corr i j -> corr_item (Row i) (Row j).

  Lemma corr_items ops ops' : Forall2 corr_op ops ops' -> Forall2 corr_item (items ops) (items ops').
  Proof.
    induction 1 as [|x y l l' H _ IH]; [constructor|]. unfold items in *. cbn [flat_map].
    apply Forall2_app; [|exact IH]. destruct H as [t|i j C]; cbn.
    - induction t; constructor; [constructor|assumption].
    - repeat constructor. exact C.
  Qed.

  Lemma corr_rewrites text k u k1 u1 u' :
    rewrites tbl text (k, u) (k1, u1) -> Forall2 corr_item u u' ->
    exists u1', rewrites tbl' text (k, u') (k1, u1') /\ Forall2 corr_item u1 u1'.
  Proof.
    intros R F. inversion R; subst; inversion F as [|x y l l' Hx Fl]; subst; inversion Hx; subst.
    - exists l'. split; [constructor; reflexivity|exact Fl].
    - match goal with C : corr _ _, Hc : cell _ _ _ _ |- _ =>
        destruct (corr_cell _ _ _ _ C Hc) as (ops' & Hc' & Fo); destruct C as (a & b & m & _ & -> & _) end.
      exists (items ops' ++ l'). split; [apply rw_row; [lia|exact Hc']|].
      apply Forall2_app; [apply corr_items, Fo|exact Fl].
    - match goal with C : corr _ _ |- _ => destruct C as (a & b & m & E & _); lia end.
    - match goal with C : corr _ _ |- _ => destruct C as (a & b & m & E & _); lia end.
  Qed.
  Lemma corr_rewrites_star text c1 c2 : rewrites_star tbl text c1 c2 ->
    forall u', Forall2 corr_item (snd c1) u' ->
    exists u1', rewrites_star tbl' text (fst c1, u') (fst c2, u1') /\ Forall2 corr_item (snd c2) u1'.
  Proof.
    induction 1 as [c|[k u] [k1 u1] c3 R _ IH]; intros u' F; [exists u'; split; [constructor|exact F]|].
    cbn [fst snd] in *. destruct (corr_rewrites _ _ _ _ _ _ R F) as (u1' & R' & F').
    destruct (IH _ F') as (u3 & R3 & F3). exists u3. split; [econstructor; eassumption|exact F3].
  Qed.
  (** *** Trees *)
  Variables names names' : list (Z * bytes).
  Hypothesis Nm : forall i, map_get Z.eqb (Z.of_nat i) names = nth_error (heads g) i.
  Hypothesis Nm' : forall i, map_get Z.eqb (Z.of_nat i) names' = nth_error (heads g') i.

  Lemma same_builtin ty p q l l' : (ty < 0)%Z -> same_trees f names names' l l' ->
    same_tree f names names' (mk ty p q l) (mk ty p q l').
  Proof. intros H Hl. constructor; [left; auto|exact Hl]. Qed.
  Lemma same_row i j p q l l' : corr i j -> same_trees f names names' l l' ->
    same_tree f names names' (mk i p q l) (mk j p q l').
  Proof.
    intros (a & b & n & -> & -> & Hi & Hj) Hl. constructor; [right|exact Hl].
    exists n. rewrite Nm, Nm'. repeat split; auto; lia.
  Qed.
  Lemma same_nothing p : same_tree f names names' (nothing_at p) (nothing_at p).
  Proof. apply same_builtin; [lia|constructor]. Qed.

  Lemma corr_derives src :
    (forall op p t q, derives tbl src op p t q -> forall op', corr_op op op' ->
       exists t', derives tbl' src op' p t' q /\ same_tree f names names' t t') /\
    (forall ops p ts q, derives_all tbl src ops p ts q -> forall ops', Forall2 corr_op ops ops' ->
       exists ts', derives_all tbl' src ops' p ts' q /\ same_trees f names names' ts ts').
  Proof.
    apply (derives_both tbl src
      (fun op p t q _ => forall op', corr_op op op' ->
         exists t', derives tbl' src op' p t' q /\ same_tree f names names' t t')
      (fun ops p ts q _ => forall ops', Forall2 corr_op ops ops' ->
         exists ts', derives_all tbl' src ops' p ts' q /\ same_trees f names names' ts ts')).
    - intros t p Ht Ho op' H. inversion H; subst. eexists. split; [apply d_terminal; assumption|].
      apply same_builtin; [lia|constructor].
    - intros p op' H. inversion H; subst. eexists. split; [apply d_terminal_empty|].
      apply same_builtin; [lia|]. constructor; [apply same_nothing|constructor].
    - intros n ops p childs q Hn Hc Hne Hd IH op' H. inversion H as [|i j C]; subst.
      destruct (corr_cell _ _ _ _ C Hc) as (ops' & Hc' & Fo).
      destruct (IH _ Fo) as (ts' & Hd' & Hs). eexists. split; [|apply same_row; [exact C|exact Hs]].
      apply (d_nonterminal _ _ _ ops'); [destruct C as (a & b & m & _ & -> & _); lia|exact Hc'| |exact Hd'].
      intros ->. inversion Fo; subst. congruence.
    - intros n p Hn Hc op' H. inversion H as [|i j C]; subst.
      destruct (corr_cell _ _ _ _ C Hc) as (ops' & Hc' & Fo). inversion Fo; subst.
      eexists. split; [apply d_nonterminal_empty; [destruct C as (a & b & m & _ & -> & _); lia|exact Hc']|].
      apply same_row; [exact C|]. constructor; [apply same_nothing|constructor].
    - intros p _ op' H. inversion H as [|i j (a & b & m & E & _)]; subst. lia.
    - intros p _ _ op' H. inversion H as [|i j (a & b & m & E & _)]; subst. lia.
    - intros p ops' H. inversion H; subst. eexists. split; constructor.
    - intros op ops p t m ts q Hd IH1 Hds IH2 ops' H. inversion H; subst.
      match goal with A : corr_op op _ |- _ => destruct (IH1 _ A) as (t' & X1 & X2) end.
      match goal with A : Forall2 _ ops _ |- _ => destruct (IH2 _ A) as (ts' & Y1 & Y2) end.
      eexists. split; econstructor; eassumption.
  Qed.

  Lemma corr_text text t : derives_text tbl text t ->
    exists t', derives_text tbl' text t' /\ same_tree f names names' t t'.
  Proof.
    intros (q & Hd & He). destruct (proj1 (corr_derives text) _ _ _ _ Hd (OpNonTerminal 0)) as (t' & H1 & H2).
    - constructor. exact corr_start.
    - exists t'. split; [exists q; auto|exact H2].
  Qed.

End Two.

Section Absent.
  Variables f h : bytes -> bytes.
  Variables g g' : grammar.
  Hypothesis FH : renaming f h.
  Hypothesis I : into f g g'.
  Hypothesis J : into h g' g.
  Variables tbl tbl' : table.
  Hypothesis W : wf_grammar g.
  Hypothesis W' : wf_grammar g'.
  Hypothesis T : table_spec g tbl.
  Hypothesis T' : table_spec g' tbl'.
  Hypothesis D : first_disjoint g.
  Hypothesis D' : first_disjoint g'.
  Variables names names' : list (Z * bytes).
  Hypothesis Nm : forall i, map_get Z.eqb (Z.of_nat i) names = nth_error (heads g) i.
  Hypothesis Nm' : forall i, map_get Z.eqb (Z.of_nat i) names' = nth_error (heads g') i.

  Lemma corr_swap i j : corr f g g' i j -> corr h g' g j i.
  Proof. intros (a & b & n & -> & -> & H1 & H2). exists b, a, (f n). rewrite (proj1 FH). auto. Qed.

  Lemma corr_stuck text k u u' e : stuck tbl text (Some names) k u e -> Forall2 (corr_item f g g') u u' ->
    stuck tbl' text (Some names') k u' (rename_error f e).
  Proof.
    intros S F. inversion S; subst; inversion F as [|x y l l' Hx Fl]; subst; try (inversion Hx; subst).
    - constructor. assumption.
    - exfalso. match goal with C : corr _ _ _ _ _ |- _ => destruct C as (a & b & m & -> & -> & Ga & Gb) end.
      destruct (cell_total g tbl W T a m (byte_at text k) Ga) as [(ops & rw & E & _)|(rw & E & _)]; congruence.
    - match goal with C : corr _ _ _ _ _ |- _ => rename C into C0 end.
      pose proof C0 as (a & b & m & -> & -> & Ga & Gb).
      destruct (cell_total g' tbl' W' T' b (f m) (byte_at text k) Gb) as [(ops & Hc)|(rw & E1 & E2 & _)].
      + exfalso.
        destruct (corr_cell h f g' g (conj (proj2 FH) (proj1 FH)) J I tbl' tbl W' W T' T D' D _ _ _ _ (corr_swap _ _ C0) Hc)
          as (ops' & (rw' & E1 & E2) & _). congruence.
      + replace (rename_error f _) with (ENoRulesForByte (byte_at text k) (row_name (Some names') (Z.of_nat b))).
        * eapply st_no_cell; [lia|exact E1|exact E2].
        * cbn. rewrite Nm, Nm', Ga, Gb. reflexivity.
    - match goal with C : corr _ _ _ _ _ |- _ => destruct C as (a & b & m & E & _); lia end.
    - match goal with C : corr _ _ _ _ _ |- _ => destruct C as (a & b & m & E & _); lia end.
    - constructor. assumption.
  Qed.

  Lemma corr_refuses text k e : refuses tbl text (Some names) k e ->
    refuses tbl' text (Some names') k (rename_error f e).
  Proof.
    intros (u & R & S).
    destruct (corr_rewrites_star f h g g' FH I J tbl tbl' W W' T T' D D' _ _ _ R [Row 0]) as (u' & R' & F).
    - cbn. constructor; [constructor; eapply corr_start; eassumption|constructor].
    - exists u'. split; [exact R'|]. eapply corr_stuck; eassumption.
  Qed.
End Absent.

(** ** Reordering *)

Lemma rename_alternative f g n s : alternative g n s -> alternative (rename f g) (f n) (map (rename_symbol f) s).
Proof.
  intros (r & Hr & <- & Hs). exists (rename_rule f r). split; [apply in_map, Hr|]. split; [reflexivity|].
  cbn. apply in_map, Hs.
Qed.
Lemma alternative_rename f g n s : alternative (rename f g) n s ->
  exists m u, n = f m /\ s = map (rename_symbol f) u /\ alternative g m u.
Proof.
  intros (r & Hr & <- & Hs). apply in_map_iff in Hr. destruct Hr as (r0 & <- & Hr0). cbn in Hs.
  apply in_map_iff in Hs. destruct Hs as (u & <- & Hu). exists (r_head r0), u. split; [reflexivity|].
  split; [reflexivity|]. exists r0. auto.
Qed.
Lemma rename_heads f g : heads (rename f g) = map f (heads g).
Proof. unfold heads, rename. rewrite !map_map. reflexivity. Qed.
Lemma rename_start f g : g <> [] -> start (rename f g) = f (start g).
Proof. destruct g; [congruence|reflexivity]. Qed.
Lemma rename_inv f h g : (forall n, h (f n) = n) -> rename h (rename f g) = g.
Proof.
  intros E. unfold rename. rewrite map_map. rewrite <- map_id. apply map_ext. intros [hd tl].
  unfold rename_rule. cbn. rewrite E. f_equal. rewrite map_map. rewrite <- map_id. apply map_ext.
  intros s. apply ren_seq_inv, E.
Qed.

Lemma rule_match l g' : Forall2 (fun r r' => r_head r = r_head r' /\ Permutation (r_tail r) (r_tail r')) l g' ->
  (forall r, In r l -> exists r', In r' g' /\ r_head r = r_head r' /\ Permutation (r_tail r) (r_tail r')) /\
  (forall r', In r' g' -> exists r, In r l /\ r_head r = r_head r' /\ Permutation (r_tail r) (r_tail r')) /\
  heads l = heads g'.
Proof.
  induction 1 as [|r r' l g' [H1 H2] _ (IH1 & IH2 & IH3)]; [repeat split; try (intros ? []); reflexivity|].
  split; [|split].
  - intros x [<-|Hx]; [exists r'; cbn; auto|]. destruct (IH1 x Hx) as (y & Hy & E). exists y. cbn. auto.
  - intros x [<-|Hx]; [exists r; cbn; auto|]. destruct (IH2 x Hx) as (y & Hy & E). exists y. cbn. auto.
  - cbn. rewrite H1. f_equal. exact IH3.
Qed.

Lemma reordered_alternative g g' : reordered g g' -> forall n s, alternative g n s <-> alternative g' n s.
Proof.
  intros (_ & l & P & F) n s. destruct (rule_match _ _ F) as (A & B & _). split.
  - intros (r & Hr & <- & Hs). destruct (A r (Permutation_in _ P Hr)) as (r' & Hr' & E & Pt).
    exists r'. split; [exact Hr'|]. split; [congruence|]. eapply Permutation_in; eassumption.
  - intros (r' & Hr' & <- & Hs). destruct (B r' Hr') as (r & Hr & E & Pt).
    exists r. split; [exact (Permutation_in _ (Permutation_sym P) Hr)|]. split; [congruence|].
    eapply Permutation_in; [apply Permutation_sym|]; eassumption.
Qed.
Lemma reordered_heads g g' : reordered g g' -> Permutation (heads g) (heads g').
Proof.
  intros (_ & l & P & F). destruct (rule_match _ _ F) as (_ & _ & <-). apply Permutation_map, P.
Qed.
Lemma reordered_sym g g' : reordered g g' -> reordered g' g.
Proof.
  intros (S & l & P & F). split; [congruence|].
  assert (X : exists l', Permutation g' l' /\ Forall2 (fun r r' => r_head r = r_head r' /\ Permutation (r_tail r) (r_tail r')) l' g).
  2:{ exact X. }
  clear S. revert g' F. induction P as [|x l1 l2 P IH|x y l1|l1 l2 l3 P1 IH1 P2 IH2]; intros g' F.
  - inversion F; subst. exists []. split; constructor.
  - inversion F as [|? y ? l' [H1 H2] F']; subst. destruct (IH _ F') as (l0 & Q & G).
    exists (y :: l0). split; [constructor; exact Q|]. constructor; [split; [congruence|apply Permutation_sym, H2]|exact G].
  - inversion F as [|? a ? l' [H1 H2] F']; subst. inversion F' as [|? b ? l2 [H3 H4] F2]; subst.
    exists (b :: a :: l2). split; [apply perm_swap|].
    constructor; [split; [congruence|apply Permutation_sym; assumption]|].
    constructor; [split; [congruence|apply Permutation_sym; assumption]|].
    clear - F2. induction F2 as [|u v ? ? [A B] _ IH]; constructor; [split; [congruence|apply Permutation_sym, B]|exact IH].
  - destruct (IH2 _ F) as (m & Q & G).
    (* G : m ~ l2 ; need something for l1 *)
    assert (G' : Forall2 (fun r r' => r_head r = r_head r' /\ Permutation (r_tail r) (r_tail r')) l2 m).
    { clear - G. induction G as [|u v ? ? [A B] _ IH]; constructor; [split; [congruence|apply Permutation_sym, B]|exact IH]. }
    destruct (IH1 _ G') as (m2 & Q2 & G2). exists m2. split; [etransitivity; eassumption|exact G2].
Qed.

Lemma two_alternatives_perm g g' n s1 s2 : reordered g g' -> two_alternatives g n s1 s2 ->
  two_alternatives g' n s1 s2 \/ two_alternatives g' n s2 s1.
Proof.
  intros (_ & l & P & F) (r & l1 & l2 & l3 & Hr & <- & E). destruct (rule_match _ _ F) as (A & _ & _).
  destruct (A r (Permutation_in _ P Hr)) as (r' & Hr' & Eh & Pt). rewrite E in Pt.
  assert (P2 : Permutation (s1 :: s2 :: l1 ++ l2 ++ l3) (r_tail r')).
  { rewrite <- Pt. rewrite <- Permutation_middle. constructor. rewrite !app_assoc. rewrite <- Permutation_middle. reflexivity. }
  clear Pt E. assert (X : In s1 (r_tail r')) by (eapply Permutation_in; [exact P2|left; reflexivity]).
  apply in_split in X. destruct X as (a & b & E). rewrite E in P2.
  apply Permutation_cons_app_inv in P2.
  assert (X : In s2 (a ++ b)) by (eapply Permutation_in; [exact P2|left; reflexivity]).
  apply in_app_or in X. destruct X as [X|X]; apply in_split in X; destruct X as (c & d & ->).
  - right. exists r', c, d, b. rewrite E, <- app_assoc. auto.
  - left. exists r', a, c, d. auto.
Qed.

Lemma into_refl_reordered g g' : reordered g g' -> into (fun n => n) g g'.
Proof.
  intros R. assert (Idm : forall s, map (rename_symbol (fun n => n)) s = s).
  { intros s. rewrite <- map_id. apply map_ext. intros []; reflexivity. }
  constructor.
  - apply R.
  - intros N ->. apply N. pose proof (reordered_heads _ _ R) as P. cbn in P. apply Permutation_sym, Permutation_nil in P.
    destruct g; [reflexivity|discriminate].
  - intros n s. rewrite Idm. apply (proj1 (reordered_alternative _ _ R n s)).
  - intros n. unfold defined. apply Permutation_in, reordered_heads, R.
Qed.

Section Rewritten.
  Variables f h : bytes -> bytes.
  Hypothesis FH : renaming f h.
  Variables g g' : grammar.
  Hypothesis R : rewritten f g g'.
  Hypothesis W : wf_grammar g.

  Lemma rewritten_into : into f g g'.
  Proof.
    pose proof (wf_nonempty _ W) as Ne. constructor.
    - rewrite <- rename_start by exact Ne. apply R.
    - intros _. apply (in_nonempty _ _ _ (into_refl_reordered _ _ R)). destruct g; [congruence|discriminate].
    - intros n s H. apply (reordered_alternative _ _ R), rename_alternative, H.
    - intros n H. eapply Permutation_in; [apply (reordered_heads _ _ R)|]. rewrite rename_heads. apply in_map, H.
  Qed.
  Lemma rewritten_back : into h g' g.
  Proof.
    pose proof (wf_nonempty _ W) as Ne. constructor.
    - replace (start g') with (f (start g)) by (apply rewritten_into). apply FH.
    - intros _. exact Ne.
    - intros n s H. apply (reordered_alternative _ _ R) in H. apply alternative_rename in H.
      destruct H as (m & u & -> & -> & H). rewrite (proj1 FH), ren_seq_inv by apply FH. exact H.
    - intros n H. unfold defined in H. eapply Permutation_in in H; [|apply Permutation_sym, (reordered_heads _ _ R)].
      rewrite rename_heads in H. apply in_map_iff in H. destruct H as (m & <- & H). rewrite (proj1 FH). exact H.
  Qed.
  Lemma rewritten_wf : wf_grammar g'.
  Proof.
    pose proof rewritten_into as I. constructor.
    - apply (in_nonempty _ _ _ I), W.
    - eapply Permutation_NoDup; [apply (reordered_heads _ _ R)|]. rewrite rename_heads.
      pose proof (wf_distinct _ W) as N. induction N as [|x l Hx N IH]; cbn; constructor; [|exact IH].
      intros X. apply in_map_iff in X. destruct X as (y & E & Hy). apply (f_equal h) in E. rewrite !(proj1 FH) in E. subst. contradiction.
    - intros n s H. apply (reordered_alternative _ _ R), alternative_rename in H.
      destruct H as (m & u & -> & -> & H). destruct (wf_sequences _ W _ _ H) as [->|[Hne Hw]]; [left; reflexivity|right].
      split; [destruct u; [congruence|discriminate]|]. rewrite Forall_map. eapply Forall_impl; [|exact Hw].
      intros [x|t| |t] Hx; cbn in *; auto. apply I, Hx.
  Qed.
  Lemma rewritten_two n s1 s2 : two_alternatives g' n s1 s2 ->
    two_alternatives g (h n) (map (rename_symbol h) s1) (map (rename_symbol h) s2) \/
    two_alternatives g (h n) (map (rename_symbol h) s2) (map (rename_symbol h) s1).
  Proof.
    intros H2.
    destruct (two_alternatives_perm _ _ _ _ _ (reordered_sym _ _ R) H2) as [X|X]; [left|right];
      destruct X as (r & l1 & l2 & l3 & Hr & En & E); apply in_map_iff in Hr; destruct Hr as (r0 & <- & Hr);
      cbn in E, En; subst n; rewrite (proj1 FH);
      assert (E0 : r_tail r0 = map (map (rename_symbol h)) (map (map (rename_symbol f)) (r_tail r0)))
        by (rewrite map_map; rewrite <- map_id at 1; apply map_ext; intros s; symmetry; apply ren_seq_inv, FH);
      rewrite E in E0; rewrite map_app in E0; cbn [map] in E0; rewrite map_app in E0; cbn [map] in E0;
      exists r0; do 3 eexists; (split; [exact Hr|]; split; [reflexivity|]; exact E0).
  Qed.
  Lemma rewritten_disjoint : first_disjoint g -> first_disjoint g'.
  Proof.
    intros D n s1 s2 c H2 F1 F2. pose proof rewritten_back as J.
    destruct (rewritten_two _ _ _ H2) as [X|X]; eapply (D _ _ _ _ X); apply (into_first_seq _ _ _ J); eassumption.
  Qed.
  Lemma rewritten_LL1 (F F' : bytes -> option ascii -> Prop) : (forall n x, F' n x -> F (h n) x) ->
    LL1_wrt F g -> LL1_wrt F' g'.
  Proof.
    intros S L. pose proof rewritten_back as J.
    assert (Nl : forall s, nullable g' (seq_form s) -> nullable g (seq_form (map (rename_symbol h) s))).
    { intros s. rewrite ren_seq_form. apply (into_nullable _ _ _ J). }
    constructor.
    - apply rewritten_disjoint, L.
    - intros n s1 s2 H2 N1 N2. destruct (rewritten_two _ _ _ H2) as [X|X]; apply (ll1_empty _ _ L _ _ _ X); auto.
    - intros n s1 s2 c H2 Hf. apply S in Hf.
      destruct (rewritten_two _ _ _ H2) as [X|X]; destruct (ll1_follow _ _ L _ _ _ _ X Hf) as [A B];
        split; intros N1 F1; apply Nl in N1; apply (into_first_seq _ _ _ J) in F1;
        first [exact (A N1 F1)|exact (B N1 F1)].
  Qed.
End Rewritten.
