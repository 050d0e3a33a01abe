(** * TGExchange: proofs about exchanging a part of a text (C78). *)
From Verif Require Import Base ByteSet Ast Cst Parser TableGen Spec_Parse Spec_Tree Spec_Grammar Spec_Table Spec_Reorder Spec_Sub
  Spec_ParseTree GrammarProofs ParserProofs TreeProofs ConvertProofs ParseApi ParseApi2 TGFirsts TGFollows TGMain TGCells TGClosed TGNames TGParse TGTrees
  TGReorder TGSub.
From Coq Require Import Permutation.

(** ** Moving parse trees *)
Inductive alike (R : Z -> Z -> Prop) (d : Z) : node -> node -> Prop :=
| al ty ty' p q l l' : R ty ty' -> alikes R d l l' -> alike R d (Node ty p q l) (Node ty' (p - d) (q - d) l')
with alikes (R : Z -> Z -> Prop) (d : Z) : list node -> list node -> Prop :=
| als_nil : alikes R d [] []
| als_cons t t' l l' : alike R d t t' -> alikes R d l l' -> alikes R d (t :: l) (t' :: l').

Lemma alike_eq d t : forall t', alike eq d t t' -> t' = moved d t.
Proof.
  induction t as [ty p q l IH] using node_ind'. intros t' H. inversion H; subst. cbn [moved]. f_equal.
  match goal with X : alikes _ _ _ _ |- _ => revert X end. clear H. revert l'.
  induction IH as [|c l Hc _ IHl]; intros l' X; inversion X; subst; [reflexivity|]. cbn [map]. f_equal; auto.
Qed.
Lemma moved_0 t : moved 0 t = t.
Proof.
  induction t as [ty p q l IH] using node_ind'. cbn [moved]. rewrite !Z.sub_0_r. f_equal.
  induction IH as [|c l Hc _ IHl]; [reflexivity|]. cbn [map]. congruence.
Qed.
Lemma collapse_moved d t : collapse (moved d t) = moved d (collapse t).
Proof.
  induction t as [ty p q l IH] using node_ind'. cbn [moved collapse].
  replace (p - d =? q - d)%Z with (p =? q)%Z
    by (destruct (p =? q)%Z eqn:E; symmetry; [apply Z.eqb_eq; apply Z.eqb_eq in E; lia|apply Z.eqb_neq; apply Z.eqb_neq in E; lia]).
  destruct ((0 <=? ty) && (p =? q))%Z; [reflexivity|]. cbn [moved]. f_equal. rewrite !map_map.
  apply map_ext_in. rewrite Forall_forall in IH. exact IH.
Qed.

Lemma slice_len src p q : p <= q -> q <= length src -> length (slice_nat src p q) = q - p.
Proof. intros H1 H2. unfold slice_nat. rewrite firstn_length, skipn_length. lia. Qed.

Section Move.
  Variables g g' : grammar.
  Hypothesis P : Permutation g g'.
  Variable R : Z -> Z -> Prop.
  Hypothesis Rneg : forall ty, (ty < 0)%Z -> R ty ty.
  Hypothesis Rrow : forall i j n, nth_error (heads g) i = Some n -> nth_error (heads g') j = Some n -> R (Z.of_nat i) (Z.of_nat j).
  Variables src src' : bytes.

  Lemma al_mk ty ty' p q p' l l' : p <= q -> R ty ty' -> alikes R (Z.of_nat p - Z.of_nat p') l l' ->
    alike R (Z.of_nat p - Z.of_nat p') (mk ty p q l) (mk ty' p' (p' + (q - p)) l').
  Proof.
    intros L H1 H2. unfold mk. replace (Z.of_nat p') with (Z.of_nat p - (Z.of_nat p - Z.of_nat p'))%Z at 2 by lia.
    replace (Z.of_nat (p' + (q - p))) with (Z.of_nat q - (Z.of_nat p - Z.of_nat p'))%Z by lia. constructor; assumption.
  Qed.

  Lemma ptree_move :
    (forall x p t q, ptree g src x p t q -> forall p', q <= length src -> p' + (q - p) <= length src' ->
       slice_nat src p q = slice_nat src' p' (p' + (q - p)) ->
       exists t', ptree g' src' x p' t' (p' + (q - p)) /\ alike R (Z.of_nat p - Z.of_nat p') t t') /\
    (forall s p ts q, ptrees g src s p ts q -> forall p', q <= length src -> p' + (q - p) <= length src' ->
       slice_nat src p q = slice_nat src' p' (p' + (q - p)) ->
       exists ts', ptrees g' src' s p' ts' (p' + (q - p)) /\ alikes R (Z.of_nat p - Z.of_nat p') ts ts').
  Proof.
    apply (ptree_both g src
      (fun x p t q _ => forall p', q <= length src -> p' + (q - p) <= length src' ->
         slice_nat src p q = slice_nat src' p' (p' + (q - p)) ->
         exists t', ptree g' src' x p' t' (p' + (q - p)) /\ alike R (Z.of_nat p - Z.of_nat p') t t')
      (fun s p ts q _ => forall p', q <= length src -> p' + (q - p) <= length src' ->
         slice_nat src p q = slice_nat src' p' (p' + (q - p)) ->
         exists ts', ptrees g' src' s p' ts' (p' + (q - p)) /\ alikes R (Z.of_nat p - Z.of_nat p') ts ts')).
    - intros t p Ht Hs p' L1 L2 E. replace (p + length t - p) with (length t) in * by lia.
      exists (literal_at p' (p' + length t)). split.
      + apply pt_terminal; [exact Ht|]. rewrite text_of_nat in *. congruence.
      + unfold literal_at. replace (p' + length t) with (p' + (p + length t - p)) by lia.
        apply al_mk; [lia|apply Rneg; lia|constructor].
    - intros p p' L1 L2 E. exists (nothing_at p'). replace (p' + (p - p)) with p' by lia. split; [constructor|].
      unfold nothing_at. replace (mk (-2) p' p' []) with (mk (-2) p' (p' + (p - p)) []) by (f_equal; lia).
      apply al_mk; [lia|apply Rneg; lia|constructor].
    - intros i n s p childs q Hi Ha Hs IH p' L1 L2 E. destruct (IH p' L1 L2 E) as (ts' & H1 & H2).
      destruct (proj2 (ptree_facts_both g src) _ _ _ _ Hs) as (Le & _).
      assert (X : In n (heads g')). { eapply Permutation_in; [apply Permutation_map, P|]. eapply nth_error_In, Hi. }
      apply In_nth_error in X. destruct X as (j & Hj).
      exists (mk (Z.of_nat j) p' (p' + (q - p)) ts'). split; [|apply al_mk; eauto].
      econstructor; [exact Hj|apply (perm_alternative _ _ P), Ha|exact H1].
    - intros p p' L1 L2 E. exists []. replace (p' + (p - p)) with p' by lia. split; constructor.
    - intros x s p t m ts q Ht IH1 Hts IH2 p' L1 L2 E.
      destruct (proj1 (ptree_facts_both g src) _ _ _ _ Ht) as (Le1 & _).
      destruct (proj2 (ptree_facts_both g src) _ _ _ _ Hts) as (Le2 & _).
      rewrite (slice_split src p m q) in E by assumption.
      rewrite (slice_split src' p' (p' + (m - p)) (p' + (q - p))) in E by lia.
      apply app_inj_len in E; [|rewrite !slice_len by lia; lia]. destruct E as [E1 E2].
      destruct (IH1 p') as (t' & A1 & A2); [lia|lia|exact E1|].
      destruct (IH2 (p' + (m - p))) as (ts' & B1 & B2); [lia|lia|rewrite E2; f_equal; lia|].
      exists (t' :: ts'). split.
      + econstructor; [exact A1|]. replace (p' + (q - p)) with (p' + (m - p) + (q - m)) by lia. exact B1.
      + constructor; [exact A2|].
        replace (Z.of_nat p - Z.of_nat p')%Z with (Z.of_nat m - Z.of_nat (p' + (m - p)))%Z by lia. exact B2.
  Qed.
End Move.

(** The same grammar: the tree is just moved. *)
Lemma ptrees_moved g src src' s p ts q p' : wf_grammar g -> ptrees g src s p ts q ->
  q <= length src -> p' + (q - p) <= length src' -> slice_nat src p q = slice_nat src' p' (p' + (q - p)) ->
  ptrees g src' s p' (map (moved (Z.of_nat p - Z.of_nat p')) ts) (p' + (q - p)).
Proof.
  intros W H L1 L2 E.
  destruct (proj2 (ptree_move g g (Permutation_refl g) eq ltac:(reflexivity)
    (fun i j n Hi Hj => f_equal Z.of_nat (proj1 (NoDup_nth_error (heads g)) (wf_distinct _ W) i j (nth_error_bound _ _ _ Hi) (eq_trans Hi (eq_sym Hj))))
    src src') _ _ _ _ H p' L1 L2 E) as (ts' & H1 & H2).
  replace (map (moved (Z.of_nat p - Z.of_nat p')) ts) with ts'; [exact H1|].
  clear - H2. induction H2 as [|t t' l l' H _ IH]; [reflexivity|]. cbn [map]. f_equal; [apply alike_eq, H|exact IH].
Qed.

(** ** Finding the node in the parse tree *)
Inductive inside (U : node) : node -> Prop :=
| in_here : inside U U
| in_child ty p q l c : In c l -> inside U c -> (0 <= ty /\ p <> q)%Z -> inside U (Node ty p q l).

Lemma inside_collapse g src :
  (forall x p T q, ptree g src x p T q -> forall u, subnode u (collapse T) -> (0 <= n_type u)%Z ->
    exists U, u = collapse U /\ inside U T) /\
  (forall s p Ts q, ptrees g src s p Ts q -> forall T, In T Ts -> forall u, subnode u (collapse T) -> (0 <= n_type u)%Z ->
    exists U, u = collapse U /\ inside U T).
Proof.
  apply (ptree_both g src
    (fun x p T q _ => forall u, subnode u (collapse T) -> (0 <= n_type u)%Z -> exists U, u = collapse U /\ inside U T)
    (fun s p Ts q _ => forall T, In T Ts -> forall u, subnode u (collapse T) -> (0 <= n_type u)%Z -> exists U, u = collapse U /\ inside U T)).
  - intros t p _ _ u Hu Ht. apply sub_leaf in Hu. lia.
  - intros p u Hu Ht. apply sub_leaf in Hu. lia.
  - intros i n s p childs q Hi Ha Hs IH u Hu Ht. unfold mk in *. cbn [collapse] in Hu.
    destruct ((0 <=? Z.of_nat i) && (Z.of_nat p =? Z.of_nat q))%Z eqn:E.
    + exists (Node (Z.of_nat i) (Z.of_nat p) (Z.of_nat q) childs). split; [|constructor]. cbn [collapse]. rewrite E.
      inversion Hu as [|ty' p' q' l c Hc Hsub]; subst; [reflexivity|]. destruct Hc as [<-|[]].
      inversion Hsub as [|? ? ? ? c Hc]; subst; [cbn in Ht; lia|destruct Hc].
    + inversion Hu as [|ty' p' q' l c Hc Hsub]; subst.
      * exists (Node (Z.of_nat i) (Z.of_nat p) (Z.of_nat q) childs). split; [|constructor]. cbn [collapse]. rewrite E. reflexivity.
      * apply in_map_iff in Hc. destruct Hc as (T & <- & HT). destruct (IH T HT u Hsub Ht) as (U & E1 & E2).
        exists U. split; [exact E1|]. econstructor; [exact HT|exact E2|]. split; [lia|].
        intros E3. rewrite E3, Z.eqb_refl, Bool.andb_true_r in E. apply Z.leb_gt in E. lia.
  - intros p T [].
  - intros x s p t m ts q _ IH1 _ IH2 T [<-|H] u Hu Ht; eauto.
Qed.

Lemma ptrees_pick g src s p l q : ptrees g src s p l q -> forall c, In c l ->
  exists s1 x s2 l1 l2 m m', s = s1 ++ x :: s2 /\ l = l1 ++ c :: l2 /\
    ptrees g src s1 p l1 m /\ ptree g src x m c m' /\ ptrees g src s2 m' l2 q.
Proof.
  induction 1 as [p|x s p t m ts q Ht Hts IH]; intros c Hc; [destruct Hc|].
  destruct Hc as [<-|Hc].
  - exists [], x, s, [], ts, p, m. repeat split; auto. constructor.
  - destruct (IH c Hc) as (s1 & y & s2 & l1 & l2 & k & k' & -> & -> & A & B & C).
    exists (x :: s1), y, s2, (t :: l1), l2, k, k'. repeat split; auto. econstructor; eassumption.
Qed.

(** Where the node is, and in which sentential form it stands. *)
Lemma inside_ptree g src U T : inside U T -> forall x p q, ptree g src x p T q -> (0 <= n_type U)%Z ->
  exists i n pu qu, n_type U = Z.of_nat i /\ nth_error (heads g) i = Some n /\ ptree g src (SNonTerminal n) pu U qu /\
    p <= pu /\ pu <= qu /\ qu <= q /\ exists w w', yields g (sym_form x) (chars w ++ NT n :: chars w').
Proof.
  induction 1 as [|ty a b l c Hc Hin IH Hne]; intros x p q H Ht.
  - inversion H; subst; cbn in Ht; try lia. exists i, n, p, q.
    destruct (proj1 (ptree_facts_both g src) _ _ _ _ H) as (Le & _).
    split; [reflexivity|]. split; [assumption|]. split; [exact H|]. repeat split; try lia.
    exists [], []. constructor.
  - inversion H as [t0 p1 Ht0 Htx E1 E2 E3 E4|p1 E1 E2 E3 E4|i n s p1 childs q1 Hi Ha Hs E1 E2 E3 E4]; subst; try destruct Hc.
    destruct (ptrees_pick _ _ _ _ _ _ Hs c Hc) as (s1 & y & s2 & l1 & l2 & m & m' & -> & -> & A & B & C).
    destruct (IH y m m' B Ht) as (j & k & pu & qu & E1 & E2 & E3 & L1 & L2 & L3 & w & w' & Y).
    destruct (proj2 (ptree_facts_both g src) _ _ _ _ A) as (La & _ & _ & Ya).
    destruct (proj2 (ptree_facts_both g src) _ _ _ _ C) as (Lc & _ & _ & Yc).
    exists j, k, pu, qu. split; [exact E1|]. split; [exact E2|]. split; [exact E3|].
    split; [lia|]. split; [exact L2|]. split; [lia|].
    exists (slice_nat src p m ++ w), (w' ++ slice_nat src m' q).
    eapply ys_step; [apply (y1 g [] n _ [] Ha)|]. cbn [app]. rewrite app_nil_r, seq_form_app.
    change (seq_form (y :: s2)) with (sym_form y ++ seq_form s2).
    unfold chars in *. rewrite !map_app, <- !app_assoc. cbn [app].
    apply yields_app; [exact Ya|].
    replace (map Ch w ++ NT k :: map Ch w' ++ map Ch (slice_nat src m' q))
      with ((map Ch w ++ NT k :: map Ch w') ++ map Ch (slice_nat src m' q)) by (rewrite <- app_assoc; reflexivity).
    apply yields_app; assumption.
Qed.

(** ** Exchanging *)
Section Exchange.
  Variable g : grammar.
  Hypothesis W : wf_grammar g.
  Variables a b b' c : bytes.
  Let src := a ++ b ++ c.
  Let src' := a ++ b' ++ c.
  Let d := (Z.of_nat (length b') - Z.of_nat (length b))%Z.
  Variable n : bytes.
  Variables U V : node.
  Hypothesis HU : ptree g src (SNonTerminal n) (length a) U (length a + length b).
  Hypothesis HV : ptree g src' (SNonTerminal n) (length a) V (length a + length b').

  Lemma src_len : length src = length a + length b + length c.
  Proof. unfold src. rewrite !app_length. lia. Qed.
  Lemma src'_len : length src' = length a + length b' + length c.
  Proof. unfold src'. rewrite !app_length. lia. Qed.

  Lemma slice_before p q : p <= q -> q <= length a -> slice_nat src p q = slice_nat src' p (p + (q - p)).
  Proof.
    intros H1 H2. unfold slice_nat, src, src'. replace (p + (q - p)) with q by lia.
    rewrite !skipn_app, !firstn_app. rewrite skipn_length. replace (q - p - (length a - p)) with 0 by lia. reflexivity.
  Qed.
  Lemma slice_behind p q : length a + length b <= p -> p <= q ->
    slice_nat src p q = slice_nat src' (p + length b' - length b) (p + length b' - length b + (q - p)).
  Proof.
    intros H1 H2. unfold slice_nat, src, src'. replace (p + length b' - length b + (q - p) - (p + length b' - length b)) with (q - p) by lia.
    f_equal. rewrite !app_assoc. rewrite (skipn_app p (a ++ b)), (skipn_app (p + length b' - length b) (a ++ b')).
    rewrite (skipn_all2 (a ++ b)) by (rewrite app_length; lia). rewrite (skipn_all2 (a ++ b')) by (rewrite app_length; lia).
    rewrite !app_length. cbn [app]. f_equal. lia.
  Qed.

  Lemma U_type : exists i, n_type U = Z.of_nat i /\ nth_error (heads g) i = Some n.
  Proof. inversion HU as [| |i m s p l q Hi]; subst. exists i. split; [reflexivity|exact Hi]. Qed.

  Lemma exchange T : inside U T -> forall x p q, ptree g src x p T q -> q <= length src ->
    exists T', ptree g src' x p T' (q + length b' - length b) /\ p <= length a /\ length a + length b <= q /\
      exchanged d U V T T' /\ (b' <> [] -> exchanged d (collapse U) (collapse V) (collapse T) (collapse T')).
  Proof.
    induction 1 as [|ty p1 q1 l k Hk Hin IH Hne]; intros x p q H Hq.
    - destruct U_type as (i & Ei & Hi).
      destruct (proj1 (ptree_facts_both g src) _ _ _ _ HU) as (_ & P1 & P2 & _).
      destruct (proj1 (ptree_facts_both g src) _ _ _ _ H) as (_ & P3 & P4 & _).
      assert (p = length a) by lia. assert (q = length a + length b) by lia. subst p q.
      assert (x = SNonTerminal n).
      { inversion H; subst; cbn in Ei; try lia. apply Nat2Z.inj in Ei. subst. congruence. }
      subst x. exists V. replace (length a + length b + length b' - length b) with (length a + length b') by lia.
      split; [exact HV|]. split; [lia|]. split; [lia|]. split; [constructor|intros _; constructor].
    - inversion H as [t0 p2 Ht0 Htx E1 E2 E3 E4|p2 E1 E2 E3 E4|i m s p2 childs q2 Hi Ha Hs E1 E2 E3 E4]; subst; try destruct Hk.
      destruct (ptrees_pick _ _ _ _ _ _ Hs k Hk) as (s1 & y & s2 & l1 & l2 & e & e' & -> & -> & A & B & C).
      destruct (proj2 (ptree_facts_both g src) _ _ _ _ A) as (La & _).
      destruct (proj2 (ptree_facts_both g src) _ _ _ _ C) as (Lc & _).
      destruct (IH y e e' B) as (k' & X1 & X2 & X3 & X4 & X5); [lia|].
      pose proof src_len as Ls. pose proof src'_len as Ls'.
      pose proof (ptrees_moved g src src' _ _ _ _ p W A) as A'.
      rewrite Z.sub_diag in A'. rewrite (map_ext (moved 0) (fun t => t)) in A' by exact moved_0. rewrite map_id in A'.
      assert (A2 : ptrees g src' s1 p l1 e).
      { replace e with (p + (e - p)) by lia. apply A'; [lia|lia|apply slice_before; lia]. }
      pose proof (ptrees_moved g src src' _ _ _ _ (e' + length b' - length b) W C) as C'.
      replace (Z.of_nat e' - Z.of_nat (e' + length b' - length b))%Z with (- d)%Z in C' by (unfold d; lia).
      replace (e' + length b' - length b + (q - e')) with (q + length b' - length b) in C' by lia.
      assert (C2 : ptrees g src' s2 (e' + length b' - length b) (map (moved (- d)) l2) (q + length b' - length b)).
      { apply C'; [lia|lia|]. rewrite slice_behind by lia. f_equal. lia. }
      exists (mk (Z.of_nat i) p (q + length b' - length b) (l1 ++ k' :: map (moved (- d)) l2)).
      split.
      { econstructor; [exact Hi|exact Ha|]. eapply ptrees_app; [exact A2|]. econstructor; [exact X1|exact C2]. }
      split; [lia|]. split; [lia|].
      assert (Eq : Z.of_nat (q + length b' - length b) = (Z.of_nat q + d)%Z) by (unfold d; lia).
      unfold mk. rewrite Eq. split; [constructor; exact X4|]. intros Nb. specialize (X5 Nb).
      assert (0 < length b') by (destruct b'; [congruence|cbn; lia]).
      cbn [collapse].
      destruct Hne as [Hne1 Hne2].
      rewrite (proj2 (Z.eqb_neq (Z.of_nat p) (Z.of_nat q)) Hne2).
      rewrite (proj2 (Z.eqb_neq (Z.of_nat p) (Z.of_nat q + d))) by (rewrite <- Eq; lia).
      rewrite !Bool.andb_false_r. rewrite !map_app. cbn [map]. rewrite map_map.
      rewrite (map_ext (fun t => collapse (moved (- d) t)) (fun t => moved (- d) (collapse t))) by (intros; apply collapse_moved).
      rewrite <- (map_map collapse (moved (- d))). constructor. exact X5.
  Qed.
End Exchange.

(** ** Names *)
Lemma alike_same (names names' : list (Z * bytes)) (R : Z -> Z -> Prop) : (forall ty ty', R ty ty' ->
    (ty < 0)%Z /\ ty = ty' \/
    exists n, (0 <= ty)%Z /\ (0 <= ty')%Z /\ map_get Z.eqb ty names = Some n /\ map_get Z.eqb ty' names' = Some n) ->
  forall d t t', alike R d t t' -> same_tree (fun x => x) names names' (moved d (collapse t)) (collapse t').
Proof.
  intros HR d t. induction t as [ty p q l IH] using node_ind'. intros t' H. inversion H; subst.
  match goal with X : R _ _ |- _ => apply HR in X; rename X into Hr end.
  cbn [collapse].
  assert (E : ((0 <=? ty) && (p =? q) = (0 <=? ty') && (p - d =? q - d))%Z).
  { destruct (Z.leb_spec 0 ty), (Z.leb_spec 0 ty'), (Z.eqb_spec p q), (Z.eqb_spec (p - d) (q - d)); cbn; try reflexivity; try lia;
      destruct Hr as [[? ?]|(? & ? & ? & _)]; lia. }
  rewrite E. destruct ((0 <=? ty') && (p - d =? q - d))%Z.
  - cbn [moved map]. constructor; [exact Hr|]. constructor; [|constructor]. constructor; [left; lia|constructor].
  - cbn [moved]. constructor; [exact Hr|].
    match goal with X : alikes _ _ _ _ |- _ => revert X end. clear H. revert l'.
    induction IH as [|k l Hk _ IHl]; intros l' X; inversion X; subst; [constructor|]. cbn [map]. constructor; auto.
Qed.

(** ** LL(1) with another first rule *)
Lemma restart_LL1 g g' : LL1 g -> Permutation g g' -> reachable g (start g') -> LL1 g'.
Proof.
  intros [L1 L2 L3] P (u & v & Y). assert (P' : Permutation g' g) by (symmetry; exact P). constructor.
  - exact (perm_disjoint _ _ P L1).
  - intros n s1 s2 H H1 H2. eapply (L2 n s1 s2); [apply (perm_two _ _ P'), H|apply (perm_nullable _ _ P'), H1|apply (perm_nullable _ _ P'), H2].
  - intros n s1 s2 c H (x & y & F).
    assert (Fg : follow g n (Some c)).
    { exists (u ++ x), (y ++ v). eapply yields_trans; [exact Y|]. rewrite <- !app_assoc. cbn [app].
      apply (yields_app g u (NT (start g') :: v) u (x ++ NT n :: Ch c :: y ++ v)); [constructor|].
      replace (x ++ NT n :: Ch c :: y ++ v) with ((x ++ NT n :: Ch c :: y) ++ v) by (rewrite <- app_assoc; reflexivity).
      apply (yields_app g [NT (start g')] v); [apply (perm_yields _ _ P'), F|constructor]. }
    destruct (L3 n s1 s2 c) as [A B]; [apply (perm_two _ _ P'), H|exact Fg|].
    split; intros X Y'; [apply A|apply B]; first [apply (perm_nullable _ _ P'), X|apply (perm_first _ _ P'), Y'].
Qed.

Lemma same_tree_swap names names' t : forall t', same_tree (fun x => x) names names' t t' -> same_tree (fun x => x) names' names t' t.
Proof.
  induction t as [ty p q l IH] using node_ind'. intros t' H. inversion H as [? ty' ? ? ? l' Hr Hl]; subst. constructor.
  - destruct Hr as [[? ?]|(n & ? & ? & ? & ?)]; [left; split; [lia|congruence]|right; exists n; auto].
  - clear H Hr. revert l' Hl. induction IH as [|k l Hk _ IHl]; intros l' X; inversion X; subst; constructor; auto.
Qed.
Lemma same_tree_moved names names' d t : forall t', same_tree (fun x => x) names names' t t' ->
  same_tree (fun x => x) names names' (moved d t) (moved d t').
Proof.
  induction t as [ty p q l IH] using node_ind'. intros t' H. inversion H as [? ty' ? ? ? l' Hr Hl]; subst. cbn [moved]. constructor; [exact Hr|].
  clear H Hr. revert l' Hl. induction IH as [|k l Hk _ IHl]; intros l' X; inversion X; subst; cbn [map]; constructor; auto.
Qed.
Lemma moved_moved d e t : moved d (moved e t) = moved (e + d) t.
Proof.
  induction t as [ty p q l IH] using node_ind'. cbn [moved]. f_equal; [lia|lia|]. rewrite map_map. apply map_ext_in.
  rewrite Forall_forall in IH. exact IH.
Qed.
Lemma same_tree_back names names' d t t' :
  same_tree (fun x => x) names' names (moved (- d) t) t' -> same_tree (fun x => x) names names' (moved d t') t.
Proof.
  intros H. apply (same_tree_moved _ _ d) in H. rewrite moved_moved, Z.add_opp_diag_l, moved_0 in H. apply same_tree_swap, H.
Qed.
