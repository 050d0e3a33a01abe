(** * Props_Repeat: property C102: repetition, options and lists. *)
From Verif Require Import Base Ast Cst Parser TableGen Spec_Parse Spec_Tree Spec_Grammar Spec_Table Spec_ParseTree Spec_Repeat
  GrammarProofs ParserProofs TreeProofs ParseApi TGFirsts TGFollows TGMain TGParse TGTrees Props_TableGen Props_Trees.

(** ** Words *)
(** [gen] with the height of the derivation. *)
Inductive genh (g : grammar) : nat -> form -> bytes -> Prop :=
| gh_nil k : genh g k [] []
| gh_ch k c u w : genh g k u w -> genh g k (Ch c :: u) (c :: w)
| gh_nt k n s u w1 w2 :
    alternative g n s -> genh g k (seq_form s) w1 -> genh g (S k) u w2 -> genh g (S k) (NT n :: u) (w1 ++ w2).
Lemma genh_mono g k u w : genh g k u w -> forall k', k <= k' -> genh g k' u w.
Proof.
  induction 1 as [k|k c u w _ IH|k n s u w1 w2 A _ IH1 _ IH2]; intros k' L; [constructor|constructor; apply IH, L|].
  destruct k' as [|k']; [lia|]. econstructor; [exact A|apply IH1; lia|apply IH2, L].
Qed.
Lemma gen_genh g u w : gen g u w -> exists k, genh g k u w.
Proof.
  induction 1 as [|c u w _ (k & H)|n s u w1 w2 A _ (k1 & H1) _ (k2 & H2)].
  - exists 0. constructor.
  - exists k. constructor. exact H.
  - exists (S (Nat.max k1 k2)). econstructor; [exact A|eapply genh_mono; [exact H1|lia]|eapply genh_mono; [exact H2|lia]].
Qed.
Lemma genh_gen g k u w : genh g k u w -> gen g u w.
Proof. induction 1; econstructor; eassumption. Qed.
Lemma genh_app g k u v : forall w, genh g k (u ++ v) w -> exists w1 w2, w = w1 ++ w2 /\ genh g k u w1 /\ genh g k v w2.
Proof.
  induction u as [|x u IH]; intros w H; cbn in H; [exists [], w; split; [reflexivity|]; split; [constructor|exact H]|].
  inversion H as [|? c ? w' H1|? n s ? w1 w2 A H1 H2]; subst.
  - destruct (IH _ H1) as (a & b & -> & Ha & Hb). exists (c :: a), b. split; [reflexivity|]. split; [constructor; exact Ha|exact Hb].
  - destruct (IH _ H2) as (a & b & -> & Ha & Hb). exists (w1 ++ a), b. split; [apply app_assoc|].
    split; [econstructor; eassumption|exact Hb].
Qed.
Lemma word_gen g s w : sequence_word g s w <-> gen g (seq_form s) w.
Proof. split; [apply yields_gen|apply gen_yields]. Qed.
Lemma seq_word_app g a b w : sequence_word g (a ++ b) w <->
  exists w1 w2, w = w1 ++ w2 /\ sequence_word g a w1 /\ sequence_word g b w2.
Proof.
  unfold sequence_word. rewrite seq_form_app. split.
  - intros H. apply yields_gen, gen_app_inv in H. destruct H as (w1 & w2 & -> & H1 & H2). exists w1, w2.
    split; [reflexivity|]. split; apply gen_yields; assumption.
  - intros (w1 & w2 & -> & H1 & H2). unfold chars. rewrite map_app. apply yields_app; assumption.
Qed.
Lemma nt_word g n w : sequence_word g [SNonTerminal n] w <-> exists s, alternative g n s /\ sequence_word g s w.
Proof.
  split.
  - intros H. apply word_gen in H. cbn in H. inversion H as [| |? s ? w1 w2 A H1 H2]; subst. inversion H2; subst.
    rewrite app_nil_r. exists s. split; [exact A|]. apply word_gen, H1.
  - intros (s & A & H). eapply yields_trans; [|exact H]. apply yields_alt in A. exact A.
Qed.
Lemma nothing_word g w : sequence_word g [SNothing] w <-> w = [].
Proof.
  split; [|intros ->; constructor]. intros H. apply word_gen in H. inversion H. reflexivity.
Qed.
Lemma terminal_word g t w : sequence_word g [STerminal t] w <-> w = t.
Proof.
  unfold sequence_word. cbn. rewrite app_nil_r. split; [|intros ->; constructor].
  intros H. apply yields_gen in H. revert w H. induction t as [|c t IH]; intros w H; inversion H; subst; [reflexivity|].
  f_equal. apply IH. assumption.
Qed.

(** What [l ::= body l | ""] derives: any number of words of [body], one behind
    the other. *)
Theorem C102_repetition :
  forall g l body w, repeats g l body ->
    (sequence_word g [SNonTerminal l] w <-> exists ws, w = concat ws /\ Forall (sequence_word g body) ws).
Proof.
  intros g l body w R. split.
  - intros H. apply word_gen, gen_genh in H. destruct H as (k & H). revert w H. induction k as [|k IH]; intros w H; [inversion H|].
    inversion H as [| |? ? s ? w1 w2 A H1 H2]; subst. inversion H2; subst. rewrite app_nil_r. apply R in A. destruct A as [->| ->].
    + rewrite seq_form_app in H1. apply genh_app in H1. destruct H1 as (a & b & -> & Ha & Hb).
      destruct (IH _ Hb) as (ws & -> & F). exists (a :: ws). split; [reflexivity|]. constructor; [|exact F].
      apply word_gen. eapply genh_gen, Ha.
    + inversion H1; subst. exists []. split; [reflexivity|constructor].
  - intros (ws & -> & F). induction F as [|a ws Ha _ IH].
    + apply nt_word. exists [SNothing]. split; [apply R; auto|]. apply nothing_word. reflexivity.
    + apply nt_word. exists (body ++ [SNonTerminal l]). split; [apply R; auto|]. apply seq_word_app. exists a, (concat ws). auto.
Qed.
Print Assumptions C102_repetition.

(** Options and separated lists. *)
Theorem C102_option_and_list :
  (forall g o body w, optional g o body -> (sequence_word g [SNonTerminal o] w <-> w = [] \/ sequence_word g body w)) /\
  (forall g l m x sep w, separated g l m x sep ->
     (sequence_word g [SNonTerminal l] w <->
      exists v vs, sequence_word g [x] v /\ Forall (sequence_word g [x]) vs /\ w = v ++ concat (map (fun v => sep ++ v) vs))).
Proof.
  split.
  - intros g o body w R. rewrite nt_word. split.
    + intros (s & A & H). apply R in A. destruct A as [->| ->]; [right; exact H|left; apply nothing_word in H; exact H].
    + intros [->|H]; [exists [SNothing]|exists body]; (split; [apply R; auto|]); [apply nothing_word; reflexivity|exact H].
  - intros g l m x sep w (L & M). rewrite nt_word.
    assert (B : forall a, sequence_word g [STerminal sep; x] a <-> exists v, a = sep ++ v /\ sequence_word g [x] v).
    { intros a. change [STerminal sep; x] with ([STerminal sep] ++ [x]). rewrite seq_word_app. split.
      - intros (w1 & w2 & -> & H1 & H2). apply terminal_word in H1. subst. eauto.
      - intros (v & -> & H). exists sep, v. split; [reflexivity|]. split; [apply terminal_word; reflexivity|exact H]. }
    split.
    + intros (s & A & H). apply L in A. subst s. change [x; SNonTerminal m] with ([x] ++ [SNonTerminal m]) in H.
      apply seq_word_app in H. destruct H as (v & w2 & -> & Hv & H). apply (C102_repetition g m _ w2 M) in H.
      destruct H as (ws & -> & F). exists v.
      assert (X : exists vs, Forall (sequence_word g [x]) vs /\ concat ws = concat (map (fun v => sep ++ v) vs)).
      { induction F as [|a ws Ha _ (vs & Fv & E)]; [exists []; split; [constructor|reflexivity]|].
        apply B in Ha. destruct Ha as (u & -> & Hu). exists (u :: vs). split; [constructor; assumption|]. cbn. rewrite E. reflexivity. }
      destruct X as (vs & Fv & E). exists vs. rewrite E. auto.
    + intros (v & vs & Hv & F & ->). exists [x; SNonTerminal m]. split; [apply L; reflexivity|].
      change [x; SNonTerminal m] with ([x] ++ [SNonTerminal m]). apply seq_word_app. exists v, (concat (map (fun v => sep ++ v) vs)).
      split; [reflexivity|]. split; [exact Hv|]. apply (C102_repetition g m _ _ M). exists (map (fun v => sep ++ v) vs).
      split; [reflexivity|]. apply Forall_forall. intros a Ha. apply in_map_iff in Ha. destruct Ha as (u & <- & Hu).
      apply B. exists u. split; [reflexivity|]. rewrite Forall_forall in F. apply F, Hu.
Qed.
Print Assumptions C102_option_and_list.

(** ** Trees *)
Lemma collapse_type t : n_type (collapse t) = n_type t.
Proof. destruct t as [ty p q l]. cbn. destruct ((0 <=? ty) && (p =? q))%Z; reflexivity. Qed.
Lemma leaf_subnode n ty p q : subnode n (Node ty p q []) -> n = Node ty p q [].
Proof. intros H. inversion H as [|? ? ? ? c I]; [reflexivity|destruct I]. Qed.
Lemma sub_collapse g src :
  (forall x p T q, ptree g src x p T q -> forall n, subnode n (collapse T) -> (0 <= n_type n)%Z ->
     exists x' p' T' q', p <= p' /\ q' <= q /\ ptree g src x' p' T' q' /\ n = collapse T') /\
  (forall s p Ts q, ptrees g src s p Ts q -> forall n T, In T Ts -> subnode n (collapse T) -> (0 <= n_type n)%Z ->
     exists x' p' T' q', p <= p' /\ q' <= q /\ ptree g src x' p' T' q' /\ n = collapse T').
Proof.
  apply (ptree_both g src
    (fun x p T q _ => forall n, subnode n (collapse T) -> (0 <= n_type n)%Z ->
       exists x' p' T' q', p <= p' /\ q' <= q /\ ptree g src x' p' T' q' /\ n = collapse T')
    (fun s p Ts q _ => forall n T, In T Ts -> subnode n (collapse T) -> (0 <= n_type n)%Z ->
       exists x' p' T' q', p <= p' /\ q' <= q /\ ptree g src x' p' T' q' /\ n = collapse T')).
  - intros t p N E n S P. cbn in S. apply leaf_subnode in S. subst. cbn in P. lia.
  - intros p n S P. cbn in S. apply leaf_subnode in S. subst. cbn in P. lia.
  - intros i m s p childs q Hi A Hc IH n S P.
    destruct (proj2 (ptree_facts_both g src) _ _ _ _ Hc) as (Le & _).
    assert (T0 : ptree g src (SNonTerminal m) p (mk (Z.of_nat i) p q childs) q) by (eapply pt_rule; eassumption).
    assert (Here : n = collapse (mk (Z.of_nat i) p q childs) -> exists x' p' T' q', p <= p' /\ q' <= q /\ ptree g src x' p' T' q' /\ n = collapse T').
    { intros ->. exists (SNonTerminal m), p, (mk (Z.of_nat i) p q childs), q. auto. }
    unfold mk in S. cbn [collapse] in S.
    destruct ((0 <=? Z.of_nat i) && (Z.of_nat p =? Z.of_nat q))%Z eqn:C.
    + inversion S as [|? ? ? ? c I S']; subst.
      * apply Here. unfold mk. cbn [collapse]. rewrite C. reflexivity.
      * destruct I as [<-|[]]. apply leaf_subnode in S'. subst. cbn in P. lia.
    + inversion S as [|? ? ? ? c I S']; subst.
      * apply Here. unfold mk. cbn [collapse]. rewrite C. reflexivity.
      * apply in_map_iff in I. destruct I as (T & <- & HT). eapply IH; eassumption.
  - intros p n T [].
  - intros x s p t m ts q Ht IHt Hts IHs n T [<-|I] S P.
    + destruct (proj2 (ptree_facts_both g src) _ _ _ _ Hts) as (Le & _).
      destruct (IHt n S P) as (x' & p' & T' & q' & A & B & C). exists x', p', T', q'. split; [exact A|]. split; [lia|exact C].
    + destruct (proj1 (ptree_facts_both g src) _ _ _ _ Ht) as (Le & _).
      destruct (IHs n T I S P) as (x' & p' & T' & q' & A & B & C). exists x', p', T', q'. split; [lia|]. split; [lia|exact C].
Qed.

Definition rounds_go : list node -> list node -> list (list node) :=
  fix walk before l := match l with
                     | [] => []
                     | [c] => match before with [] => [] | _ => before :: rounds c end
                     | c :: l' => walk (before ++ [c]) l'
                     end.
Lemma rounds_eq ty p q l : rounds (Node ty p q l) = rounds_go [] l.
Proof. reflexivity. Qed.
Lemma rounds_snoc l c : forall before, before ++ l <> [] -> rounds_go before (l ++ [c]) = (before ++ l) :: rounds c.
Proof.
  induction l as [|x l IH]; intros before N.
  - rewrite app_nil_r in *. cbn. destruct before; [contradiction|reflexivity].
  - cbn [app]. change (rounds_go before (x :: l ++ [c])) with
      (match l ++ [c] with [] => match before with [] => [] | _ => before :: rounds x end | _ => rounds_go (before ++ [x]) (l ++ [c]) end).
    destruct (l ++ [c]) as [|y l'] eqn:E; [destruct l; discriminate|]. rewrite IH by (destruct before; discriminate).
    rewrite <- app_assoc. reflexivity.
Qed.

Section Tree.
  Variables (g : grammar) (src : bytes) (l : bytes) (body : sequence).
  Hypothesis W : wf_grammar g.
  Hypothesis R : repeats g l body.
  Hypothesis Nb : ~ nullable g (seq_form body).

  Lemma body_node x p T q : ptree g src x p T q -> node_for g x (collapse T).
  Proof.
    intros H. destruct H as [t p N E|p|i n s p childs q Hi A Hc]; cbn [node_for]; rewrite ?collapse_type; try reflexivity.
    exists i. auto.
  Qed.
  Lemma body_nodes s p Ts q : ptrees g src s p Ts q -> Forall2 (node_for g) s (map collapse Ts).
  Proof. induction 1; constructor; [eapply body_node; eassumption|assumption]. Qed.

  Definition good_round (r : list node) : Prop :=
    Forall2 (node_for g) body r /\
    exists p q, adjacent p r q /\ (p < q)%Z /\ sequence_word g body (text_of src p q).

  Lemma adjacent_app a : forall p m q b, adjacent p a m -> adjacent m b q -> adjacent p (a ++ b) q.
  Proof.
    induction a as [|x a IH]; intros p m q b Ha Hb; cbn in *; [subst; exact Hb|]. destruct Ha as (E & Ha). split; [exact E|eauto].
  Qed.
  Lemma ptrees_split a b : forall p Ts q, ptrees g src (a ++ b) p Ts q ->
    exists t1 m t2, Ts = t1 ++ t2 /\ ptrees g src a p t1 m /\ ptrees g src b m t2 q.
  Proof.
    induction a as [|x a IH]; intros p Ts q H; cbn in H.
    - exists [], p, Ts. split; [reflexivity|]. split; [constructor|exact H].
    - inversion H as [|? ? ? t m ts ? H1 H2]; subst. destruct (IH _ _ _ H2) as (t1 & m' & t2 & -> & A & B).
      exists (t :: t1), m', t2. split; [reflexivity|]. split; [econstructor; eassumption|exact B].
  Qed.
  Lemma adjacent_collapse ts : forall p q, adjacent p ts q -> adjacent p (map collapse ts) q.
  Proof.
    induction ts as [|t ts IH]; intros p q H; cbn in *; [exact H|]. destruct (collapse_pos t) as (E1 & E2). rewrite E1, E2.
    destruct H as (E & H). split; [exact E|]. apply IH, H.
  Qed.
  Lemma tree_rounds k : forall p T q, q - p <= k -> ptree g src (SNonTerminal l) p T q ->
    adjacent (Z.of_nat p) (concat (rounds (collapse T))) (Z.of_nat q) /\ Forall good_round (rounds (collapse T)).
  Proof.
    induction k as [k IH] using lt_wf_ind. intros p T q Lk H.
    inversion H as [| |i n s p0 childs q0 Hi A Hc]; subst. apply R in A. destruct A as [->| ->].
    - destruct (ptrees_split _ _ _ _ _ Hc) as (t1 & m & t2 & -> & H1 & H2).
      inversion H2 as [|? ? ? t m' ts ? H3 H4]; subst. inversion H4; subst.
      destruct (proj2 (ptree_facts_both g src) _ _ _ _ H1) as (L1 & A1 & _ & Y1).
      destruct (proj1 (ptree_facts_both g src) _ _ _ _ H3) as (L3 & _).
      assert (N : p <> m) by (intros ->; apply Nb; eapply ptrees_nullable; exact H1).
      unfold mk. cbn [collapse].
      destruct ((0 <=? Z.of_nat i) && (Z.of_nat p =? Z.of_nat q))%Z eqn:C.
      { apply andb_true_iff in C. destruct C as (_ & C). apply Z.eqb_eq in C. lia. }
      rewrite rounds_eq, map_app. cbn [map].
      assert (Nn : map collapse t1 <> []).
      { intros E. apply map_eq_nil in E. subst. inversion H1; subst. contradiction. }
      rewrite rounds_snoc by exact Nn. cbn [app concat].
      destruct (IH (q - m) ltac:(lia) _ _ _ (le_n _) H3) as (IA & IF). apply adjacent_collapse in A1.
      split; [eapply adjacent_app; eassumption|]. constructor; [|exact IF]. split; [apply (body_nodes _ _ _ _ H1)|].
      exists (Z.of_nat p), (Z.of_nat m). split; [exact A1|]. split; [lia|]. rewrite text_of_nat. exact Y1.
    - inversion Hc as [|? ? ? t m' ts ? H3 H4]; subst. inversion H4; subst. inversion H3; subst.
      unfold mk. cbn [collapse]. destruct ((0 <=? Z.of_nat i) && (Z.of_nat q =? Z.of_nat q))%Z eqn:C; cbn; split; auto.
  Qed.
End Tree.

(** In a tree that Parse returns, the node of a repetition unrolls to rounds:
    each has one child for every symbol of the body, is not empty and spells a
    word of the body, and together they are the text of the node. *)
Theorem C102_tree :
  forall order fuel0 fuel g tbl names m src text t l body i n,
    wf_grammar g -> LL1 g -> FromGrammar_order order fuel0 g = Ok (tbl, names) ->
    delivers src text -> ~ In NUL text -> parses_to fuel tbl (Some m) src t ->
    repeats g l body -> nth_error (heads g) i = Some l -> subnode n t -> n_type n = Z.of_nat i ->
    adjacent (n_pos n) (concat (rounds n)) (n_end n) /\
    Forall (fun r => Forall2 (node_for g) body r /\
                     exists p q, adjacent p r q /\ (p < q)%Z /\ sequence_word g body (text_of text p q)) (rounds n).
Proof.
  intros order fuel0 fuel g tbl names m src text t l body i n W L E Hd Hn Hp R Hi S Ty.
  destruct (C53_parser_tree _ _ _ _ _ _ _ _ _ _ W L E Hd Hn Hp) as (T & HT & ->).
  destruct (proj1 (sub_collapse g text) _ _ _ _ HT n S ltac:(lia)) as (x & p & T' & q & _ & _ & HT' & ->).
  rewrite collapse_type in Ty.
  assert (Nd : NoDup (heads g)) by apply W.
  assert (Nb : ~ nullable g (seq_form body)).
  { intros N. assert (X : body ++ [SNonTerminal l] = [SNothing]); [|destruct body as [|? [|]]; discriminate].
    eapply (ll1_empty_same g (follow g) W L l); [apply R; auto|apply R; auto| |constructor].
    rewrite seq_form_app. apply (fun B => yields_app g _ _ [] [] N B). apply nullable_nt. exists [SNothing].
    split; [apply R; auto|constructor]. }
  assert (X : x = SNonTerminal l).
  { inversion HT' as [| |i' l' s' ? ? ? Hi' ? ?]; subst; cbn in Ty; try lia. assert (i' = i) by lia. subst. congruence. }
  subst x. destruct (collapse_pos T') as (E1 & E2). rewrite E1, E2.
  destruct (proj1 (ptree_facts_both g text) _ _ _ _ HT') as (_ & P1 & P2 & _). rewrite P1, P2.
  eapply tree_rounds; eauto.
Qed.
Print Assumptions C102_tree.

(** In [demo], S ::= A "b" S | "" and A ::= "a" | "": the root of the tree of
    "abb" has two rounds. *)
Example C102_case :
  wf_grammar demo /\ LL1 demo /\ repeats demo (s2b "S") [nt "A"; tm "b"] /\ optional demo (s2b "A") [tm "a"] /\
  nth_error (heads demo) 0 = Some (s2b "S") /\
  exists t, parses_to 100 (fst (gen_of demo)) (Some (snd (gen_of demo))) (SrcString (s2b "abb")) t /\
    subnode t t /\ n_type t = 0%Z /\
    rounds t = [[mk 1 0 1 [literal_at 0 1]; literal_at 1 2]; [mk 1 2 2 [nothing_at 2]; literal_at 2 3]].
Proof.
  split; [exact demo_wf|]. split; [exact demo_LL1|]. split; [|split].
  - intros s. split.
    + intros (r & [<-|[<-|[]]] & E & Hs); [|discriminate]. cbn in Hs. destruct Hs as [<-|[<-|[]]]; auto.
    + intros [->| ->]; (exists (nth 0 demo (ru "" []))); cbn; auto.
  - intros s. split.
    + intros (r & [<-|[<-|[]]] & E & Hs); [discriminate|]. cbn in Hs. destruct Hs as [<-|[<-|[]]]; auto.
    + intros [->| ->]; (exists (nth 1 demo (ru "" []))); cbn; auto.
  - split; [reflexivity|]. eexists. split; [eexists; vm_compute; reflexivity|].
    split; [apply sub_here|]. split; vm_compute; reflexivity.
Qed.
(** L ::= X M and M ::= "," X M | "" with X ::= "x" *)
Definition listing : grammar :=
  [ru "L" [[nt "X"; nt "M"]]; ru "M" [[tm ","; nt "X"; nt "M"]; [SNothing]]; ru "X" [[tm "x"]]].
Example C102_case_list :
  separated listing (s2b "L") (s2b "M") (nt "X") (s2b ",") /\ sequence_word listing [nt "L"] (s2b "x,x,x").
Proof.
  assert (S : separated listing (s2b "L") (s2b "M") (nt "X") (s2b ",")).
  { split.
    - intros s. split.
      + intros (r & [<-|[<-|[<-|[]]]] & E & Hs); try discriminate. cbn in Hs. destruct Hs as [<-|[]]; auto.
      + intros ->. exists (nth 0 listing (ru "" [])). cbn. auto.
    - intros s. split.
      + intros (r & [<-|[<-|[<-|[]]]] & E & Hs); try discriminate. cbn in Hs. destruct Hs as [<-|[<-|[]]]; auto.
      + intros [->| ->]; (exists (nth 1 listing (ru "" []))); cbn; auto. }
  split; [exact S|]. apply (proj2 C102_option_and_list listing _ _ _ _ _ S).
  assert (X : sequence_word listing [nt "X"] (s2b "x")).
  { apply nt_word. exists [tm "x"]. split; [exists (nth 2 listing (ru "" [])); cbn; auto|]. apply terminal_word. reflexivity. }
  exists (s2b "x"), [s2b "x"; s2b "x"]. split; [exact X|]. split; [repeat constructor; exact X|reflexivity].
Qed.
