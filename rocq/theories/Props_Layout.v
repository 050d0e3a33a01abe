(** * Props_Layout: C107, the layout of a BNF text does not matter. *)
From Verif Require Import Base Cst Ast Parser SelfGrammar TableGen FromCst Spec_Bnf BnfDet BnfPrint Spec_Layout Layout
  ParseApi Props_Bnf.

(** ** Lemmas *)
Lemma tokens_app a la : tokens a la -> forall b lb, tokens b lb -> tokens (a ++ b) (la ++ lb).
Proof.
  induction 1; intros b lb Hb; rewrite <- ?app_assoc; cbn [app]; try (constructor; auto); exact Hb.
Qed.
Lemma quoted_all q raw v : quote q -> quoted q raw v -> all is_printable raw.
Proof.
  intros Q. induction 1 as [|c raw v P _ _ _ IH|e c raw v E _ IH]; repeat constructor; auto. destruct E; reflexivity.
Qed.
Lemma token_printable k x : token_text k x -> k <> [] /\ all is_printable k.
Proof.
  intros [n Hn|q raw v Q Hq| |]; (split; [discriminate|]); try (repeat constructor).
  - apply Forall_app. split; [|repeat constructor]. eapply Forall_impl; [|apply name_all, Hn]. cbn.
    intros c H. unfold is_name_char, is_letter, is_digit, between in H. unfold is_printable, between.
    destruct c as [b0 b1 b2 b3 b4 b5 b6 b7]. revert H. destruct b0, b1, b2, b3, b4, b5, b6, b7; vm_compute; congruence.
  - destruct Q as [-> | ->]; reflexivity.
  - apply Forall_app. split; [eapply quoted_all; eassumption|]. constructor; [|constructor]. destruct Q as [-> | ->]; reflexivity.
Qed.
Lemma tokens_nulfree t l : tokens t l -> ~ In NUL t.
Proof.
  induction 1 as [|t l H IH|k x t l Hk H IH|e t l He H IH]; intros I.
  - exact I.
  - destruct I as [I|I]; [discriminate|exact (IH I)].
  - apply in_app_or in I. destruct I as [I|I]; [|exact (IH I)]. destruct (token_printable _ _ Hk) as (_ & A).
    unfold all in A. rewrite Forall_forall in A. specialize (A _ I). discriminate.
  - apply in_app_or in I. destruct I as [I|I]; [|exact (IH I)]. destruct He; cbn in I; intuition discriminate.
Qed.
Lemma same_layout_sym l l' : same_layout l l' -> same_layout l' l.
Proof. intros (A & B). split; congruence. Qed.
Lemma relaid_sym t t' : relaid t t' -> relaid t' t.
Proof. intros (l & l' & A & B & C). exists l', l. split; [exact B|]. split; [exact A|]. apply same_layout_sym, C. Qed.
Lemma relaid_one t t' g : relaid t t' -> bnf_text t g -> bnf_text t' g.
Proof.
  intros (l & l' & T & T' & E1 & E2) H. pose proof (bnf_text_printable _ _ H) as P.
  destruct (bnf_toks _ _ H) as (l0 & r & g' & -> & T0 & H1 & H2).
  rewrite (tokens_fun _ _ T0 _ T) in *. apply (toks_bnf _ l'); [exact P|exact T'|congruence|]. unfold filled. rewrite <- E2. exact H2.
Qed.

Lemma crlf_printable k : all is_printable k -> forall p t, k <> [] -> crlf_after p (k ++ t) = k ++ crlf_after false t.
Proof.
  induction 1 as [|c k Hc K IH]; intros p t N; [congruence|]. cbn [app crlf_after].
  assert (X : Ascii.eqb c LF = false /\ Ascii.eqb c CR = false).
  { split; apply Ascii.eqb_neq; intros ->; discriminate. }
  destruct X as (-> & ->). cbn [andb]. destruct k as [|d k]; [reflexivity|]. rewrite IH by discriminate. reflexivity.
Qed.
Lemma crlf_printable_inv k : all is_printable k -> forall t u, crlf_after false t = k ++ u -> exists t', t = k ++ t' /\ u = crlf_after false t'.
Proof.
  induction 1 as [|c k Hc K IH]; intros t u E; [exists t; auto|]. destruct t as [|d t]; [discriminate|]. cbn [app crlf_after] in E.
  destruct (Ascii.eqb d LF && negb false).
  - injection E as <- _. discriminate.
  - injection E as -> E. assert (X : Ascii.eqb c CR = false) by (apply Ascii.eqb_neq; intros ->; discriminate).
    rewrite X in E. destruct (IH _ _ E) as (t' & -> & ->). exists t'. auto.
Qed.
Lemma crlf_tokens t l : tokens t l -> tokens (to_crlf t) l.
Proof.
  unfold to_crlf. induction 1 as [|t l H IH|k x t l Hk H IH|e t l He H IH].
  - constructor.
  - cbn. constructor. exact IH.
  - destruct (token_printable _ _ Hk) as (N & A). rewrite (crlf_printable k A) by exact N. apply tk_token; assumption.
  - destruct He; cbn; apply (tk_eol [CR; LF]); (exact IH || constructor).
Qed.
Lemma crlf_tokens_inv u l : tokens u l -> forall t, u = to_crlf t -> tokens t l.
Proof.
  unfold to_crlf. induction 1 as [|u l H IH|k x u l Hk H IH|e u l He H IH]; intros t E.
  - destruct t as [|c t]; [constructor|]. cbn in E. destruct (Ascii.eqb c LF && true); discriminate.
  - destruct (crlf_printable_inv [" "%char] ltac:(repeat constructor) t u (eq_sym E)) as (t' & -> & ->). constructor. auto.
  - destruct (token_printable _ _ Hk) as (N & A). destruct (crlf_printable_inv k A t u (eq_sym E)) as (t' & -> & ->).
    apply tk_token; auto.
  - destruct t as [|c t]; [destruct He; discriminate|]. cbn [crlf_after] in E. destruct (Ascii.eqb_spec c LF) as [->|N]; cbn [andb negb] in E.
    + destruct He; [discriminate|]. injection E as E. apply (tk_eol [LF]); [constructor|auto].
    + destruct He; injection E as Ec E; [congruence|]. subst c. rewrite Ascii.eqb_refl in E.
      destruct t as [|d t]; [discriminate|]. cbn [crlf_after] in E. rewrite andb_false_r in E. injection E as <- E.
      apply (tk_eol [CR; LF]); [constructor|]. apply IH. exact E.
Qed.
Lemma lines_of l : lines l = hd [] (lines l) :: tl (lines l).
Proof. destruct (lines_cons l) as (y & ys & ->). reflexivity. Qed.
Lemma lines_none la : forall l, hd [] (lines (la ++ None :: l)) = hd [] (lines (la ++ [None])) /\
  tl (lines (la ++ None :: l)) = removelast (tl (lines (la ++ [None]))) ++ lines l.
Proof.
  induction la as [|[k|] la IH]; intros l; cbn [app lines].
  - cbn. auto.
  - destruct (IH l) as (A & B). rewrite (lines_of (la ++ None :: l)), (lines_of (la ++ [None])), A, B. auto.
  - cbn [hd tl]. split; [reflexivity|]. destruct (IH l) as (A & B). rewrite (lines_of (la ++ None :: l)), (lines_of (la ++ [None])), A, B.
    destruct (tl (lines (la ++ [None]))) as [|z zs] eqn:E; [|reflexivity]. exfalso. revert E. clear.
    induction la as [|[k|] la IH]; cbn [app lines]; cbn; [discriminate| |].
    + rewrite (lines_of (la ++ [None])). cbn. exact IH.
    + destruct (lines_cons (la ++ [None])) as (y & ys & ->). discriminate.
Qed.

(** ** C107 *)

(** A text has its tokens in one way only, and a text in BNF notation has them. *)
Theorem C107_tokens : forall text,
  (forall l l', tokens text l -> tokens text l' -> l = l') /\
  forall g, bnf_text text g -> exists l, tokens text l.
Proof.
  intros text. split; [intros l l' H; apply tokens_fun, H|].
  intros g H. destruct (bnf_toks _ _ H) as (l & r & g' & _ & T & _). eauto.
Qed.
Print Assumptions C107_tokens.

(** Two texts with the same tokens, line by line and up to empty lines, are the
    same grammar, or both none. *)
Theorem C107_layout : forall text text' g, relaid text text' -> (bnf_text text g <-> bnf_text text' g).
Proof. intros text text' g R. split; apply relaid_one; [exact R|apply relaid_sym, R]. Qed.
Print Assumptions C107_layout.

(** Through the API: the BNF parser and ToAST make the same grammar of both, or
    refuse both. *)
Theorem C107_pipeline : forall order fuel0 tbl names m m' src src' text text' g,
  FromGrammar_order order fuel0 SelfGrammar = Ok (tbl, names) ->
  delivers src text -> delivers src' text' -> relaid text text' ->
  ((exists fuel t, parses_to fuel tbl (Some m) src t /\ ToAST SelfCSTtoASTBindings t text = Ok g) <->
   (exists fuel t, parses_to fuel tbl (Some m') src' t /\ ToAST SelfCSTtoASTBindings t text' = Ok g)).
Proof.
  intros order fuel0 tbl names m m' src src' text text' g E D D' R.
  pose proof R as (l & l' & T & T' & _).
  rewrite (C35_pipeline order fuel0 tbl names m src text g E D (tokens_nulfree _ _ T)).
  rewrite (C35_pipeline order fuel0 tbl names m' src' text' g E D' (tokens_nulfree _ _ T')).
  apply C107_layout, R.
Qed.
Print Assumptions C107_pipeline.

(** Special cases. Line ends: any text, before and after all its line ends were
    made CR LF, reads as the same grammar. *)
Theorem C107_line_ends : forall text g, bnf_text (to_crlf text) g <-> bnf_text text g.
Proof.
  intros text g.
  assert (S : forall l, same_layout l l) by (intros l; split; reflexivity).
  split; intros H.
  - destruct (proj2 (C107_tokens _) _ H) as (l & T). apply (relaid_one (to_crlf text)); [|exact H].
    exists l, l. split; [exact T|]. split; [|apply S]. eapply crlf_tokens_inv; [exact T|reflexivity].
  - destruct (proj2 (C107_tokens _) _ H) as (l & T). apply (relaid_one text); [|exact H].
    exists l, l. split; [exact T|]. split; [|apply S]. apply crlf_tokens, T.
Qed.
Print Assumptions C107_line_ends.

(** Blanks: where a text falls into two parts between two tokens, any number of
    blanks may stand. *)
Theorem C107_blanks : forall a b la lb w g, tokens a la -> tokens b lb -> blanks w ->
  (bnf_text (a ++ w ++ b) g <-> bnf_text (a ++ b) g).
Proof.
  intros a b la lb w g Ha Hb W. apply C107_layout. exists (la ++ lb), (la ++ lb).
  split; [apply tokens_app; [exact Ha|]; apply tokens_blanks; assumption|].
  split; [apply tokens_app; assumption|split; reflexivity].
Qed.
Print Assumptions C107_blanks.

(** Empty lines: behind a line end, any number of further lines that are empty
    or blank. *)
Theorem C107_empty_lines : forall a b la lb e e' w g, tokens a la -> tokens b lb -> eol e -> eol e' -> blanks w ->
  (bnf_text (a ++ e ++ w ++ e' ++ b) g <-> bnf_text (a ++ e ++ b) g).
Proof.
  intros a b la lb e e' w g Ha Hb He He' W. apply C107_layout. exists (la ++ None :: None :: lb), (la ++ None :: lb).
  split; [apply tokens_app; [exact Ha|]; apply tk_eol; [exact He|]; apply tokens_blanks; [exact W|]; apply tk_eol; assumption|].
  split; [apply tokens_app; [exact Ha|]; apply tk_eol; assumption|].
  split.
  - rewrite (proj1 (lines_none la (None :: lb))), (proj1 (lines_none la lb)). reflexivity.
  - rewrite (proj2 (lines_none la (None :: lb))), (proj2 (lines_none la lb)). rewrite !filter_app. reflexivity.
Qed.
Print Assumptions C107_empty_lines.

(** But not in front of the first rule. *)
Theorem C107_refuted_first_line : forall e w t g, eol e -> blanks w -> ~ bnf_text (w ++ e ++ t) g.
Proof.
  intros e w t g He W H. destruct (bnf_toks _ _ H) as (l & r & g' & _ & T & H1 & _).
  assert (exists l', l = None :: l') as (l' & ->).
  { clear H H1. remember (w ++ e ++ t) as u eqn:E. revert w W E. induction T as [|u l T IH|k x u l Hk T IH|e0 u l He0 T IH]; intros w W E.
    - destruct w; [destruct He|]; discriminate.
    - destruct w as [|c w]; [destruct He; discriminate|]. injection E as _ E. inversion W; subst. eapply IH; [eassumption|reflexivity].
    - destruct (token_start _ _ Hk) as (c & s & -> & N1 & N2 & N3). destruct w as [|d w].
      + destruct He; injection E as E _; congruence.
      + inversion W as [|? ? Hd _]; subst. injection E as E _. apply Ascii.eqb_eq in Hd. congruence.
    - eauto. }
  discriminate.
Qed.
Print Assumptions C107_refuted_first_line.

(** A concrete case: the same grammar written in two ways. *)
Definition layout_a : bytes := s2b "<s>::=""a""<t>|''" ++ [LF] ++ s2b "<t>::='\\b'".
Definition layout_b : bytes :=
  s2b "  <s>  ::= 'a'  <t> | """" " ++ [CR; LF] ++ s2b "   " ++ [LF] ++ s2b " <t> ::= ""\\b"" " ++ [CR; LF].
Example C107_case : relaid layout_a layout_b /\
  bnf_text layout_a [mkRule (s2b "s") [[STerminal (s2b "a"); SNonTerminal (s2b "t")]; [SNothing]];
                     mkRule (s2b "t") [[STerminal (s2b "\b")]]].
Proof.
  assert (Nm : forall c, is_letter c = true -> name [c]) by (intros c H; exists c, []; repeat split; [exact H|constructor]).
  assert (Q1 : forall q, quote q -> quoted q [BSL; BSL; "b"%char] (s2b "\b")).
  { intros q Q. apply qu_escape; [constructor|]. apply qu_plain; [reflexivity|destruct Q as [-> | ->]; discriminate|discriminate|constructor]. }
  assert (Q2 : forall q, quote q -> quoted q ["a"%char] ["a"%char]).
  { intros q Q. apply qu_plain; [reflexivity|destruct Q as [-> | ->]; discriminate|discriminate|constructor]. }
  assert (D : quote DQ) by (left; reflexivity). assert (S : quote SQ) by (right; reflexivity).
  pose proof (kt_name _ (Nm "s"%char eq_refl)) as Ks. pose proof (kt_name _ (Nm "t"%char eq_refl)) as Kt.
  assert (T : tokens layout_a (map Some (rule_toks (mkRule (s2b "s") [[STerminal (s2b "a"); SNonTerminal (s2b "t")]; [SNothing]])) ++
    None :: map Some (rule_toks (mkRule (s2b "t") [[STerminal (s2b "\b")]])))).
  { apply (tk_token _ _ _ _ Ks). apply (tk_token _ _ _ _ kt_defined). apply (tk_token _ _ _ _ (kt_literal DQ _ _ D (Q2 _ D))).
    apply (tk_token _ _ _ _ Kt). apply (tk_token _ _ _ _ kt_bar). apply (tk_token _ _ _ _ (kt_literal SQ _ _ S (qu_nil _))).
    apply (tk_eol _ _ _ eol_lf). apply (tk_token _ _ _ _ Kt). apply (tk_token _ _ _ _ kt_defined).
    apply (tk_token _ _ _ _ (kt_literal SQ _ _ S (Q1 _ S))). constructor. }
  split.
  - eexists. exists [Some (KName (s2b "s")); Some KDefined; Some (KLiteral (s2b "a")); Some (KName (s2b "t")); Some KBar;
      Some (KLiteral []); None; None; Some (KName (s2b "t")); Some KDefined; Some (KLiteral (s2b "\b")); None].
    split; [exact T|]. split; [|split; reflexivity].
    do 2 apply tk_blank. apply (tk_token _ _ _ _ Ks). do 2 apply tk_blank. apply (tk_token _ _ _ _ kt_defined). apply tk_blank.
    apply (tk_token _ _ _ _ (kt_literal SQ _ _ S (Q2 _ S))). do 2 apply tk_blank.
    apply (tk_token _ _ _ _ Kt). apply tk_blank. apply (tk_token _ _ _ _ kt_bar). apply tk_blank.
    apply (tk_token _ _ _ _ (kt_literal DQ _ _ D (qu_nil _))). apply tk_blank.
    apply (tk_eol _ _ _ eol_crlf). do 3 apply tk_blank. apply (tk_eol _ _ _ eol_lf). apply tk_blank.
    apply (tk_token _ _ _ _ Kt). apply tk_blank. apply (tk_token _ _ _ _ kt_defined). apply tk_blank.
    apply (tk_token _ _ _ _ (kt_literal DQ _ _ D (Q1 _ D))). apply tk_blank. apply (tk_eol _ _ _ eol_crlf). constructor.
  - eapply toks_bnf; [apply printableb_ok; vm_compute; reflexivity|exact T|reflexivity|reflexivity].
Qed.
