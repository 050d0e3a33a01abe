(** * PrintProofs: what a printed grammar reads as. *)
From Verif Require Import Base Ast Spec_Bnf Spec_Printing BnfPrint BnfDet.

Local Notation fill := nothing_for_empty_symbol.

(** ** Reading one symbol *)
Fixpoint cut (text : bytes) : option (bytes * bytes) :=
  match text with
  | [] => None
  | c :: s => if Ascii.eqb c ">"%char then Some ([], s)
              else match cut s with Some (n, r) => Some (c :: n, r) | None => None end
  end.
Definition token (text : bytes) : option (symbol * bytes) :=
  match text with
  | [] => None
  | c :: s =>
      if Ascii.eqb c "<"%char then
        match cut s with Some (n, r) => Some (SNonTerminal n, r) | None => None end
      else match scan c s with Some (v, r) => Some (literal_symbol v, r) | None => None end
  end.

Definition ok (s : symbol) : Prop :=
  match s with SNonTerminal n => ~ In ">"%char n | SUnknown _ => False | _ => True end.

Lemma cut_name n r : ~ In ">"%char n -> cut (n ++ ">"%char :: r) = Some (n, r).
Proof.
  induction n as [|c n IH]; intros H; cbn [app cut]; [reflexivity|].
  destruct (Ascii.eqb_spec c ">"%char) as [->|N]; [exfalso; apply H; left; reflexivity|].
  rewrite IH; [reflexivity|]. intros Hi. apply H. right. exact Hi.
Qed.

Lemma name_closed n : name n -> ~ In ">"%char n.
Proof.
  intros H Hi. apply name_all in H. unfold all in H. rewrite Forall_forall in H.
  specialize (H _ Hi). discriminate H.
Qed.

Lemma fill_literal v : fill (STerminal v) = literal_symbol v.
Proof. destruct v; reflexivity. Qed.

Lemma token_printed s r : ok s -> token (symbol_string s ++ r) = Some (fill s, r).
Proof.
  destruct s as [n|v| |x]; cbn [ok symbol_string]; intros H.
  - unfold nonterminal_string. cbn [app token]. rewrite <- app_assoc. cbn [app].
    rewrite cut_name; [reflexivity|exact H].
  - destruct (terminal_scanned v r) as (q & b & Q & E & S). rewrite E. cbn [token].
    replace (Ascii.eqb q "<"%char) with false by (destruct Q as [-> | ->]; reflexivity).
    rewrite S, fill_literal. reflexivity.
  - reflexivity.
  - contradiction.
Qed.

Lemma scan_quoted q raw v r : quote q -> quoted q raw v -> scan q (raw ++ q :: r) = Some (v, r).
Proof.
  intros Q H. induction H as [|c raw v P N B H IH|e c raw v Es H IH]; cbn [app scan].
  - rewrite Ascii.eqb_refl. reflexivity.
  - destruct (Ascii.eqb_spec c q) as [->|_]; [congruence|].
    destruct (Ascii.eqb_spec c BSL) as [->|_]; [congruence|]. rewrite IH. reflexivity.
  - destruct (Ascii.eqb_spec BSL q) as [<-|_]; [exfalso; exact (quote_not_bsl _ Q eq_refl)|].
    rewrite Ascii.eqb_refl, IH. destruct Es; reflexivity.
Qed.

Lemma token_text t s r : symbol_text t s -> token (t ++ r) = Some (s, r).
Proof.
  intros [n Hn|q raw v Q Hq Hv|q Q].
  - cbn [app token]. rewrite <- app_assoc. cbn [app]. rewrite cut_name; [reflexivity|apply name_closed, Hn].
  - cbn [app token]. rewrite <- app_assoc. cbn [app].
    replace (Ascii.eqb q "<"%char) with false by (destruct Q as [-> | ->]; reflexivity).
    rewrite (scan_quoted _ _ _ _ Q Hq). destruct v; [congruence|reflexivity].
  - destruct Q as [-> | ->]; reflexivity.
Qed.

Lemma symbol_lex s s' r r' :
  ok s -> ok s' -> symbol_string s ++ r = symbol_string s' ++ r' -> fill s = fill s' /\ r = r'.
Proof.
  intros O O' E. pose proof (token_printed s r O) as T. rewrite E, (token_printed s' r' O') in T.
  injection T. auto.
Qed.
Lemma symbol_read s s' t r r' :
  ok s -> symbol_text t s' -> symbol_string s ++ r = t ++ r' -> s' = fill s /\ r = r'.
Proof.
  intros O H E. pose proof (token_printed s r O) as T. rewrite E, (token_text t s' r' H) in T.
  injection T. auto.
Qed.

(** ** Where symbols start and end *)
Definition opener (c : ascii) : Prop := c = "<"%char \/ c = DQ \/ c = SQ.
Definition opens (t : bytes) : Prop := exists c t', t = c :: t' /\ opener c.
Lemma opens_app t r : opens t -> opens (t ++ r).
Proof. intros (c & t' & -> & H). exists c, (t' ++ r). auto. Qed.
Lemma symbol_opens t s : symbol_text t s -> opens t.
Proof. intros [n _|q raw v [-> | ->] _ _|q [-> | ->]]; unfold opens, opener; eexists _, _; split; auto. Qed.
Lemma printed_opens s : ok s -> opens (symbol_string s).
Proof.
  destruct s as [n|v| |x]; cbn [ok symbol_string]; intros H; [| | |contradiction].
  - eexists _, _. split; [reflexivity|left; reflexivity].
  - destruct (terminal_scanned v []) as (q & b & Q & E & _). rewrite app_nil_r in E. rewrite E.
    eexists _, _. split; [reflexivity|]. right. exact Q.
  - eexists _, _. split; [reflexivity|right; left; reflexivity].
Qed.
Lemma sequence_opens t s : sequence_text t s -> opens t.
Proof. intros [t0 w s0 H _|t0 w s0 ts ss H _ _]; apply opens_app; eapply symbol_opens, H. Qed.
Lemma alternatives_opens t s : alternatives_text t s -> opens t.
Proof.
  intros [t0 s0 H|t0 s0 w ts ss H _ _]; [|apply opens_app]; eapply sequence_opens, H.
Qed.

Lemma blanks_cons c w : blanks (c :: w) -> c = " "%char /\ blanks w.
Proof. intros H. inversion H as [|x l P Q]; subst. apply Ascii.eqb_eq in P. auto. Qed.

(** Blanks in front of something that is not blank can be read in one way only. *)
Lemma blanks_then w t c r : blanks w -> c <> " "%char -> w ++ t = c :: r -> w = [].
Proof.
  intros B N E. destruct w as [|x w]; [reflexivity|]. apply blanks_cons in B as (-> & _).
  cbn in E. injection E as <- _. congruence.
Qed.
Lemma blanks_opens w t x r : blanks w -> opens t -> x <> " "%char -> w ++ t = " "%char :: x :: r ->
  w = [" "%char] /\ t = x :: r.
Proof.
  intros B (c & t' & -> & O) N E. destruct w as [|y w].
  - cbn in E. injection E as -> _. destruct O as [O|[O|O]]; discriminate O.
  - apply blanks_cons in B as (-> & B). cbn in E. injection E as E.
    assert (w = []) as -> by (eapply blanks_then; eassumption). auto.
Qed.
Lemma opens_not_blank t r : opens t -> t <> " "%char :: r.
Proof. intros (c & t' & -> & [->|[->| ->]]); discriminate. Qed.

(** What may follow a sequence in a text, and in print. *)
Definition stop (r : bytes) : Prop :=
  match r with [] => True | c :: _ => c = "|"%char \/ c = CR \/ c = LF \/ c = NUL end.
Definition line_stop (r : bytes) : Prop :=
  match r with [] => True | c :: _ => c = CR \/ c = LF \/ c = NUL end.
Definition line_end (r : bytes) : Prop := match r with [] => True | c :: _ => c = LF end.
Definition delim (r : bytes) : Prop := line_end r \/ exists r', r = " "%char :: "|"%char :: r'.

Lemma line_stop_stop r : line_stop r -> stop r.
Proof. destruct r; cbn; tauto. Qed.
Lemma stop_not_opens r : stop r -> ~ opens r.
Proof.
  intros S (c & t & -> & O). cbn in S.
  destruct O as [->|[->| ->]]; destruct S as [S|[S|[S|S]]]; discriminate S.
Qed.

(** ** Sequences *)
Lemma symbols_cons s seq R : symbols_string (s :: seq) ++ R = " "%char :: symbol_string s ++ symbols_string seq ++ R.
Proof. cbn [symbols_string flat_map]. change (s2b " ") with [" "%char]. rewrite <- !app_assoc. reflexivity. Qed.

Lemma opener_not_blank c : opener c -> c <> " "%char.
Proof. intros [->|[->| ->]]; discriminate. Qed.

Lemma after_blank s X w Y : ok s -> blanks w -> opens Y ->
  " "%char :: symbol_string s ++ X = w ++ Y -> symbol_string s ++ X = Y.
Proof.
  intros O B P E. pose proof (printed_opens s O) as (c & t' & Es & Oc). rewrite Es in E |- *. cbn [app] in E |- *.
  symmetry in E. destruct (blanks_opens _ _ _ _ B P (opener_not_blank _ Oc) E) as (_ & E'). auto.
Qed.

Lemma sequence_read seq : forall w t ss R R', Forall ok seq ->
  blanks w -> sequence_text t ss -> stop R' -> delim R -> symbols_string seq ++ R = w ++ t ++ R' ->
  seq <> [] /\ ss = map fill seq /\ exists w', blanks w' /\ R = w' ++ R'.
Proof.
  induction seq as [|s seq IH]; intros w t ss R R' Fo B T St D E.
  - exfalso. cbn [symbols_string flat_map app] in E. pose proof (opens_app _ R' (sequence_opens _ _ T)) as P.
    destruct D as [D|(r & ->)].
    + destruct R as [|c R]; cbn in D.
      * destruct w; [|discriminate E]. destruct P as (c & t' & E' & _). cbn in E. rewrite E' in E. discriminate E.
      * subst c. assert (w = []) as -> by (eapply blanks_then; [exact B| |symmetry; exact E]; discriminate).
        cbn [app] in E. destruct P as (c & t' & E' & Oc). rewrite E' in E. injection E as <- _.
        destruct Oc as [Oc|[Oc|Oc]]; discriminate Oc.
    + symmetry in E. destruct (blanks_opens _ _ "|"%char r B P ltac:(discriminate) E) as (-> & E').
      destruct P as (c & t' & E2 & Oc). rewrite E2 in E'. injection E' as -> _.
      destruct Oc as [Oc|[Oc|Oc]]; discriminate Oc.
  - inversion Fo as [|x l O Fo']; subst. rewrite symbols_cons in E.
    apply (after_blank _ _ _ _ O B (opens_app _ R' (sequence_opens _ _ T))) in E. split; [discriminate|].
    destruct T as [t w1 s' T Bw|t w1 s' ts ss T Bw Ts]; rewrite <- ?app_assoc in E;
      destruct (symbol_read _ _ _ _ _ O T E) as (-> & E2).
    + cbn [map]. destruct seq as [|s2 seq].
      * cbn [symbols_string flat_map app] in E2. split; [reflexivity|]. exists w1. auto.
      * exfalso. inversion Fo' as [|x l O2 _]; subst. rewrite symbols_cons in E2.
        pose proof (printed_opens s2 O2) as (c & t' & Es & Oc). rewrite Es in E2. cbn [app] in E2.
        destruct w1 as [|x w1]; cbn [app] in E2.
        { destruct R'; [discriminate E2|]. injection E2 as <- _. cbn in St.
          destruct St as [S|[S|[S|S]]]; discriminate S. }
        injection E2 as <- E2. apply blanks_cons in Bw as (_ & Bw).
        assert (w1 = []) as -> by (eapply blanks_then; [exact Bw|exact (opener_not_blank _ Oc)|symmetry; exact E2]).
        cbn [app] in E2. apply (stop_not_opens R' St). rewrite <- E2. eexists _, _. split; [reflexivity|exact Oc].
    + destruct (IH w1 ts ss R R' Fo' Bw Ts St D E2) as (_ & -> & H). auto.
Qed.

(** ** Alternatives *)
Definition more_string (rest : substitution) : bytes := flat_map (fun s => s2b " |" ++ symbols_string s) rest.
Lemma more_cons s rest R :
  more_string (s :: rest) ++ R = " "%char :: "|"%char :: symbols_string s ++ more_string rest ++ R.
Proof. unfold more_string. cbn [flat_map]. rewrite <- !app_assoc. reflexivity. Qed.
Lemma more_delim rest R : line_end R -> delim (more_string rest ++ R).
Proof.
  intros L. destruct rest as [|s rest]; [left; exact L|]. right. rewrite more_cons. eexists. reflexivity.
Qed.

Lemma alternatives_read rest : forall s0 w t alts R R', Forall ok s0 -> Forall (Forall ok) rest ->
  blanks w -> alternatives_text t alts -> line_stop R' -> line_end R ->
  symbols_string s0 ++ more_string rest ++ R = w ++ t ++ R' ->
  alts = map (map fill) (s0 :: rest) /\ R = R'.
Proof.
  induction rest as [|s1 rest IH]; intros s0 w t alts R R' F0 Fr B T St L E.
  - cbn [more_string flat_map app] in E. destruct T as [t s T|t s w1 ts ss T Bw Ts].
    + destruct (sequence_read _ _ _ _ R R' F0 B T (line_stop_stop _ St) (or_introl L) E) as (_ & -> & w' & Bw & ->).
      split; [reflexivity|]. destruct w' as [|x w']; [reflexivity|]. apply blanks_cons in Bw as (-> & _). (cbn in L; discriminate L).
    + exfalso. rewrite <- app_assoc in E. cbn [app] in E.
      assert (St1 : stop ("|"%char :: (w1 ++ ts) ++ R')) by (left; reflexivity).
      destruct (sequence_read _ _ _ _ R _ F0 B T St1 (or_introl L) E) as (_ & _ & w' & Bw' & ->).
      destruct w' as [|x w']; [(cbn in L; discriminate L)|]. apply blanks_cons in Bw' as (-> & _). (cbn in L; discriminate L).
  - inversion Fr as [|x l F1 Fr']; subst. destruct T as [t s T|t s w1 ts ss T Bw Ts].
    + exfalso. destruct (sequence_read _ _ _ _ _ R' F0 B T (line_stop_stop _ St) (more_delim (s1 :: rest) R L) E) as (_ & _ & w' & Bw & Ew).
      rewrite more_cons in Ew. destruct w' as [|x w']; cbn [app] in Ew.
      * destruct R' as [|c R']; [discriminate Ew|]. injection Ew as <- _. destruct St as [S|[S|S]]; discriminate S.
      * injection Ew as <- Ew. apply blanks_cons in Bw as (_ & Bw).
        assert (w' = []) as -> by (eapply blanks_then; [exact Bw| |symmetry; exact Ew]; discriminate).
        cbn [app] in Ew. destruct R' as [|c R']; [discriminate Ew|]. injection Ew as <- _. destruct St as [S|[S|S]]; discriminate S.
    + rewrite <- app_assoc in E. cbn [app] in E.
      assert (St1 : stop ("|"%char :: (w1 ++ ts) ++ R')) by (left; reflexivity).
      destruct (sequence_read _ _ _ _ _ _ F0 B T St1 (more_delim (s1 :: rest) R L) E) as (_ & -> & w' & Bw' & Ew).
      rewrite more_cons in Ew. destruct w' as [|x w']; cbn [app] in Ew; [discriminate Ew|].
      injection Ew as <- Ew. apply blanks_cons in Bw' as (_ & Bw').
      assert (w' = []) as -> by (eapply blanks_then; [exact Bw'| |symmetry; exact Ew]; discriminate).
      cbn [app] in Ew. injection Ew as Ew. rewrite <- app_assoc in Ew.
      destruct (IH s1 w1 ts ss R R' F1 Fr' Bw Ts St L Ew) as (-> & ->). auto.
Qed.

Definition ok_rule (r : rule) : Prop := ~ In ">"%char (r_head r) /\ Forall (Forall ok) (r_tail r).
Definition fill_rule (r : rule) : rule := mkRule (r_head r) (map (map fill) (r_tail r)).

Lemma sequences_string_cons s0 rest : sequences_string (s0 :: rest) = symbols_string s0 ++ more_string rest.
Proof. reflexivity. Qed.

Lemma rule_read r r' w t R R' : ok_rule r -> blanks w -> rule_text t r' -> line_stop R' -> line_end R ->
  rule_string r ++ R = w ++ t ++ R' -> r' = fill_rule r /\ R = R'.
Proof.
  destruct r as [n tail]. intros (On & Ot) B T St L E. cbn [r_head r_tail] in *.
  unfold rule_string, nonterminal_string in E. cbn [r_head r_tail] in E. rewrite <- !app_assoc in E. cbn [app] in E.
  assert (w = []) as -> by (eapply blanks_then; [exact B| |symmetry; exact E]; discriminate).
  cbn [app] in E. destruct T as [n' w1 w2 t alts Hn B1 B2 T]. cbn [app] in E. injection E as E.
  rewrite <- !app_assoc in E. cbn [app] in E.
  pose proof (f_equal cut E) as C. rewrite (cut_name n), (cut_name n') in C by (assumption || apply name_closed; assumption).
  injection C as -> C. change (s2b " ::=") with (" "%char :: s2b "::=") in C. cbn [app] in C.
  destruct w1 as [|x w1]; [discriminate C|]. apply blanks_cons in B1 as (-> & B1). cbn [app] in C. injection C as C.
  assert (w1 = []) as -> by (eapply blanks_then; [exact B1| |rewrite <- !app_assoc in C; symmetry; exact C]; discriminate).
  cbn [app] in C. injection C as C. rewrite <- ?app_assoc in C.
  destruct tail as [|s0 rest].
  - exfalso. cbn [sequences_string app] in C. pose proof (opens_app _ R' (alternatives_opens _ _ T)) as P.
    destruct R as [|c R]; cbn in L.
    + destruct w2; [|discriminate C]. destruct P as (c & t' & E' & _). cbn [app] in C. rewrite E' in C. discriminate C.
    + subst c. assert (w2 = []) as -> by (eapply blanks_then; [exact B2| |symmetry; exact C]; discriminate).
      cbn [app] in C. destruct P as (c & t' & E' & Oc). rewrite E' in C. injection C as <- _.
      destruct Oc as [Oc|[Oc|Oc]]; discriminate Oc.
  - inversion Ot as [|x l O0 Or]; subst. rewrite sequences_string_cons, <- app_assoc in C.
    destruct (alternatives_read rest s0 w2 t alts R R' O0 Or B2 T St L C) as (-> & ->). auto.
Qed.

Lemma lines_stop rest h Z : lines_text rest h -> (Z = [] \/ exists r, Z = NUL :: r) -> line_stop (rest ++ Z).
Proof.
  intros [|e w rest' g [] _ _|e w t r rest' g [] _ _ _] HZ; cbn; auto.
  destruct HZ as [->|(r & ->)]; cbn; auto.
Qed.

Definition lines_string (g : grammar) : bytes := flat_map (fun r => LF :: rule_string r) g.
Lemma lines_line_end g : line_end (lines_string g).
Proof. destruct g; cbn; auto. Qed.

Lemma lines_read g : forall rest h Z, Forall ok_rule g -> lines_text rest h -> (Z = [] \/ exists r, Z = NUL :: r) ->
  lines_string g = rest ++ Z -> h = map fill_rule g /\ Z = [].
Proof.
  induction g as [|r g IH]; intros rest h Z F T HZ E.
  - cbn in E. destruct rest; [|discriminate E]. destruct Z; [|discriminate E].
    inversion T as [|e w rest' g' He|e w t r rest' g' He]; subst; auto; destruct He; discriminate.
  - inversion F as [|x l Fr F']; subst. cbn [lines_string flat_map] in E. cbn [app] in E. fold (lines_string g) in E.
    destruct T as [|e w rest' h He B T|e w t r' rest' h He B Tr T].
    + exfalso. cbn [app] in E. destruct HZ as [->|(y & ->)]; discriminate E.
    + exfalso. destruct He; [|discriminate E]. cbn [app] in E. injection E as E.
      unfold rule_string, nonterminal_string in E. rewrite <- !app_assoc in E. cbn [app] in E.
      assert (w = []) as -> by (eapply blanks_then; [exact B| |symmetry; exact E]; discriminate).
      cbn [app] in E. pose proof (lines_stop _ _ Z T HZ) as S. rewrite <- E in S. destruct S as [S|[S|S]]; discriminate S.
    + destruct He; [|discriminate E]. apply (f_equal (@tl ascii)) in E.
      change (rule_string r ++ lines_string g = ((w ++ t ++ rest') ++ Z)) in E. rewrite <- 2!app_assoc in E.
      destruct (rule_read r r' w t _ _ Fr B Tr (lines_stop _ _ Z T HZ) (lines_line_end g) E) as (-> & E').
      destruct (IH rest' h Z F' T HZ E') as (-> & ->). auto.
Qed.

Lemma grammar_read g text h Z : Forall ok_rule g -> bnf_text text h -> (Z = [] \/ exists r, Z = NUL :: r) ->
  grammar_string g = text ++ Z -> h = map fill_rule g /\ Z = [].
Proof.
  intros F T HZ E. destruct T as [w t r' rest h B Tr T]. rewrite <- !app_assoc in E.
  assert (P : exists y, t = "<"%char :: y) by (destruct Tr; eexists; reflexivity). destruct P as (y & Ey).
  destruct g as [|r g].
  - exfalso. cbn in E. destruct w; [|discriminate E]. subst t. discriminate E.
  - inversion F as [|x l Fr F']; subst. cbn [grammar_string] in E. fold (lines_string g) in E.
    destruct (rule_read r r' w _ _ _ Fr B Tr (lines_stop _ _ Z T HZ) (lines_line_end g) E) as (-> & E').
    destruct (lines_read g rest h Z F' T HZ E') as (-> & ->). auto.
Qed.

(** ** Printing the normal form *)
Lemma fill_string s : symbol_string (fill s) = symbol_string s.
Proof. destruct s as [n|[|c v]| |x]; reflexivity. Qed.
Lemma fill_symbols seq : symbols_string (map fill seq) = symbols_string seq.
Proof.
  unfold symbols_string. induction seq as [|s seq IH]; [reflexivity|]. cbn [map flat_map].
  rewrite fill_string, IH. reflexivity.
Qed.
Lemma fill_more rest : more_string (map (map fill) rest) = more_string rest.
Proof.
  unfold more_string. induction rest as [|s seq IH]; [reflexivity|]. cbn [map flat_map].
  rewrite fill_symbols, IH. reflexivity.
Qed.
Lemma fill_rule_string r : rule_string (fill_rule r) = rule_string r.
Proof.
  destruct r as [n [|s0 rest]]; [reflexivity|]. unfold rule_string, fill_rule. cbn [r_head r_tail map].
  rewrite !sequences_string_cons, fill_symbols, fill_more. reflexivity.
Qed.
Lemma fill_lines g : lines_string (map fill_rule g) = lines_string g.
Proof.
  unfold lines_string. induction g as [|r g IH]; [reflexivity|]. cbn [map flat_map].
  rewrite fill_rule_string, IH. reflexivity.
Qed.
Lemma fill_grammar_string g : grammar_string (nothing_for_empty g) = grammar_string g.
Proof.
  destruct g as [|r g]; [reflexivity|]. unfold nothing_for_empty. cbn [map grammar_string].
  fold (fill_rule r). fold fill_rule. fold (lines_string (map fill_rule g)) (lines_string g).
  rewrite fill_rule_string, fill_lines. reflexivity.
Qed.

Lemma closed_ok g : closed_names g -> Forall ok_rule g.
Proof.
  intros (A & B). apply Forall_forall. intros r Hr. split.
  - apply B. left. eauto.
  - apply Forall_forall. intros seq Hs. apply Forall_forall. intros s Hi.
    assert (Oc : occurs g s) by (exists r, seq; auto). pose proof (A _ Oc) as O.
    destruct s as [n|v| |x]; cbn in O |- *; auto. apply B. right. exact Oc.
Qed.

(** ** Two grammars with the same text *)
Lemma symbols_lex a : forall b R R', Forall ok a -> Forall ok b -> delim R -> delim R' ->
  symbols_string a ++ R = symbols_string b ++ R' -> map fill a = map fill b /\ R = R'.
Proof.
  assert (N : forall s X R, ok s -> delim R -> " "%char :: symbol_string s ++ X <> R).
  { intros s X R O D E. destruct (printed_opens s O) as (c & t & Es & Oc). rewrite Es in E. cbn [app] in E. subst R.
    destruct D as [D|(r & D)]; [cbn in D; discriminate D|]. injection D as -> _. destruct Oc as [Oc|[Oc|Oc]]; discriminate Oc. }
  induction a as [|s a IH]; intros [|s' b] R R' Fa Fb D D' E.
  - cbn in E. auto.
  - exfalso. inversion Fb as [|x l O _]; subst. rewrite symbols_cons in E. cbn [symbols_string flat_map app] in E.
    exact (N _ _ _ O D (eq_sym E)).
  - exfalso. inversion Fa as [|x l O _]; subst. rewrite symbols_cons in E. cbn [symbols_string flat_map app] in E.
    exact (N _ _ _ O D' E).
  - inversion Fa as [|x l O Fa']; inversion Fb as [|x' l' O' Fb']; subst. rewrite !symbols_cons in E. injection E as E.
    destruct (symbol_lex _ _ _ _ O O' E) as (Es & E'). destruct (IH b R R' Fa' Fb' D D' E') as (Em & ->).
    cbn [map]. rewrite Es, Em. auto.
Qed.

Lemma more_lex a : forall b R R', Forall (Forall ok) a -> Forall (Forall ok) b -> line_end R -> line_end R' ->
  more_string a ++ R = more_string b ++ R' -> map (map fill) a = map (map fill) b /\ R = R'.
Proof.
  induction a as [|s a IH]; intros [|s' b] R R' Fa Fb L L' E.
  - auto.
  - exfalso. rewrite more_cons in E. cbn in E. subst R. (cbn in L; discriminate L).
  - exfalso. rewrite more_cons in E. cbn in E. subst R'. (cbn in L'; discriminate L').
  - inversion Fa as [|x l O Fa']; inversion Fb as [|x' l' O' Fb']; subst. rewrite !more_cons in E. injection E as E.
    destruct (symbols_lex _ _ _ _ O O' (more_delim a R L) (more_delim b R' L') E) as (Es & E').
    destruct (IH b R R' Fa' Fb' L L' E') as (Em & ->). cbn [map]. rewrite Es, Em. auto.
Qed.

Lemma fill_alike s s' : fill s = fill s' <-> alike_symbol s s'.
Proof.
  split.
  - destruct s as [n|[|c v]| |x]; destruct s' as [n'|[|c' v']| |x']; cbn; intros E; inversion E; constructor.
  - intros []; reflexivity.
Qed.
Lemma map_alike {A B} (f : A -> B) (P : A -> A -> Prop) : (forall a b, f a = f b <-> P a b) ->
  forall l l', map f l = map f l' <-> Forall2 P l l'.
Proof.
  intros H. induction l as [|a l IH]; intros [|b l']; cbn [map]; split; intros E; try discriminate E; try (inversion E; fail); auto.
  - injection E as E1 E2. constructor; [apply H, E1|apply IH, E2].
  - inversion E; subst. f_equal; [apply H; assumption|apply IH; assumption].
Qed.
Lemma fill_alike_all a b : map (map fill) a = map (map fill) b <-> Forall2 (Forall2 alike_symbol) a b.
Proof. apply map_alike. intros x y. apply map_alike. exact fill_alike. Qed.

Lemma rule_lex r r' R R' : ok_rule r -> ok_rule r' -> line_end R -> line_end R' ->
  rule_string r ++ R = rule_string r' ++ R' -> alike_rule r r' /\ R = R'.
Proof.
  destruct r as [n a]. destruct r' as [n' b]. intros (On & Oa) (On' & Ob) L L' E. cbn [r_head r_tail] in *.
  unfold rule_string, nonterminal_string in E. cbn [r_head r_tail] in E. cbn [app] in E. injection E as E.
  rewrite <- !app_assoc in E. cbn [app] in E.
  pose proof (f_equal cut E) as C. rewrite (cut_name n), (cut_name n') in C by assumption.
  injection C as -> C. unfold alike_rule. cbn [r_head r_tail].
  assert (Q : alike_tail a b /\ R = R'); [|tauto].
  destruct a as [|s0 a]; destruct b as [|s0' b]; rewrite ?sequences_string_cons, <- ?app_assoc in C.
  - cbn in C. split; [apply at_symbols; constructor|exact C].
  - inversion Ob as [|x l O0 Or]; subst. cbn [sequences_string] in C.
    change ([] ++ R) with (symbols_string [] ++ more_string [] ++ R) in C.
    destruct (symbols_lex _ _ _ _ (Forall_nil _) O0 (more_delim [] R L) (more_delim b R' L') C) as (E1 & E2).
    destruct (more_lex [] b R R' (Forall_nil _) Or L L' E2) as (E3 & ->).
    destruct s0'; [|discriminate E1]. destruct b; [|discriminate E3]. split; [exact at_none1|reflexivity].
  - inversion Oa as [|x l O0 Or]; subst. cbn [sequences_string] in C.
    change ([] ++ R') with (symbols_string [] ++ more_string [] ++ R') in C.
    destruct (symbols_lex _ _ _ _ O0 (Forall_nil _) (more_delim a R L) (more_delim [] R' L') C) as (E1 & E2).
    destruct (more_lex a [] R R' Or (Forall_nil _) L L' E2) as (E3 & ->).
    destruct s0; [|discriminate E1]. destruct a; [|discriminate E3]. split; [exact at_none2|reflexivity].
  - inversion Oa as [|x l O0 Or]; inversion Ob as [|x' l' O0' Or']; subst.
    destruct (symbols_lex _ _ _ _ O0 O0' (more_delim a R L) (more_delim b R' L') C) as (E1 & E2).
    destruct (more_lex a b R R' Or Or' L L' E2) as (E3 & ->).
    split; [|reflexivity]. apply at_symbols. apply fill_alike_all. cbn [map]. rewrite E1, E3. reflexivity.
Qed.

Lemma lines_lex g : forall g', Forall ok_rule g -> Forall ok_rule g' -> lines_string g = lines_string g' -> alike g g'.
Proof.
  induction g as [|r g IH]; intros [|r' g'] F F' E; try discriminate E; [constructor|].
  inversion F as [|x l O Fo]; inversion F' as [|x' l' O' Fo']; subst.
  apply (f_equal (@tl ascii)) in E. change (rule_string r ++ lines_string g = rule_string r' ++ lines_string g') in E.
  destruct (rule_lex r r' _ _ O O' (lines_line_end g) (lines_line_end g') E) as (A & E').
  constructor; [exact A|]. apply IH; assumption.
Qed.

Lemma grammar_lex g g' : Forall ok_rule g -> Forall ok_rule g' -> grammar_string g = grammar_string g' -> alike g g'.
Proof.
  intros F F' E. apply lines_lex; [exact F|exact F'|]. unfold lines_string.
  destruct g as [|r g]; destruct g' as [|r' g']; cbn [grammar_string flat_map app] in *; try discriminate E; [reflexivity|].
  rewrite E. reflexivity.
Qed.

Lemma alike_symbols a b : Forall2 alike_symbol a b -> symbols_string a = symbols_string b.
Proof.
  unfold symbols_string. induction 1 as [|s s' a b H _ IH]; [reflexivity|]. cbn [flat_map]. rewrite IH.
  destruct H; reflexivity.
Qed.
Lemma alike_rule_string r r' : alike_rule r r' -> rule_string r = rule_string r'.
Proof.
  destruct r as [n a]. destruct r' as [n' b]. intros (E & A). cbn [r_head r_tail] in *. subst n'.
  unfold rule_string. cbn [r_head r_tail]. f_equal. f_equal. destruct A as [a b A| |]; [|reflexivity|reflexivity].
  destruct A as [|s s' a b H A]; [reflexivity|]. rewrite !sequences_string_cons, (alike_symbols _ _ H). f_equal.
  unfold more_string. induction A as [|x y l l' Hx _ IH]; [reflexivity|]. cbn [flat_map]. rewrite IH, (alike_symbols _ _ Hx). reflexivity.
Qed.
Lemma alike_string g g' : alike g g' -> grammar_string g = grammar_string g'.
Proof.
  intros [|r r' l l' H A]; [reflexivity|]. cbn [grammar_string]. rewrite (alike_rule_string _ _ H). f_equal.
  induction A as [|x y m m' Hx _ IH]; [reflexivity|]. cbn [flat_map]. rewrite IH, (alike_rule_string _ _ Hx). reflexivity.
Qed.
