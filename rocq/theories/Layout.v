(** * Layout: a BNF text is read token by token. *)
From Verif Require Import Base Ast Spec_Bnf BnfDet Spec_Layout.

(** ** Tokens are found in one way only *)
Lemma token_split k x k' x' r r' : token_text k x -> token_text k' x' -> k ++ r = k' ++ r' -> k = k' /\ x = x' /\ r = r'.
Proof.
  intros H H' E.
  destruct H as [n Hn|q raw v Q Hq| |]; destruct H' as [n' Hn'|q' raw' v' Q' Hq'| |]; cbn in E; rewrite <- ?app_assoc in E; cbn in E;
    try discriminate; try (destruct Q as [-> | ->]; discriminate); try (destruct Q' as [-> | ->]; discriminate).
  - injection E as E. destruct (name_split _ _ _ _ Hn Hn' E) as (-> & ->). auto.
  - injection E as -> E. destruct (quoted_split _ _ _ Q Hq _ _ _ _ Hq' E) as (-> & -> & ->). auto.
  - injection E as ->. auto.
  - injection E as ->. auto.
Qed.
Lemma token_start k x : token_text k x -> exists c s, k = c :: s /\ c <> " "%char /\ c <> LF /\ c <> CR.
Proof.
  intros [n Hn|q raw v Q Hq| |]; eexists; eexists; (split; [reflexivity|]);
    try (repeat split; discriminate). destruct Q as [-> | ->]; repeat split; discriminate.
Qed.
Lemma tokens_fun t l : tokens t l -> forall l', tokens t l' -> l = l'.
Proof.
  induction 1 as [|t l H IH|k x t l Hk H IH|e t l He H IH]; intros l' H'.
  - inversion H' as [| |k x t l Hk ? E|e t l He ? E]; [reflexivity| |].
    + destruct (token_start _ _ Hk) as (c & s & -> & _). discriminate.
    + destruct He; discriminate.
  - inversion H' as [|? ? ?|k x t' l0 Hk ? E|e t' l0 He ? E]; subst; [auto| |].
    + destruct (token_start _ _ Hk) as (c & s & -> & N & _). injection E as E _. congruence.
    + destruct He; discriminate.
  - remember (k ++ t) as u eqn:Eu. destruct H' as [|t' l' H'|k' x' t' l' Hk' H'|e t' l' He H'].
    + destruct (token_start _ _ Hk) as (c & s & -> & _). discriminate.
    + destruct (token_start _ _ Hk) as (c & s & -> & N & _). injection Eu as E _. congruence.
    + destruct (token_split _ _ _ _ _ _ Hk' Hk Eu) as (-> & -> & ->). f_equal. auto.
    + destruct (token_start _ _ Hk) as (c & s & -> & _ & N & N'). destruct He; injection Eu as E _; congruence.
  - remember (e ++ t) as u eqn:Eu. destruct H' as [|t' l' H'|k' x' t' l' Hk' H'|e' t' l' He' H'].
    + destruct He; discriminate.
    + destruct He; discriminate.
    + destruct (token_start _ _ Hk') as (c & s & -> & _ & N & N'). destruct He; injection Eu as E _; congruence.
    + f_equal. destruct He, He'; try discriminate; injection Eu as ->; auto.
Qed.
Lemma tokens_blanks w t l : blanks w -> tokens t l -> tokens (w ++ t) l.
Proof.
  intros B H. induction B as [|c w Hc B IH]; [exact H|]. apply Ascii.eqb_eq in Hc. subst c.
  cbn. constructor. exact IH.
Qed.
Lemma tokens_cons t y l : tokens t (y :: l) -> exists w k t2, t = w ++ k ++ t2 /\ blanks w /\
  match y with Some x => token_text k x | None => eol k end /\ tokens t2 l.
Proof.
  intros H. remember (y :: l) as u eqn:E. induction H as [|t l0 H IH|k x t l0 Hk H _|e t l0 He H _]; [discriminate| | |].
  - destruct (IH E) as (w & k & t2 & -> & B & Hy & H2). exists (" "%char :: w), k, t2. split; [reflexivity|].
    split; [constructor; [reflexivity|exact B]|auto].
  - injection E as <- <-. exists [], k, t. repeat split; auto. constructor.
  - injection E as <- <-. exists [], e, t. repeat split; auto. constructor.
Qed.
Lemma tokens_nil t : tokens t [] -> blanks t.
Proof.
  intros H. remember [] as u eqn:E. induction H as [|t l0 H IH|k x t l0 Hk H _|e t l0 He H _]; try discriminate.
  - constructor.
  - constructor; [reflexivity|]. apply IH, E.
Qed.

(** ** Lines *)
Lemma lines_app x l : lines (map Some x ++ l) = (x ++ hd [] (lines l)) :: tl (lines l).
Proof.
  induction x as [|k x IH]; cbn [map app lines].
  - destruct l as [|[k|] l]; cbn [lines hd tl app]; [reflexivity| |reflexivity]. destruct (lines l); reflexivity.
  - rewrite IH. reflexivity.
Qed.
Lemma lines_split : forall l y ys, lines l = y :: ys -> exists l2, l = map Some y ++ l2 /\
  hd [] (lines l2) = [] /\ tl (lines l2) = ys /\ length l2 <= length l.
Proof.
  induction l as [|[k|] l IH]; intros y ys E; cbn [lines] in E.
  - injection E as <- <-. exists []. auto.
  - destruct (lines l) as [|z zs] eqn:El.
    + injection E as <- <-. destruct l as [|[?|] l]; cbn in El; try discriminate. destruct (lines l); discriminate.
    + injection E as <- <-. destruct (IH _ _ eq_refl) as (l2 & -> & H1 & H2 & H3). exists l2. split; [reflexivity|].
      split; [exact H1|]. split; [exact H2|]. cbn [length]. lia.
  - injection E as <- <-. exists (None :: l). auto.
Qed.

(** ** The tokens of a grammar *)
Definition tok_of (s : symbol) : token :=
  match s with SNonTerminal n => KName n | STerminal v => KLiteral v | SNothing => KLiteral [] | SUnknown _ => KBar end.
Fixpoint alts_toks (ss : substitution) : list token :=
  match ss with
  | [] => []
  | s :: ss' => map tok_of s ++ match ss' with [] => [] | _ :: _ => KBar :: alts_toks ss' end
  end.
Definition rule_toks (r : rule) : list token := KName (r_head r) :: KDefined :: alts_toks (r_tail r).
Definition filled : list (list token) -> list (list token) := filter (fun x => negb (Nat.eqb (length x) 0)).

Lemma tok_literal v : tok_of (literal_symbol v) = KLiteral v.
Proof. destruct v; reflexivity. Qed.
Lemma symbol_tok t s : symbol_text t s -> token_text t (tok_of s).
Proof.
  intros H. destruct (symbol_text_cases _ _ H) as [(n & Hn & -> & ->)|(q & raw & v & Q & Hq & -> & ->)].
  - constructor. exact Hn.
  - rewrite tok_literal. constructor; assumption.
Qed.
Lemma tok_symbol t s : printable_symbol s -> token_text t (tok_of s) -> symbol_text t s.
Proof.
  destruct s as [n|v| |u]; cbn; intros P H; [| | |contradiction]; inversion H; subst.
  - constructor. assumption.
  - apply sy_terminal; tauto.
  - change SNothing with (literal_symbol []). apply literal_text; assumption.
Qed.

(** From the notation to tokens *)
Lemma sequence_toks t s : sequence_text t s -> forall t' l, tokens t' l -> tokens (t ++ t') (map Some (map tok_of s) ++ l).
Proof.
  induction 1 as [t w s H B|t w s ts ss H B _ IH]; intros t' l T; rewrite <- ?app_assoc; cbn [map app].
  - apply tk_token; [apply symbol_tok, H|]. apply tokens_blanks; assumption.
  - apply tk_token; [apply symbol_tok, H|]. apply tokens_blanks; [exact B|]. apply IH, T.
Qed.
Lemma alts_toks_text t ss : alternatives_text t ss -> forall t' l, tokens t' l ->
  tokens (t ++ t') (map Some (alts_toks ss) ++ l).
Proof.
  induction 1 as [t s H|t s w ts ss H B A IH]; intros t' l T.
  - cbn [alts_toks]. rewrite app_nil_r. apply sequence_toks; assumption.
  - assert (N : ss <> []) by (destruct A; discriminate).
    cbn [alts_toks]. destruct ss as [|s1 ss]; [congruence|]. rewrite map_app, <- !app_assoc. cbn [map app].
    apply sequence_toks; [exact H|]. rewrite <- app_assoc.
    change ("|"%char :: w ++ ts ++ t') with (["|"%char] ++ w ++ ts ++ t').
    apply tk_token; [constructor|]. apply tokens_blanks; [exact B|]. apply IH, T.
Qed.
Lemma rule_toks_text t r : rule_text t r -> forall t' l, tokens t' l -> tokens (t ++ t') (map Some (rule_toks r) ++ l).
Proof.
  intros [n w1 w2 ts alts Hn B1 B2 A] t' l T. unfold rule_toks. cbn [r_head r_tail].
  replace (("<"%char :: n ++ ">"%char :: w1 ++ s2b "::=" ++ w2 ++ ts) ++ t')
    with (("<"%char :: n ++ [">"%char]) ++ w1 ++ s2b "::=" ++ w2 ++ ts ++ t').
  2:{ cbn. repeat (rewrite <- !app_assoc; cbn). reflexivity. }
  cbn [map]. apply (tk_token _ (KName n)); [constructor; exact Hn|]. apply tokens_blanks; [exact B1|].
  apply tk_token; [constructor|]. apply tokens_blanks; [exact B2|]. apply alts_toks_text; assumption.
Qed.
Lemma lines_toks rest g : lines_text rest g -> exists l, tokens rest l /\ hd [] (lines l) = [] /\
  filled (tl (lines l)) = map rule_toks g.
Proof.
  induction 1 as [|e w rest g He B _ (l & T & H1 & H2)|e w t r rest g He B R _ (l & T & H1 & H2)].
  - exists []. repeat split. constructor.
  - exists (None :: l). split; [apply tk_eol; [exact He|]; apply tokens_blanks; assumption|]. split; [reflexivity|].
    cbn [lines tl map]. destruct l as [|[k|] l]; cbn in H1 |- *; [exact H2| |exact H2]. destruct (lines l); discriminate.
  - exists (None :: map Some (rule_toks r) ++ l).
    split; [apply tk_eol; [exact He|]; apply tokens_blanks; [exact B|]; apply rule_toks_text; assumption|].
    split; [reflexivity|]. cbn [lines tl]. rewrite lines_app, H1, app_nil_r. cbn [filled filter map].
    unfold rule_toks at 1. cbn [length Nat.eqb negb]. f_equal. exact H2.
Qed.
Lemma bnf_toks text g : bnf_text text g -> exists l r g', g = r :: g' /\ tokens text l /\ hd [] (lines l) = rule_toks r /\
  filled (tl (lines l)) = map rule_toks g'.
Proof.
  intros [w t r rest g' B R L]. destruct (lines_toks _ _ L) as (l & T & H1 & H2).
  exists (map Some (rule_toks r) ++ l), r, g'. split; [reflexivity|]. rewrite lines_app. cbn [hd tl]. rewrite H1, app_nil_r.
  split; [|auto]. apply tokens_blanks; [exact B|]. apply rule_toks_text; assumption.
Qed.

(** And back *)
Lemma blanks_app a b : blanks a -> blanks b -> blanks (a ++ b).
Proof. intros A B. apply Forall_app. auto. Qed.
Lemma sequence_blanks t s w : sequence_text t s -> blanks w -> sequence_text (t ++ w) s.
Proof.
  induction 1 as [t w0 s H B|t w0 s ts ss H B _ IH]; intros W; rewrite <- ?app_assoc.
  - apply sq_last; [exact H|]. apply blanks_app; assumption.
  - apply sq_more; auto.
Qed.
Lemma alternatives_blanks t ss w : alternatives_text t ss -> blanks w -> alternatives_text (t ++ w) ss.
Proof.
  induction 1 as [t s H|t s w0 ts ss H B A IH]; intros W.
  - constructor. apply sequence_blanks; assumption.
  - rewrite <- app_assoc. cbn [app]. rewrite <- app_assoc. apply al_more; auto.
Qed.
Lemma rule_blanks t r w : rule_text t r -> blanks w -> rule_text (t ++ w) r.
Proof.
  intros [n w1 w2 ts alts Hn B1 B2 A] W.
  replace (("<"%char :: n ++ ">"%char :: w1 ++ s2b "::=" ++ w2 ++ ts) ++ w)
    with ("<"%char :: n ++ ">"%char :: w1 ++ s2b "::=" ++ w2 ++ (ts ++ w)).
  2:{ cbn. repeat (rewrite <- !app_assoc; cbn). reflexivity. }
  constructor; auto. apply alternatives_blanks; assumption.
Qed.
Lemma sequence_back s : printable_sequence s -> forall t l, tokens t (map Some (map tok_of s) ++ l) ->
  exists w t1 t2, t = w ++ t1 ++ t2 /\ blanks w /\ sequence_text t1 s /\ tokens t2 l.
Proof.
  intros (N & P). induction P as [|x s Px P IH]; [congruence|]. intros t l T. cbn [map app] in T.
  destruct (tokens_cons _ _ _ T) as (w & k & t2 & -> & B & K & T2). apply tok_symbol in K; [|exact Px].
  destruct s as [|y s].
  - exists w, (k ++ []), t2. rewrite app_nil_r. split; [reflexivity|]. split; [exact B|]. split; [|exact T2].
    rewrite <- (app_nil_r k). apply sq_last; [exact K|constructor].
  - destruct (IH ltac:(discriminate) _ _ T2) as (w2 & t3 & t4 & -> & B2 & S3 & T4).
    exists w, (k ++ w2 ++ t3), t4. split; [rewrite <- !app_assoc; reflexivity|]. split; [exact B|]. split; [|exact T4].
    apply sq_more; assumption.
Qed.
Lemma alternatives_back ss : ss <> [] -> Forall printable_sequence ss -> forall t l,
  tokens t (map Some (alts_toks ss) ++ l) ->
  exists w t1 t2, t = w ++ t1 ++ t2 /\ blanks w /\ alternatives_text t1 ss /\ tokens t2 l.
Proof.
  intros N P. induction P as [|s ss Ps P IH]; [congruence|]. intros t l T. cbn [alts_toks] in T.
  destruct ss as [|s1 ss].
  - rewrite app_nil_r in T. destruct (sequence_back _ Ps _ _ T) as (w & t1 & t2 & -> & B & S & T2).
    exists w, t1, t2. repeat split; auto. constructor. exact S.
  - rewrite map_app, <- app_assoc in T. cbn [map app] in T.
    destruct (sequence_back _ Ps _ _ T) as (w & t1 & t2 & -> & B & S & T2).
    destruct (tokens_cons _ _ _ T2) as (w2 & k & t3 & -> & B2 & K & T3). inversion K; subst.
    { destruct (IH ltac:(discriminate) _ _ T3) as (w3 & t4 & t5 & -> & B3 & A & T5).
      exists w, ((t1 ++ w2) ++ "|"%char :: w3 ++ t4), t5. split.
      - rewrite <- !app_assoc. cbn. rewrite <- !app_assoc. reflexivity.
      - split; [exact B|]. split; [|exact T5]. apply al_more; auto. apply sequence_blanks; assumption. }
Qed.
Lemma rule_back r : printable_rule r -> forall t l, tokens t (map Some (rule_toks r) ++ l) ->
  exists w t1 t2, t = w ++ t1 ++ t2 /\ blanks w /\ rule_text t1 r /\ tokens t2 l.
Proof.
  destruct r as [n alts]. intros (Pn & Na & P) t l T. unfold rule_toks in T. cbn [r_head r_tail map app] in *.
  destruct (tokens_cons _ _ _ T) as (w & k & t2 & -> & B & K & T2). inversion K; subst.
  destruct (tokens_cons _ _ _ T2) as (w2 & k & t3 & -> & B2 & K2 & T3). inversion K2; subst.
  destruct (alternatives_back _ Na P _ _ T3) as (w3 & t4 & t5 & -> & B3 & A & T5).
  exists w, ("<"%char :: n ++ ">"%char :: w2 ++ s2b "::=" ++ w3 ++ t4), t5. split.
  - cbn. rewrite <- !app_assoc. cbn. rewrite <- !app_assoc. cbn. rewrite <- !app_assoc. reflexivity.
  - split; [exact B|]. split; [|exact T5]. constructor; auto.
Qed.
Lemma lines_cons l : exists y ys, lines l = y :: ys.
Proof. destruct l as [|[k|] l]; cbn; eauto. destruct (lines l); eauto. Qed.
Lemma lines_back : forall n l g t, length l <= n -> Forall printable_rule g -> tokens t l -> hd [] (lines l) = [] ->
  filled (tl (lines l)) = map rule_toks g -> exists w rest, t = w ++ rest /\ blanks w /\ lines_text rest g.
Proof.
  induction n as [|n IH]; intros l g t Ln P T H1 H2; (destruct l as [|[k|] l]; cbn [length] in Ln; try lia).
  - destruct g; [|discriminate]. exists t, []. rewrite app_nil_r. split; [reflexivity|]. split; [apply tokens_nil, T|constructor].
  - destruct g; [|discriminate]. exists t, []. rewrite app_nil_r. split; [reflexivity|]. split; [apply tokens_nil, T|constructor].
  - cbn [lines] in H1. destruct (lines l); discriminate.
  - cbn [lines tl] in H2. destruct (tokens_cons _ _ _ T) as (w & e & t2 & -> & B & He & T2).
    destruct (lines_cons l) as (y & ys & El). destruct y as [|k y].
    + destruct (IH l g t2 ltac:(lia) P T2) as (w2 & rest & -> & B2 & L).
      { rewrite El. reflexivity. } { rewrite El in *. exact H2. }
      exists w, (e ++ w2 ++ rest). split; [reflexivity|]. split; [exact B|]. apply li_blank; assumption.
    + rewrite El in H2. cbn in H2. destruct g as [|r g]; [discriminate|]. cbn [map] in H2.
      inversion P as [|? ? Pr P']; subst. assert (Er : k :: y = rule_toks r) by exact (f_equal (hd []) H2).
      assert (E1 : filled ys = map rule_toks g) by exact (f_equal (@tl _) H2).
      destruct (lines_split _ _ _ El) as (l2 & -> & G1 & G2 & G3).
      rewrite Er in T2. destruct (rule_back _ Pr _ _ T2) as (w2 & t3 & t4 & -> & B2 & R & T4).
      rewrite <- G2 in E1. destruct (IH l2 g t4 ltac:(lia) P' T4 G1 E1) as (w3 & rest & -> & B3 & L).
      exists w, (e ++ w2 ++ (t3 ++ w3) ++ rest). split; [rewrite <- !app_assoc; reflexivity|]. split; [exact B|].
      apply li_rule; auto. apply rule_blanks; assumption.
Qed.
Lemma toks_bnf text l r g : printable_grammar (r :: g) -> tokens text l -> hd [] (lines l) = rule_toks r ->
  filled (tl (lines l)) = map rule_toks g -> bnf_text text (r :: g).
Proof.
  intros (_ & P) T H1 H2. inversion P as [|? ? Pr P']; subst. destruct (lines_cons l) as (y & ys & El).
  destruct (lines_split _ _ _ El) as (l2 & -> & G1 & G2 & _). rewrite El in *. cbn [hd tl] in *. subst y.
  destruct (rule_back _ Pr _ _ T) as (w & t1 & t2 & -> & B & R & T2). rewrite <- G2 in H2.
  destruct (lines_back _ _ _ _ (le_n _) P' T2 G1 H2) as (w2 & rest & -> & B2 & L).
  rewrite (app_assoc t1). constructor; auto. apply rule_blanks; assumption.
Qed.
