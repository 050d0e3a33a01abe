(** * BnfDet: the BNF notation of Spec_Bnf is unambiguous. *)
From Verif Require Import Base Ast Spec_Bnf.

(** [r] does not start with one of the bytes [l]. *)
Definition stops (l : list ascii) (r : bytes) : Prop :=
  match r with [] => True | c :: _ => ~ In c l end.

Lemma all_split p a : all p a -> forall b r r',
  all p b -> (forall c, In c (firstn 1 r) -> p c = false) -> (forall c, In c (firstn 1 r') -> p c = false) ->
  a ++ r = b ++ r' -> a = b /\ r = r'.
Proof.
  intros Ha. induction Ha as [|c a Hc Ha IH]; intros b r r' Hb S S' E.
  - destruct b as [|d b]; [auto|]. inversion Hb; subst. cbn in E. subst r.
    rewrite S in H1; [discriminate|left; reflexivity].
  - destruct b as [|d b].
    + cbn in E. subst r'. rewrite S' in Hc; [discriminate|left; reflexivity].
    + inversion Hb; subst. injection E as -> E. destruct (IH b r r' H2 S S' E) as (-> & ->). auto.
Qed.

Lemma blanks_split a b r r' : blanks a -> blanks b -> stops [" "%char] r -> stops [" "%char] r' ->
  a ++ r = b ++ r' -> a = b /\ r = r'.
Proof.
  assert (F : forall x, stops [" "%char] x -> forall c, In c (firstn 1 x) -> Ascii.eqb " "%char c = false).
  { intros [|y x] Hx c Hc; [destruct Hc|]. destruct Hc as [<-|[]].
    destruct (Ascii.eqb_spec " "%char y) as [<-|]; [|reflexivity]. destruct Hx. left. reflexivity. }
  intros Ha Hb S S'. exact (all_split _ a Ha b r r' Hb (F r S) (F r' S')).
Qed.

Lemma letter_name c : is_letter c = true -> is_name_char c = true.
Proof. intros H. unfold is_name_char. rewrite H. reflexivity. Qed.
Lemma name_all n : name n -> all is_name_char n.
Proof. intros (c & s & -> & H & A). constructor; [apply letter_name, H|exact A]. Qed.

Lemma name_split a b r r' : name a -> name b -> a ++ ">"%char :: r = b ++ ">"%char :: r' -> a = b /\ r = r'.
Proof.
  intros Ha Hb E. apply name_all in Ha. apply name_all in Hb.
  destruct (all_split _ a Ha b (">"%char :: r) (">"%char :: r') Hb) as (-> & H); auto.
  - intros c [<-|[]]. reflexivity.
  - intros c [<-|[]]. reflexivity.
  - injection H. auto.
Qed.

Lemma quote_not_bsl q : quote q -> q <> BSL.
Proof. intros [-> | ->]; discriminate. Qed.
Lemma escape_fun e c c' : escape e c -> escape e c' -> c = c'.
Proof. intros H H'. destruct H; inversion H'; reflexivity. Qed.

Lemma quoted_split q raw v : quote q -> quoted q raw v -> forall raw' v' r r',
  quoted q raw' v' -> raw ++ q :: r = raw' ++ q :: r' -> raw = raw' /\ v = v' /\ r = r'.
Proof.
  intros Q H. induction H as [|c raw v P N B H IH|e c raw v Es H IH]; intros raw' v' r r' H' E.
  - inversion H'; subst; cbn in E.
    + injection E. auto.
    + injection E as -> _. congruence.
    + injection E as -> _. destruct (quote_not_bsl _ Q eq_refl).
  - inversion H'; subst; cbn in E.
    + injection E as -> _. congruence.
    + injection E as -> E. destruct (IH _ _ _ _ H3 E) as (-> & -> & ->). auto.
    + injection E as -> _. congruence.
  - inversion H'; subst; cbn in E.
    + injection E as E0 _. destruct (quote_not_bsl _ Q (eq_sym E0)).
    + injection E as E0 _. congruence.
    + injection E as -> E. destruct (IH _ _ _ _ H1 E) as (-> & -> & ->).
      rewrite (escape_fun _ _ _ Es H0). auto.
Qed.

(** A literal denotes the terminal of its bytes, or the empty symbol. *)
Definition literal_symbol (v : bytes) : symbol := match v with [] => SNothing | _ => STerminal v end.

Lemma quoted_nil_inv q raw : quoted q raw [] -> raw = [].
Proof. inversion 1. reflexivity. Qed.

Lemma symbol_text_cases t s : symbol_text t s ->
  (exists n, name n /\ t = "<"%char :: n ++ [">"%char] /\ s = SNonTerminal n) \/
  (exists q raw v, quote q /\ quoted q raw v /\ t = q :: raw ++ [q] /\ s = literal_symbol v).
Proof.
  intros H. destruct H as [n Hn|q raw v Q Hq Hv|q Q].
  - left. eauto.
  - right. exists q, raw, v. repeat split; auto. destruct v; [congruence|reflexivity].
  - right. exists q, [], []. repeat split; auto. constructor.
Qed.
Lemma literal_text q raw v : quote q -> quoted q raw v -> symbol_text (q :: raw ++ [q]) (literal_symbol v).
Proof.
  intros Q H. destruct v as [|c v].
  - apply quoted_nil_inv in H. subst raw. apply sy_nothing, Q.
  - apply sy_terminal; [exact Q|exact H|discriminate].
Qed.

Lemma symbol_split t s t' s' r r' : symbol_text t s -> symbol_text t' s' ->
  t ++ r = t' ++ r' -> t = t' /\ s = s' /\ r = r'.
Proof.
  intros H H' E.
  destruct (symbol_text_cases _ _ H) as [(n & Hn & -> & ->)|(q & raw & v & Q & Hq & -> & ->)];
  destruct (symbol_text_cases _ _ H') as [(n' & Hn' & -> & ->)|(q' & raw' & v' & Q' & Hq' & -> & ->)];
  cbn in E; rewrite <- ?app_assoc in E; cbn in E.
  - injection E as E. destruct (name_split _ _ _ _ Hn Hn' E) as (-> & ->). auto.
  - destruct Q' as [-> | ->]; discriminate.
  - destruct Q as [-> | ->]; discriminate.
  - injection E as -> E. destruct (quoted_split _ _ _ Q Hq _ _ _ _ Hq' E) as (-> & -> & ->). auto.
Qed.

Definition starters : list ascii := ["<"%char; DQ; SQ].
Definition starts (t : bytes) : Prop := exists c r, t = c :: r /\ In c starters.
Lemma symbol_starts t s : symbol_text t s -> starts t.
Proof.
  intros H. destruct (symbol_text_cases _ _ H) as [(n & Hn & -> & _)|(q & raw & v & Q & Hq & -> & _)];
    eexists; eexists; (split; [reflexivity|]); cbn; [auto|].
  destruct Q as [-> | ->]; auto.
Qed.
Lemma starts_app t r : starts t -> starts (t ++ r).
Proof. intros (c & x & -> & H). exists c, (x ++ r). auto. Qed.
Lemma sequence_starts t s : sequence_text t s -> starts t.
Proof. intros H. destruct H; apply starts_app; eapply symbol_starts; eassumption. Qed.
Lemma alternatives_starts t s : alternatives_text t s -> starts t.
Proof. intros H. destruct H; [|apply starts_app]; eapply sequence_starts; eassumption. Qed.
Lemma starts_stop t r : starts t -> stops [" "%char] (t ++ r).
Proof. intros (c & x & -> & H). cbn in *. intros [<-|[]]. intuition discriminate. Qed.
Lemma starts_not_stops t l : starts t -> stops (starters ++ l) t -> False.
Proof. intros (c & x & -> & H) S. apply S, in_or_app. left. exact H. Qed.
Lemma stops_weaken l l' r : (forall c, In c l' -> In c l) -> stops l r -> stops l' r.
Proof. intros H. destruct r as [|c r]; cbn; auto. Qed.

Definition sequence_stop : list ascii := starters ++ [" "%char].
Lemma sequence_split t s : sequence_text t s -> forall t' s' r r', sequence_text t' s' ->
  stops sequence_stop r -> stops sequence_stop r' -> t ++ r = t' ++ r' -> t = t' /\ s = s' /\ r = r'.
Proof.
  assert (Wk : forall r, stops sequence_stop r -> stops [" "%char] r).
  { intros r. apply stops_weaken. intros c [<-|[]]. cbn. auto. }
  intros H. induction H as [t w s Ht Hw|t w s ts ss Ht Hw Hs IH]; intros t' s' r r' H' S S' E;
    destruct H' as [t' w' s' Ht' Hw'|t' w' s' ts' ss' Ht' Hw' Hs']; rewrite <- ?app_assoc in E;
    destruct (symbol_split _ _ _ _ _ _ Ht Ht' E) as (-> & -> & E').
  - destruct (blanks_split _ _ _ _ Hw Hw' (Wk _ S) (Wk _ S') E') as (-> & ->). auto.
  - pose proof (sequence_starts _ _ Hs') as St.
    destruct (blanks_split _ _ _ _ Hw Hw' (Wk _ S) (starts_stop _ _ St) E') as (-> & ->).
    destruct (starts_not_stops _ _ (starts_app _ r' St) S).
  - pose proof (sequence_starts _ _ Hs) as St.
    destruct (blanks_split _ _ _ _ Hw Hw' (starts_stop _ _ St) (Wk _ S') E') as (-> & <-).
    destruct (starts_not_stops _ _ (starts_app _ r St) S').
  - pose proof (sequence_starts _ _ Hs) as St. pose proof (sequence_starts _ _ Hs') as St'.
    destruct (blanks_split _ _ _ _ Hw Hw' (starts_stop _ _ St) (starts_stop _ _ St') E') as (-> & E2).
    destruct (IH _ _ _ _ Hs' S S' E2) as (-> & -> & ->). auto.
Qed.

Definition alternatives_stop : list ascii := sequence_stop ++ ["|"%char].
Lemma alternatives_split t s : alternatives_text t s -> forall t' s' r r', alternatives_text t' s' ->
  stops alternatives_stop r -> stops alternatives_stop r' -> t ++ r = t' ++ r' -> t = t' /\ s = s' /\ r = r'.
Proof.
  assert (Wk : forall r, stops alternatives_stop r -> stops sequence_stop r).
  { intros r. apply stops_weaken. intros c H. apply in_or_app. left. exact H. }
  assert (Bar : forall r, stops sequence_stop ("|"%char :: r)).
  { intros r. cbn. intuition discriminate. }
  assert (NBar : forall r, stops alternatives_stop ("|"%char :: r) -> False).
  { intros r H. apply H. cbn. auto 10. }
  intros H. induction H as [t s Hs|t s w ts ss Hs Hw Hl IH]; intros t' s' r r' H' S S' E;
    destruct H' as [t' s' Hs'|t' s' w' ts' ss' Hs' Hw' Hl']; rewrite <- ?app_assoc in E; cbn in E.
  - destruct (sequence_split _ _ Hs _ _ _ _ Hs' (Wk _ S) (Wk _ S') E) as (-> & -> & ->). auto.
  - destruct (sequence_split _ _ Hs _ _ _ _ Hs' (Wk _ S) (Bar _) E) as (-> & -> & ->). destruct (NBar _ S).
  - destruct (sequence_split _ _ Hs _ _ _ _ Hs' (Bar _) (Wk _ S') E) as (-> & -> & <-). destruct (NBar _ S').
  - destruct (sequence_split _ _ Hs _ _ _ _ Hs' (Bar _) (Bar _) E) as (-> & -> & E2).
    injection E2 as E2. rewrite <- !app_assoc in E2.
    destruct (blanks_split _ _ _ _ Hw Hw' (starts_stop _ _ (alternatives_starts _ _ Hl))
      (starts_stop _ _ (alternatives_starts _ _ Hl')) E2) as (-> & E3).
    destruct (IH _ _ _ _ Hl' S S' E3) as (-> & -> & ->). auto.
Qed.

Lemma rule_split t x t' x' r r' : rule_text t x -> rule_text t' x' ->
  stops alternatives_stop r -> stops alternatives_stop r' -> t ++ r = t' ++ r' -> t = t' /\ x = x' /\ r = r'.
Proof.
  intros [n w1 w2 t0 alts Hn H1 H2 Ha] [n' w1' w2' t0' alts' Hn' H1' H2' Ha'] S S' E.
  cbn in E. injection E as E. rewrite <- !app_assoc in E. cbn in E. rewrite <- !app_assoc in E.
  destruct (name_split _ _ _ _ Hn Hn' E) as (-> & E1).
  assert (St : forall a b, stops [" "%char] ((":"%char :: a) ++ b)) by (intros a b; cbn; intuition discriminate).
  destruct (blanks_split _ _ _ _ H1 H1' (St _ _) (St _ _) E1) as (-> & E2).
  injection E2 as E2. rewrite <- ?app_assoc in E2.
  destruct (blanks_split _ _ _ _ H2 H2' (starts_stop _ _ (alternatives_starts _ _ Ha))
      (starts_stop _ _ (alternatives_starts _ _ Ha')) E2) as (-> & E3).
  destruct (alternatives_split _ _ Ha _ _ _ _ Ha' S S' E3) as (-> & -> & ->). auto.
Qed.

Lemma eol_split e e' r r' : eol e -> eol e' -> e ++ r = e' ++ r' -> e = e' /\ r = r'.
Proof. intros [] [] E; cbn in E; injection E; intros; subst; auto; discriminate. Qed.

Lemma eol_stops e r : eol e -> stops alternatives_stop (e ++ r).
Proof. intros []; cbn; intuition discriminate. Qed.
Lemma lines_stops t g : lines_text t g -> stops alternatives_stop t.
Proof. intros H. destruct H; [exact I|apply eol_stops; assumption..]. Qed.
Lemma lines_blank t g : lines_text t g -> stops [" "%char] t.
Proof. intros H. eapply stops_weaken; [|eapply lines_stops, H]. intros c [<-|[]]. cbn. auto. Qed.
Lemma rule_blank t x r : rule_text t x -> stops [" "%char] (t ++ r).
Proof. intros []. cbn. intuition discriminate. Qed.
Lemma rule_not_line t x r : rule_text t x -> forall u g, lines_text u g -> u = t ++ r -> False.
Proof. intros [] u g L E. destruct L as [|? ? ? ? []|? ? ? ? ? ? []]; discriminate. Qed.

Lemma lines_det t g : lines_text t g -> forall g', lines_text t g' -> g = g'.
Proof.
  intros H. induction H as [|e w rest g He Hw H IH|e w t r rest g He Hw Hr H IH]; intros g' H'.
  - inversion H' as [|e w rest g He Hw H E|e w t r rest g He Hw Hr H E]; [reflexivity| |]; subst;
      destruct He; discriminate.
  - inversion H' as [E|e' w' rest' g1 He' Hw' H1 E|e' w' t' r' rest' g1 He' Hw' Hr' H1 E]; subst.
    + destruct He; discriminate.
    + destruct (eol_split _ _ _ _ He' He E) as (-> & E1).
      destruct (blanks_split _ _ _ _ Hw' Hw (lines_blank _ _ H1) (lines_blank _ _ H) E1) as (-> & ->).
      apply IH, H1.
    + destruct (eol_split _ _ _ _ He' He E) as (-> & E1).
      destruct (blanks_split _ _ _ _ Hw' Hw (rule_blank _ _ _ Hr') (lines_blank _ _ H) E1) as (-> & E2).
      destruct (rule_not_line _ _ _ Hr' _ _ H (eq_sym E2)).
  - inversion H' as [E|e' w' rest' g1 He' Hw' H1 E|e' w' t' r' rest' g1 He' Hw' Hr' H1 E]; subst.
    + destruct He; discriminate.
    + destruct (eol_split _ _ _ _ He' He E) as (-> & E1).
      destruct (blanks_split _ _ _ _ Hw' Hw (lines_blank _ _ H1) (rule_blank _ _ _ Hr) E1) as (-> & E2).
      destruct (rule_not_line _ _ _ Hr _ _ H1 E2).
    + destruct (eol_split _ _ _ _ He' He E) as (-> & E1).
      destruct (blanks_split _ _ _ _ Hw' Hw (rule_blank _ _ _ Hr') (rule_blank _ _ _ Hr) E1) as (-> & E2).
      destruct (rule_split _ _ _ _ _ _ Hr' Hr (lines_stops _ _ H1) (lines_stops _ _ H) E2) as (-> & -> & ->).
      f_equal. apply IH, H1.
Qed.

Theorem bnf_det t g g' : bnf_text t g -> bnf_text t g' -> g = g'.
Proof.
  intros [w t0 r rest g0 Hw Hr H] H'. inversion H' as [w' t' r' rest' g1 Hw' Hr' H1 E]; subst.
  destruct (blanks_split _ _ _ _ Hw' Hw (rule_blank _ _ _ Hr') (rule_blank _ _ _ Hr) E) as (-> & E2).
  destruct (rule_split _ _ _ _ _ _ Hr' Hr (lines_stops _ _ H1) (lines_stops _ _ H) E2) as (-> & -> & ->).
  f_equal. eapply lines_det; eassumption.
Qed.
