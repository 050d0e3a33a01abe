(** * StdJson: standard JSON against the dialect of the example. *)
From Verif Require Import Base Spec_Bnf Spec_Json Spec_StdJson JsonWords JsonDet.

Scheme std_value_ind' := Minimality for std_value Sort Prop
  with std_members_ind' := Minimality for std_members Sort Prop
  with std_member_ind' := Minimality for std_member Sort Prop
  with std_elements_ind' := Minimality for std_elements Sort Prop
  with std_element_ind' := Minimality for std_element Sort Prop.
Combined Scheme std_ind from std_value_ind', std_members_ind', std_member_ind', std_elements_ind', std_element_ind'.

Notation nonws := (head_is (fun c => negb (is_ws c))).
Notation notlf := (head_is (fun c => negb (Ascii.eqb c LF))).
Definition no_gaps (gs : list bytes) : Prop := Forall (eq []) gs.

Lemma nonws_notlf r : nonws r -> notlf r.
Proof. destruct r as [|c r]; cbn; [auto|]. destruct c as [[] [] [] [] [] [] [] []]; vm_compute; auto. Qed.

Lemma plain_suffix a b : plain_ascii (a ++ b) -> plain_ascii b.
Proof.
  intros H. remember (a ++ b) as x. revert a b Heqx.
  induction H as [|c w P H IH|w H IH|w H IH]; intros a b E.
  - destruct a; [|discriminate]. cbn in E. subst. constructor.
  - destruct a as [|y a]; cbn in E; [subst; constructor; assumption|]. injection E as <- E. eauto.
  - destruct a as [|y a]; cbn in E; [subst; apply pa_lf; assumption|]. injection E as <- E. eauto.
  - destruct a as [|y [|z a]]; cbn in E; [subst; apply pa_crlf; assumption|injection E as <- <-; apply pa_lf; assumption|].
    injection E as <- <- E. eauto.
Qed.
Lemma plain_ws w r : white w -> plain_ascii (w ++ r) -> notlf r -> spaces w.
Proof.
  intros Hw H. remember (w ++ r) as x. revert w r Hw Heqx.
  induction H as [|c x P H IH|x H IH|x H IH]; intros w r Hw E N.
  - destruct w; [constructor|discriminate].
  - destruct w as [|y w]; [constructor|]. cbn in E. injection E as <- E. inversion Hw as [|? ? Hy Hw']. subst.
    assert (c = " "%char) as ->.
    { revert P Hy. clear. destruct c as [[] [] [] [] [] [] [] []]; vm_compute; intros; congruence. }
    apply sp_space. eauto.
  - destruct w as [|y w]; [constructor|]. cbn in E. injection E as <- E. inversion Hw; subst. apply sp_lf. eauto.
  - destruct w as [|y [|z w]]; [constructor| |]; cbn in E.
    + injection E as <- <-. cbn in N. discriminate N.
    + injection E as <- <- E. inversion Hw as [|? ? _ Hw']. inversion Hw'. subst. apply sp_crlf. eauto.
Qed.
Lemma plain_head c w : plain_ascii (c :: w) -> is_char c = true -> is_printable c = true.
Proof. intros H Hc. inversion H; subst; [assumption|discriminate Hc|discriminate Hc]. Qed.
Lemma plain_tail c w : plain_ascii (c :: w) -> plain_ascii w.
Proof. apply (plain_suffix [c]). Qed.

Lemma hex_printable c : is_hex c = true -> is_printable c = true /\ c <> DQ /\ c <> BSL /\ is_char c = true.
Proof. destruct c as [[] [] [] [] [] [] [] []]; vm_compute; intros H; try discriminate H; repeat split; discriminate. Qed.
Lemma char_not c : is_char c = true -> c <> DQ /\ c <> BSL.
Proof. destruct c as [[] [] [] [] [] [] [] []]; vm_compute; intros H; try discriminate H; split; discriminate. Qed.

Lemma body_plain s r : std_body s -> plain_ascii (s ++ r) -> string_body s.
Proof.
  intros H. revert r. induction H as [|c w Hc H IH|e w He H IH|a b c d w Ha Hb Hc Hd H IH]; intros r P.
  - constructor.
  - destruct (char_not _ Hc). apply sb_plain; try assumption; [eapply plain_head; eassumption|].
    apply (IH r). eapply plain_tail, P.
  - apply sb_escape; [assumption|]. apply (IH r). apply (plain_suffix [BSL; e]). exact P.
  - destruct (hex_printable d Hd) as (P1 & P2 & P3 & _). apply sb_unicode; try assumption. apply sb_plain; try assumption.
    apply (IH r). apply (plain_suffix [BSL; "u"%char; a; b; c; d]). exact P.
Qed.

(** ** Standard texts without the forbidden things are texts of the dialect *)
Lemma vhead_nonws c : vhead c = true -> is_ws c = false.
Proof. destruct c as [[] [] [] [] [] [] [] []]; vm_compute; intros H; congruence. Qed.
Lemma std_head t v gs : std_value t v gs -> exists c t', t = c :: t' /\ vhead c = true.
Proof.
  intros [| | | | |w H| | |]; try (eexists _, _; split; reflexivity).
  destruct (number_chars w H) as (A & c & w' & ->). exists c, w'. split; [reflexivity|].
  inversion A as [|? ? X _]. unfold vhead. rewrite X. reflexivity.
Qed.
Lemma std_nonws t v gs r : std_value t v gs -> nonws (t ++ r).
Proof.
  intros H. destruct (std_head _ _ _ H) as (c & t' & -> & Hc). cbn [app head_is]. rewrite (vhead_nonws _ Hc). reflexivity.
Qed.
Lemma value_nonws t v r : value_text t v -> nonws (t ++ r).
Proof.
  intros H. destruct (value_head _ _ H) as (c & t' & -> & Hc). cbn [app head_is]. rewrite (vhead_nonws _ Hc). reflexivity.
Qed.
Lemma no_gaps_app a b : no_gaps (a ++ b) <-> no_gaps a /\ no_gaps b.
Proof. apply Forall_app. Qed.

Lemma std_to_dialect :
  (forall t v gs, std_value t v gs -> no_gaps gs -> forall r, plain_ascii (t ++ r) -> value_text t v) /\
  (forall t l gs, std_members t l gs -> no_gaps gs -> forall r, plain_ascii (t ++ r) -> notlf r ->
     exists w t', t = w ++ t' /\ spaces w /\ members_text t' l) /\
  (forall t k v gs, std_member t k v gs -> no_gaps gs -> forall r, plain_ascii (t ++ r) -> notlf r ->
     exists w t' w', t = w ++ t' ++ w' /\ spaces w /\ member_text t' k v /\ spaces w') /\
  (forall t l gs, std_elements t l gs -> no_gaps gs -> forall r, plain_ascii (t ++ r) -> notlf r -> elements_text t l) /\
  (forall t v gs, std_element t v gs -> no_gaps gs -> forall r, plain_ascii (t ++ r) -> notlf r ->
     exists w t' w', t = w ++ t' ++ w' /\ spaces w /\ value_text t' v /\ spaces w').
Proof.
  apply (std_ind
   (fun t v gs => no_gaps gs -> forall r, plain_ascii (t ++ r) -> value_text t v)
   (fun t l gs => no_gaps gs -> forall r, plain_ascii (t ++ r) -> notlf r ->
     exists w t', t = w ++ t' /\ spaces w /\ members_text t' l)
   (fun t k v gs => no_gaps gs -> forall r, plain_ascii (t ++ r) -> notlf r ->
     exists w t' w', t = w ++ t' ++ w' /\ spaces w /\ member_text t' k v /\ spaces w')
   (fun t l gs => no_gaps gs -> forall r, plain_ascii (t ++ r) -> notlf r -> elements_text t l)
   (fun t v gs => no_gaps gs -> forall r, plain_ascii (t ++ r) -> notlf r ->
     exists w t' w', t = w ++ t' ++ w' /\ spaces w /\ value_text t' v /\ spaces w')).
  - intros w Hw _ r P. apply vt_no_members. cbn in P. apply plain_tail in P. rewrite <- app_assoc in P.
    eapply plain_ws; [exact Hw|exact P|reflexivity].
  - intros t l gs _ IH G r P. cbn in P. apply plain_tail in P. rewrite <- app_assoc in P.
    destruct (IH G _ P eq_refl) as (w & t' & -> & Hw & H). rewrite <- app_assoc. apply vt_object; assumption.
  - intros w Hw G r P. inversion G as [|? ? E _]. subst w. apply vt_no_elements.
  - intros t l gs _ IH G r P. cbn in P. apply plain_tail in P. rewrite <- app_assoc in P.
    apply vt_array. exact (IH G _ P eq_refl).
  - intros s Hs _ r P. cbn in P. apply plain_tail in P. rewrite <- app_assoc in P.
    apply vt_string. eapply body_plain; eassumption.
  - intros. apply vt_number. assumption.
  - intros. apply vt_true.
  - intros. apply vt_false.
  - intros. apply vt_null.
  - intros t k v gs _ IH G r P N. destruct (IH G r P N) as (w & t' & w' & -> & Hw & H & Hw').
    exists w, (t' ++ w'). split; [reflexivity|]. split; [exact Hw|]. apply me_last; assumption.
  - intros t k v gs rest l gs' _ IH _ IH' G r P N. apply no_gaps_app in G. destruct G as (G & G').
    rewrite <- app_assoc in P. cbn in P.
    destruct (IH G _ P eq_refl) as (w & t' & w' & -> & Hw & H & Hw').
    apply plain_suffix in P. apply plain_tail in P. destruct (IH' G' _ P N) as (w1 & t1 & -> & Hw1 & H1).
    exists w, (t' ++ w' ++ ","%char :: w1 ++ t1). split; [rewrite <- !app_assoc; reflexivity|]. split; [exact Hw|].
    apply me_more; assumption.
  - intros w k w' t v gs Hw Hk Hw' _ IH G r P N. rewrite <- app_assoc in P. cbn in P.
    assert (S := plain_ws _ _ Hw P eq_refl). apply plain_suffix, plain_tail in P. rewrite <- app_assoc in P. cbn in P.
    assert (B := body_plain _ _ Hk P). apply plain_suffix, plain_tail in P. rewrite <- app_assoc in P. cbn in P.
    assert (S' := plain_ws _ _ Hw' P eq_refl). apply plain_suffix, plain_tail in P.
    destruct (IH G _ P N) as (w1 & t1 & w2 & -> & Hw1 & H1 & Hw2).
    exists w, (DQ :: k ++ DQ :: w' ++ ":"%char :: w1 ++ t1), w2.
    split. { cbn. f_equal. f_equal. rewrite <- !app_assoc. f_equal. cbn. f_equal. rewrite <- !app_assoc. f_equal. cbn. rewrite <- !app_assoc. reflexivity. }
    split; [exact S|]. split; [|exact Hw2]. apply mb; assumption.
  - intros t v gs _ IH G r P N. destruct (IH G r P N) as (w & t' & w' & -> & Hw & H & Hw'). apply el_last; assumption.
  - intros t v gs rest l gs' _ IH _ IH' G r P N. apply no_gaps_app in G. destruct G as (G & G').
    rewrite <- app_assoc in P. cbn in P.
    destruct (IH G _ P eq_refl) as (w & t' & w' & -> & Hw & H & Hw').
    apply plain_suffix in P. apply plain_tail in P. specialize (IH' G' _ P N).
    rewrite <- !app_assoc. apply el_more; assumption.
  - intros w t v gs w' Hw Hv IH Hw' G r P N. rewrite <- !app_assoc in P.
    assert (S : spaces w) by (eapply plain_ws; [exact Hw|exact P|apply nonws_notlf; eapply std_nonws; exact Hv]).
    apply plain_suffix in P. exists w, t, w'. split; [reflexivity|]. split; [exact S|].
    assert (S' : spaces w') by (eapply plain_ws; [exact Hw'|eapply plain_suffix; exact P|exact N]).
    split; [|exact S']. exact (IH G _ P).
Qed.

(** ** A text of both kinds has one reading, and no gaps *)
Lemma white_det w r w' r' : white w -> spaces w' -> w ++ r = w' ++ r' -> nonws r -> nonws r' -> w = w' /\ r = r'.
Proof.
  intros H H' E N N'. apply (munch is_ws); try assumption.
  clear - H'. induction H'; repeat (apply Forall_cons; [reflexivity|]); first [assumption|constructor].
Qed.
Lemma spaces_white w : spaces w -> white w.
Proof. induction 1; repeat (apply Forall_cons; [reflexivity|]); first [assumption|constructor]. Qed.
Lemma white_stop w r : white w -> stop r -> stop (w ++ r).
Proof.
  intros Hw H. destruct Hw as [|c w Hc _]; [exact H|]. revert Hc. cbn [app head_is].
  destruct c as [[] [] [] [] [] [] [] []]; vm_compute; auto.
Qed.
Lemma body_both s r s' r' : std_body s -> string_body s' -> s ++ DQ :: r = s' ++ DQ :: r' -> s = s' /\ r = r'.
Proof.
  intros H. revert s' r r'.
  assert (U : forall e, In e (s2b """\/bfnrt") -> e <> "u"%char) by (intros e He ->; vm_compute in He; intuition discriminate).
  induction H as [|c w P H IH|e w He H IH|a b c d w Ha Hb Hc Hd H IH]; intros s' r r' H' E.
  - destruct H'; cbn [app] in E; try discriminate E; injection E; intros; subst; auto; contradiction.
  - destruct (char_not _ P) as (Q & B).
    destruct H' as [|c' w' P' Q' B' H'|e' w' He' H'|a' b' c' w' Ha' Hb' Hc' H']; cbn [app] in E;
      try (injection E; intros; subst; contradiction).
    injection E as -> E. destruct (IH _ _ _ H' E) as (-> & ->). auto.
  - destruct H' as [|c' w' P' Q' B' H'|e' w' He' H'|a' b' c' w' Ha' Hb' Hc' H']; cbn [app] in E;
      try discriminate E; try (injection E; intros; subst; contradiction).
    + injection E as -> E. destruct (IH _ _ _ H' E) as (-> & ->). auto.
    + injection E as -> E. destruct (U _ He eq_refl).
  - destruct H' as [|c' w' P' Q' B' H'|e' w' He' H'|a' b' c' w' Ha' Hb' Hc' H']; cbn [app] in E;
      try discriminate E; try (injection E; intros; subst; contradiction).
    + injection E as <- E. destruct (U _ He' eq_refl).
    + injection E as -> -> -> E. destruct (hex_printable d Hd) as (_ & Q & B & _).
      destruct H' as [|c2 w2 P2 Q2 B2 H2|e2 w2 He2 H2|a2 b2 c2 w2 Ha2 Hb2 Hc2 H2]; cbn [app] in E;
        try (injection E; intros; subst; contradiction).
      injection E as -> E. destruct (IH _ _ _ H2 E) as (-> & ->). auto.
Qed.

Lemma std_members_head t l gs : std_members t l gs -> exists w t', t = w ++ DQ :: t' /\ white w.
Proof.
  intros [t0 k v gs0 []|t0 k v gs0 rest l0 gs' []]; rewrite <- ?app_assoc; cbn; eexists _, _; (split; [reflexivity|assumption]).
Qed.
Lemma std_elements_head t l gs : std_elements t l gs -> exists w c t', t = w ++ c :: t' /\ white w /\ vhead c = true.
Proof.
  intros [t0 v gs0 [w u v0 g w' Hw Hv Hw']|t0 v gs0 rest l0 gs' [w u v0 g w' Hw Hv Hw'] _];
    destruct (std_head _ _ _ Hv) as (c & u' & -> & Hc); rewrite <- ?app_assoc; cbn; eexists _, _, _;
    (split; [reflexivity|split; assumption]).
Qed.
Lemma elements_start t l : elements_text t l -> exists w c t', t = w ++ c :: t' /\ spaces w /\ vhead c = true.
Proof.
  intros [w t0 v w' Hw Hv Hw'|w t0 v w' rest l0 Hw Hv Hw' _];
    destruct (value_head _ _ Hv) as (c & t1 & -> & Hc); cbn; eexists _, _, _;
    (split; [reflexivity|split; assumption]).
Qed.
Lemma nonws_vhead c r : vhead c = true -> nonws (c :: r).
Proof. intros H. cbn [head_is]. rewrite (vhead_nonws _ H). reflexivity. Qed.

Lemma both_det :
  (forall t v gs, std_value t v gs -> forall t' v' r r', value_text t' v' -> t ++ r = t' ++ r' -> stop r -> stop r' ->
     t = t' /\ v = v' /\ r = r' /\ no_gaps gs) /\
  (forall t l gs, std_members t l gs -> forall w0 t' l' r r', spaces w0 -> members_text t' l' ->
     t ++ "}"%char :: r = w0 ++ t' ++ "}"%char :: r' -> t = w0 ++ t' /\ l = l' /\ r = r' /\ no_gaps gs) /\
  (forall t k v gs, std_member t k v gs -> forall w0 t' k' v' r r', spaces w0 -> member_text t' k' v' ->
     t ++ r = w0 ++ t' ++ r' -> nonws r -> stop r -> stop r' ->
     exists w1, white w1 /\ t = w0 ++ t' ++ w1 /\ r' = w1 ++ r /\ k = k' /\ v = v' /\ no_gaps gs) /\
  (forall t l gs, std_elements t l gs -> forall t' l' r r', elements_text t' l' -> t ++ "]"%char :: r = t' ++ "]"%char :: r' ->
     t = t' /\ l = l' /\ r = r' /\ no_gaps gs) /\
  (forall t v gs, std_element t v gs -> forall w0 t' v' r r', spaces w0 -> value_text t' v' ->
     t ++ r = w0 ++ t' ++ r' -> nonws r -> stop r -> stop r' ->
     exists w1, white w1 /\ t = w0 ++ t' ++ w1 /\ r' = w1 ++ r /\ v = v' /\ no_gaps gs).
Proof.
  apply (std_ind
  (fun t v gs => forall t' v' r r', value_text t' v' -> t ++ r = t' ++ r' -> stop r -> stop r' ->
     t = t' /\ v = v' /\ r = r' /\ no_gaps gs)
  (fun t l gs => forall w0 t' l' r r', spaces w0 -> members_text t' l' ->
     t ++ "}"%char :: r = w0 ++ t' ++ "}"%char :: r' -> t = w0 ++ t' /\ l = l' /\ r = r' /\ no_gaps gs)
  (fun t k v gs => forall w0 t' k' v' r r', spaces w0 -> member_text t' k' v' ->
     t ++ r = w0 ++ t' ++ r' -> nonws r -> stop r -> stop r' ->
     exists w1, white w1 /\ t = w0 ++ t' ++ w1 /\ r' = w1 ++ r /\ k = k' /\ v = v' /\ no_gaps gs)
  (fun t l gs => forall t' l' r r', elements_text t' l' -> t ++ "]"%char :: r = t' ++ "]"%char :: r' ->
     t = t' /\ l = l' /\ r = r' /\ no_gaps gs)
  (fun t v gs => forall w0 t' v' r r', spaces w0 -> value_text t' v' ->
     t ++ r = w0 ++ t' ++ r' -> nonws r -> stop r -> stop r' ->
     exists w1, white w1 /\ t = w0 ++ t' ++ w1 /\ r' = w1 ++ r /\ v = v' /\ no_gaps gs)).
  - intros w Hw t' v' r r' H' E S S'.
    destruct H' as [w' Hw'|w' t' l' Hw' Hl'| |t' l' Hl'|s' Hs'|w' Hn'| | |]; try (differ E); try number_case.
    + cbn in E. injection E as E. rewrite <- !app_assoc in E. apply white_det in E; try assumption; try reflexivity.
      destruct E as (-> & E). injection E as ->. repeat split; constructor.
    + exfalso. destruct (members_head _ _ Hl') as (t0 & ->). cbn in E. injection E as E. rewrite <- !app_assoc in E.
      apply white_det in E; try assumption; try reflexivity. destruct E as (_ & E). discriminate E.
  - intros t l gs Hl IH t' v' r r' H' E S S'.
    destruct H' as [w' Hw'|w' t' l' Hw' Hl'| |t' l' Hl'|s' Hs'|w' Hn'| | |]; try (differ E); try number_case.
    + exfalso. destruct (std_members_head _ _ _ Hl) as (w & t0 & -> & Hw). cbn in E. injection E as E. rewrite <- !app_assoc in E.
      apply white_det in E; try assumption; try reflexivity. destruct E as (_ & E). discriminate E.
    + cbn in E. injection E as E. rewrite <- !app_assoc in E.
      destruct (IH _ _ _ _ _ Hw' Hl' E) as (-> & -> & -> & G). rewrite <- app_assoc. auto.
  - intros w Hw t' v' r r' H' E S S'.
    destruct H' as [w' Hw'|w' t' l' Hw' Hl'| |t' l' Hl'|s' Hs'|w' Hn'| | |]; try (differ E); try number_case.
    + cbn in E. injection E as E. rewrite <- !app_assoc in E.
      apply (white_det w _ []) in E; try assumption; try reflexivity; [|constructor].
      destruct E as (-> & E). injection E as ->. repeat split. repeat constructor.
    + exfalso. destruct (elements_start _ _ Hl') as (w' & c & t0 & -> & Hw' & Hc). cbn in E. injection E as E.
      rewrite <- !app_assoc in E. apply white_det in E; try assumption; try reflexivity; [|apply nonws_vhead, Hc].
      destruct E as (_ & E). injection E as <- _. discriminate Hc.
  - intros t l gs Hl IH t' v' r r' H' E S S'.
    destruct H' as [w' Hw'|w' t' l' Hw' Hl'| |t' l' Hl'|s' Hs'|w' Hn'| | |]; try (differ E); try number_case.
    + exfalso. destruct (std_elements_head _ _ _ Hl) as (w & c & t0 & -> & Hw & Hc). cbn in E. injection E as E.
      rewrite <- !app_assoc in E. apply (white_det w _ []) in E; try assumption; try reflexivity; [|constructor|apply nonws_vhead, Hc].
      destruct E as (_ & E). injection E as -> _. discriminate Hc.
    + cbn in E. injection E as E. rewrite <- !app_assoc in E. destruct (IH _ _ _ _ Hl' E) as (-> & -> & -> & G). auto.
  - intros s Hs t' v' r r' H' E S S'.
    destruct H' as [w' Hw'|w' t' l' Hw' Hl'| |t' l' Hl'|s' Hs'|w' Hn'| | |]; try (differ E); try number_case.
    cbn in E. injection E as E. rewrite <- !app_assoc in E. apply body_both in E; try assumption.
    destruct E as (-> & ->). repeat split; constructor.
  - intros w Hn t' v' r r' H' E S S'.
    destruct H' as [w' Hw'|w' t' l' Hw' Hl'| |t' l' Hl'|s' Hs'|w' Hn'| | |]; try (symmetry in E; number_case).
    destruct (number_chars _ Hn) as (A & _), (number_chars _ Hn') as (A' & _).
    destruct (munch _ _ _ _ _ A A' E S S') as (-> & ->). repeat split; constructor.
  - intros t' v' r r' H' E S S'.
    destruct H' as [w' Hw'|w' t' l' Hw' Hl'| |t' l' Hl'|s' Hs'|w' Hn'| | |]; try (differ E); try number_case.
    cbn in E. injection E as ->. repeat split; constructor.
  - intros t' v' r r' H' E S S'.
    destruct H' as [w' Hw'|w' t' l' Hw' Hl'| |t' l' Hl'|s' Hs'|w' Hn'| | |]; try (differ E); try number_case.
    cbn in E. injection E as ->. repeat split; constructor.
  - intros t' v' r r' H' E S S'.
    destruct H' as [w' Hw'|w' t' l' Hw' Hl'| |t' l' Hl'|s' Hs'|w' Hn'| | |]; try (differ E); try number_case.
    cbn in E. injection E as ->. repeat split; constructor.
  - intros t k v gs Hm IH w0 t' l' r r' Hw0 H' E.
    destruct H' as [t' k' v' w' Hm' Hw'|t' k' v' w' w2 rest l' Hm' Hw' Hw2 Hl']; rewrite <- !app_assoc in E;
      (apply (IH _ _ _ _ _ _ Hw0 Hm') in E; try reflexivity; try (apply spaces_stop; [assumption|reflexivity]));
      destruct E as (w1 & Hw1 & -> & E & -> & -> & G); symmetry in E; cbn in E;
      (apply white_det in E; try assumption; try reflexivity); destruct E as (-> & E).
    + injection E as ->. auto.
    + discriminate E.
  - intros t k v gs rest0 l gs' Hm IH Hl IHl w0 t' l' r r' Hw0 H' E.
    destruct H' as [t' k' v' w' Hm' Hw'|t' k' v' w' w2 rest l' Hm' Hw' Hw2 Hl']; rewrite <- !app_assoc in E;
      (apply (IH _ _ _ _ _ _ Hw0 Hm') in E; try reflexivity; try (apply spaces_stop; [assumption|reflexivity]));
      destruct E as (w1 & Hw1 & -> & E & -> & -> & G); symmetry in E; cbn in E;
      (apply white_det in E; try assumption; try reflexivity); destruct E as (-> & E).
    + discriminate E.
    + injection E as E. rewrite <- app_assoc in E. apply (IHl _ _ _ _ _ Hw2 Hl') in E. destruct E as (-> & -> & -> & G').
      split; [rewrite <- !app_assoc; reflexivity|]. split; [reflexivity|]. split; [reflexivity|]. apply no_gaps_app. auto.
  - intros w k w' t v gs Hw Hk Hw' Ht IH w0 t' k' v' r r' Hw0 H' E N S S'.
    destruct H' as [k' w1 w2 t' v' Hk' Hw1 Hw2 Hv']. rewrite <- !app_assoc in E. cbn in E.
    apply white_det in E; try assumption; try reflexivity. destruct E as (-> & E). injection E as E.
    rewrite <- !app_assoc in E. cbn in E. apply body_both in E; try assumption. destruct E as (-> & E).
    rewrite <- !app_assoc in E. cbn in E. apply white_det in E; try assumption; try reflexivity. destruct E as (-> & E).
    injection E as E. rewrite <- !app_assoc in E. apply (IH _ _ _ _ _ Hw2 Hv') in E; try assumption.
    destruct E as (w3 & Hw3 & -> & -> & -> & G). exists w3. split; [exact Hw3|].
    split; [cbn; rewrite <- !app_assoc; cbn; rewrite <- !app_assoc; cbn; rewrite <- !app_assoc; reflexivity|]. auto.
  - intros t v gs Hm IH t' l' r r' H' E.
    destruct H' as [w' t' v' w0' Hw' Hv' Hw0'|w' t' v' w0' rest l' Hw' Hv' Hw0' Hl']; rewrite <- !app_assoc in E;
      (apply (IH _ _ _ _ _ Hw' Hv') in E; try reflexivity; try (apply spaces_stop; [assumption|reflexivity]));
      destruct E as (w1 & Hw1 & -> & E & -> & G); symmetry in E; cbn in E;
      (apply white_det in E; try assumption; try reflexivity); destruct E as (-> & E).
    + injection E as ->. auto.
    + discriminate E.
  - intros t v gs rest0 l gs' Hm IH Hl IHl t' l' r r' H' E.
    destruct H' as [w' t' v' w0' Hw' Hv' Hw0'|w' t' v' w0' rest l' Hw' Hv' Hw0' Hl']; rewrite <- !app_assoc in E;
      (apply (IH _ _ _ _ _ Hw' Hv') in E; try reflexivity; try (apply spaces_stop; [assumption|reflexivity]));
      destruct E as (w1 & Hw1 & -> & E & -> & G); symmetry in E; cbn in E;
      (apply white_det in E; try assumption; try reflexivity); destruct E as (-> & E).
    + discriminate E.
    + injection E as E. apply (IHl _ _ _ _ Hl') in E. destruct E as (-> & -> & -> & G').
      split; [rewrite <- !app_assoc; reflexivity|]. split; [reflexivity|]. split; [reflexivity|]. apply no_gaps_app. auto.
  - intros w t v gs w' Hw Hv IH Hw' w0 t' v' r r' Hw0 Hv' E N S S'. rewrite <- !app_assoc in E.
    apply white_det in E; try assumption; try (eapply std_nonws; eassumption); try (eapply value_nonws; eassumption).
    destruct E as (-> & E). apply (IH _ _ _ _ Hv') in E; try assumption; [|apply white_stop; assumption].
    destruct E as (-> & -> & <- & G). exists w'. auto.
Qed.

(** ** Texts of the dialect consist of printable ASCII and line ends *)
Lemma plain_app a b : plain_ascii a -> plain_ascii b -> plain_ascii (a ++ b).
Proof. induction 1; cbn [app]; intros; [assumption|apply pa_char; auto|apply pa_lf; auto|apply pa_crlf; auto]. Qed.
Lemma plain_cons c w : is_printable c = true -> plain_ascii w -> plain_ascii (c :: w).
Proof. apply pa_char. Qed.
Lemma plain_all w : all is_printable w -> plain_ascii w.
Proof. induction 1; constructor; assumption. Qed.
Lemma spaces_plain w : spaces w -> plain_ascii w.
Proof. induction 1; [constructor|apply pa_char; [reflexivity|assumption]|apply pa_lf; assumption|apply pa_crlf; assumption]. Qed.
Lemma string_plain s : string_body s -> plain_ascii s.
Proof.
  induction 1 as [|c w P _ _ _ IH|e w He _ IH|a b c w Ha Hb Hc _ IH].
  - constructor.
  - apply pa_char; assumption.
  - apply pa_char; [reflexivity|]. apply pa_char; [|exact IH]. vm_compute in He.
    repeat (destruct He as [<-|He]; [vm_compute; reflexivity|]). destruct He.
  - do 2 (apply pa_char; [reflexivity|]). apply pa_char; [apply hex_printable, Ha|].
    apply pa_char; [apply hex_printable, Hb|]. apply pa_char; [apply hex_printable, Hc|]. exact IH.
Qed.
Lemma number_plain w : number w -> plain_ascii w.
Proof.
  intros H. apply number_chars in H. destruct H as (H & _). apply plain_all. eapply Forall_impl; [|exact H].
  intros c. destruct c as [[] [] [] [] [] [] [] []]; vm_compute; intros X; congruence.
Qed.
Ltac plain_step :=
  first [ assumption | apply plain_app | apply plain_cons; [reflexivity|] | apply spaces_plain; assumption
        | apply string_plain; assumption | apply number_plain; assumption | apply plain_all; repeat constructor | constructor ].
Lemma dialect_plain :
  (forall t v, value_text t v -> plain_ascii t) /\ (forall t l, members_text t l -> plain_ascii t) /\
  (forall t k v, member_text t k v -> plain_ascii t) /\ (forall t l, elements_text t l -> plain_ascii t).
Proof.
  apply (json_ind (fun t v _ => plain_ascii t) (fun t l _ => plain_ascii t) (fun t k v _ => plain_ascii t) (fun t l _ => plain_ascii t));
    intros; repeat plain_step.
Qed.
Lemma json_plain t v : json_text t v -> plain_ascii t.
Proof.
  intros [w u x w0 Hw Hv Hw0]. repeat apply plain_app; try (apply spaces_plain; assumption).
  eapply (proj1 dialect_plain); exact Hv.
Qed.

(** ** Which standard texts the dialect contains *)
Theorem std_accepted text v gs : std_text text v gs ->
  forall v', json_text text v' <-> v' = v /\ plain_ascii text /\ no_gaps gs.
Proof.
  intros H v'. split.
  - intros H'. pose proof (json_plain _ _ H') as P. destruct H' as [w u x w0 Hw Hv Hw0].
    destruct (proj2 (proj2 (proj2 (proj2 both_det))) _ _ _ H w u x [] w0 Hw Hv) as (w1 & _ & _ & _ & -> & G); auto.
    + apply app_nil_r.
    + exact I.
    + exact I.
    + rewrite <- (app_nil_r w0). apply spaces_stop; [assumption|exact I].
  - intros (-> & P & G). rewrite <- (app_nil_r text) in P.
    destruct (proj2 (proj2 (proj2 (proj2 std_to_dialect))) _ _ _ H G [] P I) as (w & t & w' & -> & Hw & Hv & Hw').
    constructor; assumption.
Qed.

(** ** Which texts of the dialect are standard *)
Lemma std_four s : std_body s -> four_digits s.
Proof.
  assert (U : forall e, In e (s2b """\/bfnrt") -> e <> "u"%char) by (intros e He ->; vm_compute in He; intuition discriminate).
  induction 1 as [|c w Hc _ IH|e w He _ IH|a b c d w Ha Hb Hc Hd _ IH].
  - constructor.
  - apply fd_char; [apply char_not, Hc|exact IH].
  - apply fd_escape; [apply U, He|exact IH].
  - apply fd_unicode; assumption.
Qed.
Lemma printable_char c : is_printable c = true -> c <> DQ -> c <> BSL -> is_char c = true.
Proof.
  intros H N M. destruct c as [[] [] [] [] [] [] [] []]; vm_compute in H; try discriminate H; try reflexivity;
    first [destruct N; reflexivity | destruct M; reflexivity].
Qed.
Lemma body_four s : four_digits s -> string_body s -> std_body s.
Proof.
  induction 1 as [|c w Hc _ IH|e w He _ IH|a b c d w Ha Hb Hc Hd _ IH]; intros H.
  - constructor.
  - inversion H; subst; try congruence. apply std_char; [apply printable_char; assumption|auto].
  - inversion H; subst; try congruence. apply std_escape; auto.
  - assert (D := proj1 (proj2 (proj2 (hex_printable d Hd)))).
    inversion H as [|c0 w0 P Q B H0 E|e w0 He H0 E|a0 b0 c0 w0 A0 B0 C0 H0 E]; subst.
    + congruence.
    + exfalso. vm_compute in He. repeat (destruct He as [He|He]; [discriminate He|]). destruct He.
    + apply std_unicode; try assumption. apply IH. inversion H0; subst; congruence.
Qed.
Lemma texts_object l : string_texts (JObject l) = flat_map (fun m => fst m :: string_texts (snd m)) l.
Proof. reflexivity. Qed.

Definition fours (l : list bytes) : Prop := Forall four_digits l.
Lemma std_fours :
  (forall t v gs, std_value t v gs -> fours (string_texts v)) /\
  (forall t l gs, std_members t l gs -> fours (flat_map (fun m => fst m :: string_texts (snd m)) l)) /\
  (forall t k v gs, std_member t k v gs -> four_digits k /\ fours (string_texts v)) /\
  (forall t l gs, std_elements t l gs -> fours (flat_map string_texts l)) /\
  (forall t v gs, std_element t v gs -> fours (string_texts v)).
Proof.
  apply (std_ind (fun t v gs => fours (string_texts v))
    (fun t l gs => fours (flat_map (fun m => fst m :: string_texts (snd m)) l))
    (fun t k v gs => four_digits k /\ fours (string_texts v))
    (fun t l gs => fours (flat_map string_texts l)) (fun t v gs => fours (string_texts v)));
    try (intros; assumption); try (intros; constructor; fail).
  - intros s Hs. repeat constructor. apply std_four, Hs.
  - intros t k v gs _ (H & H'). cbn [flat_map fst snd app]. rewrite app_nil_r. constructor; assumption.
  - intros t k v gs rest l gs' _ (H & H') _ IH. cbn [flat_map fst snd app]. constructor; [exact H|]. apply Forall_app. split; assumption.
  - intros w k w' t v gs _ Hk _ _ IH. split; [apply std_four, Hk|exact IH].
  - intros t v gs _ IH. cbn [flat_map]. rewrite app_nil_r. exact IH.
  - intros t v gs rest l gs' _ H _ IH. cbn [flat_map]. apply Forall_app. split; assumption.
Qed.

Lemma dialect_to_std :
  (forall t v, value_text t v -> fours (string_texts v) -> exists gs, std_value t v gs) /\
  (forall t l, members_text t l -> fours (flat_map (fun m => fst m :: string_texts (snd m)) l) ->
     forall w, spaces w -> exists gs, std_members (w ++ t) l gs) /\
  (forall t k v, member_text t k v -> four_digits k -> fours (string_texts v) ->
     forall w w', spaces w -> spaces w' -> exists gs, std_member (w ++ t ++ w') k v gs) /\
  (forall t l, elements_text t l -> fours (flat_map string_texts l) -> exists gs, std_elements t l gs).
Proof.
  apply (json_ind
    (fun t v _ => fours (string_texts v) -> exists gs, std_value t v gs)
    (fun t l _ => fours (flat_map (fun m => fst m :: string_texts (snd m)) l) ->
       forall w, spaces w -> exists gs, std_members (w ++ t) l gs)
    (fun t k v _ => four_digits k -> fours (string_texts v) ->
       forall w w', spaces w -> spaces w' -> exists gs, std_member (w ++ t ++ w') k v gs)
    (fun t l _ => fours (flat_map string_texts l) -> exists gs, std_elements t l gs)).
  - intros w Hw _. eexists. apply sv_no_members, spaces_white, Hw.
  - intros w t l Hw _ IH F. destruct (IH F w Hw) as (gs & H). exists gs. rewrite app_assoc. apply sv_object, H.
  - intros _. eexists. apply (sv_no_elements []). constructor.
  - intros t l _ IH F. destruct (IH F) as (gs & H). exists gs. apply sv_array, H.
  - intros s Hs F. eexists. apply sv_string. apply body_four; [inversion F; assumption|exact Hs].
  - intros w Hw _. eexists. apply sv_number, Hw.
  - intros _. eexists. apply sv_true.
  - intros _. eexists. apply sv_false.
  - intros _. eexists. apply sv_null.
  - intros t k v w _ IH Hw F w0 Hw0. cbn [flat_map fst snd app] in F. rewrite app_nil_r in F. inversion F; subst.
    destruct (IH H1 H2 w0 w Hw0 Hw) as (gs & H). exists gs. apply sm_last, H.
  - intros t k v w w' rest l _ IH Hw Hw' _ IHl F w0 Hw0. cbn [flat_map fst snd app] in F. inversion F as [|? ? F1 F2]; subst.
    apply Forall_app in F2. destruct F2 as (F2 & F3).
    destruct (IH F1 F2 w0 w Hw0 Hw) as (gs & H). destruct (IHl F3 w' Hw') as (gs' & H'). exists (gs ++ gs').
    replace (w0 ++ t ++ w ++ ","%char :: w' ++ rest) with ((w0 ++ t ++ w) ++ ","%char :: w' ++ rest) by (rewrite <- !app_assoc; reflexivity).
    apply sm_more; assumption.
  - intros k w w' t v Hk Hw Hw' _ IH Fk F w0 w1 Hw0 Hw1. destruct (IH F) as (gs & H). exists gs.
    replace (w0 ++ (DQ :: k ++ DQ :: w ++ ":"%char :: w' ++ t) ++ w1)
      with (w0 ++ DQ :: k ++ DQ :: w ++ ":"%char :: w' ++ t ++ w1)
      by (cbn; rewrite <- !app_assoc; cbn; rewrite <- !app_assoc; cbn; rewrite <- !app_assoc; reflexivity).
    apply sm; [apply spaces_white, Hw0|apply body_four; assumption|apply spaces_white, Hw|].
    apply se; [apply spaces_white, Hw'|exact H|apply spaces_white, Hw1].
  - intros w t v w' Hw _ IH Hw' F. cbn [flat_map] in F. rewrite app_nil_r in F. destruct (IH F) as (gs & H). exists gs.
    apply se_last. apply se; [apply spaces_white, Hw|exact H|apply spaces_white, Hw'].
  - intros w t v w' rest l Hw _ IH Hw' _ IHl F. cbn [flat_map] in F. apply Forall_app in F. destruct F as (F & F').
    destruct (IH F) as (gs & H). destruct (IHl F') as (gs' & H'). exists (gs ++ gs').
    replace (w ++ t ++ w' ++ ","%char :: rest) with ((w ++ t ++ w') ++ ","%char :: rest) by (rewrite <- !app_assoc; reflexivity).
    apply se_more; [|exact H']. apply se; [apply spaces_white, Hw|exact H|apply spaces_white, Hw'].
Qed.

Theorem dialect_standard text v : json_text text v ->
  ((exists v' gs, std_text text v' gs) <-> fours (string_texts v)).
Proof.
  intros H. split.
  - intros (v' & gs & H'). destruct (proj1 (std_accepted _ _ _ H' v) H) as (-> & _).
    eapply (proj2 (proj2 (proj2 (proj2 std_fours)))). exact H'.
  - intros F. destruct H as [w u x w0 Hw Hv Hw0]. destruct (proj1 dialect_to_std _ _ Hv F) as (gs & G).
    exists x, gs. apply se; [apply spaces_white, Hw|exact G|apply spaces_white, Hw0].
Qed.

(** A standard text has one reading. *)
Lemma std_nul : 
  (forall t v gs, std_value t v gs -> ~ In NUL t) /\ (forall t l gs, std_members t l gs -> ~ In NUL t) /\
  (forall t k v gs, std_member t k v gs -> ~ In NUL t) /\ (forall t l gs, std_elements t l gs -> ~ In NUL t) /\
  (forall t v gs, std_element t v gs -> ~ In NUL t).
Proof.
  assert (W : forall w, white w -> ~ In NUL w).
  { intros w H I. eapply (proj1 (Forall_forall _ _)) in I; [|exact H]. discriminate I. }
  assert (B : forall s, std_body s -> ~ In NUL s).
  { induction 1 as [|c w Hc _ IH|e w He _ IH|a b c d w Ha Hb Hc Hd _ IH]; cbn [In]; intros I.
    - exact I.
    - destruct I as [->|I]; [discriminate Hc|auto].
    - destruct I as [I|[->|I]]; [discriminate I| |auto]. vm_compute in He. intuition discriminate.
    - destruct I as [I|[I|[->|[->|[->|[->|I]]]]]]; try discriminate; auto. }
  assert (N : forall w, number w -> ~ In NUL w).
  { intros w H I. apply number_chars in H. destruct H as (H & _).
    eapply (proj1 (Forall_forall _ _)) in I; [|exact H]. discriminate I. }
  apply (std_ind (fun t v gs => ~ In NUL t) (fun t l gs => ~ In NUL t) (fun t k v gs => ~ In NUL t)
    (fun t l gs => ~ In NUL t) (fun t v gs => ~ In NUL t)); intros;
    repeat (rewrite in_app_iff || cbn [In]);
    repeat match goal with H : white ?w |- _ => apply W in H | H : std_body ?w |- _ => apply B in H | H : number ?w |- _ => apply N in H end;
    try (intros I; vm_compute in I; intuition discriminate);
    intuition discriminate.
Qed.
