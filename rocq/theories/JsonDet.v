(** * JsonDet: a text of the JSON dialect stands for one value. *)
From Verif Require Import Base Spec_Bnf Spec_Json JsonWords.

Definition head_is (P : ascii -> bool) (r : bytes) : Prop := match r with [] => True | c :: _ => P c = true end.
Definition numchar (c : ascii) : bool := is_digit c || existsb (Ascii.eqb c) (s2b "+-.eE").
Definition spchar (c : ascii) : bool := existsb (Ascii.eqb c) [" "%char; LF; CR].
Notation stop := (head_is (fun c => negb (numchar c))).
Notation nonspace := (head_is (fun c => negb (spchar c))).

Lemma spaces_stop w r : spaces w -> stop r -> stop (w ++ r).
Proof. intros Hw H. destruct Hw; try reflexivity. exact H. Qed.
Lemma spaces_head w c r : spaces w -> spchar c = false ->
  exists y s, w ++ c :: r = y :: s /\ (spchar y = true \/ y = c).
Proof.
  intros Hw Hc. destruct Hw; cbn [app]; eexists _, _; (split; [reflexivity|]); auto; left; reflexivity.
Qed.
Lemma spaces_det w r w' r' : spaces w -> spaces w' -> w ++ r = w' ++ r' -> nonspace r -> nonspace r' ->
  w = w' /\ r = r'.
Proof.
  intros H. revert w' r r'. induction H as [|w H IH|w H IH|w H IH]; intros w' r r' H' E N N'.
  - destruct H' as [|w' H'|w' H'|w' H']; [auto|..]; cbn [app] in E; subst r; discriminate N.
  - destruct H' as [|w' H'|w' H'|w' H']; cbn [app] in E; [subst r'; discriminate N'|..]; try discriminate E.
    injection E as E. destruct (IH _ _ _ H' E N N') as (-> & ->). auto.
  - destruct H' as [|w' H'|w' H'|w' H']; cbn [app] in E; [subst r'; discriminate N'|..]; try discriminate E.
    injection E as E. destruct (IH _ _ _ H' E N N') as (-> & ->). auto.
  - destruct H' as [|w' H'|w' H'|w' H']; cbn [app] in E; [subst r'; discriminate N'|..]; try discriminate E.
    injection E as E. destruct (IH _ _ _ H' E N N') as (-> & ->). auto.
Qed.

Lemma body_det s r s' r' : string_body s -> string_body s' -> s ++ DQ :: r = s' ++ DQ :: r' -> s = s' /\ r = r'.
Proof.
  intros H. revert s' r r'.
  assert (U : forall e, In e (s2b """\/bfnrt") -> e <> "u"%char) by (intros e He ->; vm_compute in He; intuition discriminate).
  induction H as [|c w P Q B H IH|e w He H IH|a b c w Ha Hb Hc H IH]; intros s' r r' H' E.
  - destruct H'; cbn [app] in E; try discriminate E; injection E; intros; subst; auto; contradiction.
  - destruct H' as [|c' w' P' Q' B' H'|e' w' He' H'|a' b' c' w' Ha' Hb' Hc' H']; cbn [app] in E;
      try (injection E; intros; subst; contradiction).
    injection E as -> E. destruct (IH _ _ _ H' E) as (-> & ->). auto.
  - destruct H' as [|c' w' P' Q' B' H'|e' w' He' H'|a' b' c' w' Ha' Hb' Hc' H']; cbn [app] in E;
      try discriminate E; try (injection E; intros; subst; contradiction).
    + injection E as -> E. destruct (IH _ _ _ H' E) as (-> & ->). auto.
    + injection E as -> E. destruct (U _ He eq_refl).
  - destruct H' as [|c' w' P' Q' B' H'|e' w' He' H'|a' b' c' w' Ha' Hb' Hc' H']; cbn [app] in E;
      try discriminate E; try (injection E; intros; subst; contradiction).
    + injection E as <- E. destruct (U _ He' eq_refl).
    + injection E as -> -> -> E. destruct (IH _ _ _ H' E) as (-> & ->). auto.
Qed.

Lemma munch (P : ascii -> bool) w r w' r' : all P w -> all P w' -> w ++ r = w' ++ r' ->
  head_is (fun c => negb (P c)) r -> head_is (fun c => negb (P c)) r' -> w = w' /\ r = r'.
Proof.
  intros H. revert w'. induction H as [|c w Hc H IH]; intros w' H' E N N'.
  - destruct H' as [|c' w' Hc' H']; [auto|]. cbn [app] in E. subst r. cbn in N. rewrite Hc' in N. discriminate.
  - destruct H' as [|c' w' Hc' H']; cbn [app] in E; [subst r'; cbn in N'; rewrite Hc in N'; discriminate|].
    injection E as -> E. destruct (IH _ H' E N N') as (-> & ->). auto.
Qed.

Lemma digit_num c : is_digit c = true -> numchar c = true.
Proof. unfold numchar. intros ->. reflexivity. Qed.
Lemma digits_num w : all is_digit w -> all numchar w.
Proof. apply Forall_impl. exact digit_num. Qed.
Lemma number_chars w : number w -> all numchar w /\ exists c w', w = c :: w'.
Proof.
  intros (m & i & f & e & -> & Hm & Hi & Hf & He).
  assert (A : all numchar m) by (destruct Hm as [->| ->]; repeat constructor).
  assert (B : all numchar i /\ exists c i', i = c :: i').
  { destruct Hi as [->|(d & ds & -> & H1 & _ & H3)].
    - split; [repeat constructor|eexists _, _; reflexivity].
    - split; [constructor; [apply digit_num, H1|apply digits_num, H3]|eexists _, _; reflexivity]. }
  assert (C : all numchar f).
  { destruct Hf as [->|(ds & -> & _ & H)]; [constructor|]. constructor; [reflexivity|apply digits_num, H]. }
  assert (Dd : all numchar e).
  { destruct He as [->|(c & s & ds & -> & H1 & H2 & _ & H3)]; [constructor|].
    constructor; [destruct H1 as [->| ->]; reflexivity|]. apply Forall_app. split; [|apply digits_num, H3].
    destruct H2 as [->|[->| ->]]; repeat constructor. }
  destruct B as (B & c & i' & ->). split.
  - apply Forall_app. split; [exact A|]. apply Forall_app. split; [exact B|]. apply Forall_app. auto.
  - destruct m as [|x m]; cbn [app]; eexists _, _; reflexivity.
Qed.

(** First characters. *)
Definition vhead (c : ascii) : bool := numchar c || existsb (Ascii.eqb c) (s2b "{[""tfn").
Lemma value_head t v : value_text t v -> exists c t', t = c :: t' /\ vhead c = true.
Proof.
  intros [| | | | |w H| | |]; try (eexists _, _; split; reflexivity).
  destruct (number_chars w H) as (A & c & w' & ->). exists c, w'. split; [reflexivity|].
  inversion A as [|? ? X _]. unfold vhead. rewrite X. reflexivity.
Qed.
Lemma members_head t l : members_text t l -> exists t', t = DQ :: t'.
Proof. intros [t0 k v w []|t0 k v w w' rest l0 []]; eexists; reflexivity. Qed.
Lemma vhead_cases c : vhead c = true -> spchar c = false /\ c <> "]"%char /\ c <> ","%char /\ c <> "}"%char.
Proof.
  destruct c as [[] [] [] [] [] [] [] []]; vm_compute; intros H; try discriminate H; repeat split; discriminate.
Qed.
Lemma elements_head t l : elements_text t l -> exists c t', t = c :: t' /\ c <> "]"%char.
Proof.
  intros [w t0 v w' Hw Hv Hw'|w t0 v w' rest l0 Hw Hv Hw' _];
    destruct (value_head _ _ Hv) as (c & t1 & -> & Hc); destruct (vhead_cases c Hc) as (Hs & Hb & _); cbn [app];
    (match goal with |- exists _ _, w ++ _ :: ?r = _ /\ _ => destruct (spaces_head w c r Hw Hs) as (y & s & E & Hy) end);
    exists y, s; (split; [exact E|]);
    (destruct Hy as [Hy| ->]; [intros ->; discriminate Hy|exact Hb]).
Qed.

Lemma value_nonspace t v r : value_text t v -> nonspace (t ++ r).
Proof.
  intros H. destruct (value_head _ _ H) as (c & t' & -> & Hc). destruct (vhead_cases c Hc) as (Hs & _).
  cbn [app head_is]. rewrite Hs. reflexivity.
Qed.

Ltac differ E := cbn in E; discriminate E.
Ltac number_case :=
  match goal with
  | H : number ?w, E : _ = _ |- _ =>
      let A := fresh "A" in let c := fresh "c" in let w' := fresh "w" in let X := fresh "X" in
      destruct (number_chars w H) as (A & c & w' & ->); inversion A as [|? ? X _]; subst; cbn in E;
      injection E; intros; subst; discriminate X
  end.

Lemma json_det :
  (forall t v, value_text t v -> forall t' v' r r', value_text t' v' -> t ++ r = t' ++ r' -> stop r -> stop r' ->
     t = t' /\ v = v' /\ r = r') /\
  (forall t l, members_text t l -> forall t' l' r r', members_text t' l' -> t ++ "}"%char :: r = t' ++ "}"%char :: r' ->
     t = t' /\ l = l' /\ r = r') /\
  (forall t k v, member_text t k v -> forall t' k' v' r r', member_text t' k' v' -> t ++ r = t' ++ r' -> stop r -> stop r' ->
     t = t' /\ k = k' /\ v = v' /\ r = r') /\
  (forall t l, elements_text t l -> forall t' l' r r', elements_text t' l' -> t ++ "]"%char :: r = t' ++ "]"%char :: r' ->
     t = t' /\ l = l' /\ r = r').
Proof.
  apply (json_ind
   (fun t v _ => forall t' v' r r', value_text t' v' -> t ++ r = t' ++ r' -> stop r -> stop r' ->
     t = t' /\ v = v' /\ r = r')
   (fun t l _ => forall t' l' r r', members_text t' l' -> t ++ "}"%char :: r = t' ++ "}"%char :: r' ->
     t = t' /\ l = l' /\ r = r')
   (fun t k v _ => forall t' k' v' r r', member_text t' k' v' -> t ++ r = t' ++ r' -> stop r -> stop r' ->
     t = t' /\ k = k' /\ v = v' /\ r = r')
   (fun t l _ => forall t' l' r r', elements_text t' l' -> t ++ "]"%char :: r = t' ++ "]"%char :: r' ->
     t = t' /\ l = l' /\ r = r')).
  - intros w Hw t' v' r r' H' E S S'.
    destruct H' as [w' Hw'|w' t' l' Hw' Hl'| |t' l' Hl'|s' Hs'|w' Hn'| | |]; try (differ E); try number_case.
    + cbn in E. injection E as E. rewrite <- !app_assoc in E. apply spaces_det in E; try assumption; try reflexivity.
      destruct E as (-> & E). injection E as ->. auto.
    + exfalso. destruct (members_head _ _ Hl') as (t0 & ->). cbn in E. injection E as E. rewrite <- !app_assoc in E.
      apply spaces_det in E; try assumption; try reflexivity. destruct E as (_ & E). discriminate E.
  - intros w t l Hw Hl IH t' v' r r' H' E S S'.
    destruct H' as [w' Hw'|w' t' l' Hw' Hl'| |t' l' Hl'|s' Hs'|w' Hn'| | |]; try (differ E); try number_case.
    + exfalso. destruct (members_head _ _ Hl) as (t0 & ->). cbn in E. injection E as E. rewrite <- !app_assoc in E.
      apply spaces_det in E; try assumption; try reflexivity. destruct E as (_ & E). discriminate E.
    + cbn in E. injection E as E. rewrite <- !app_assoc in E. apply spaces_det in E; try assumption.
      * destruct E as (-> & E). destruct (IH _ _ _ _ Hl' E) as (-> & -> & ->). auto.
      * destruct (members_head _ _ Hl) as (t0 & ->). reflexivity.
      * destruct (members_head _ _ Hl') as (t0 & ->). reflexivity.
  - intros t' v' r r' H' E S S'.
    destruct H' as [w' Hw'|w' t' l' Hw' Hl'| |t' l' Hl'|s' Hs'|w' Hn'| | |]; try (differ E); try number_case.
    + cbn in E. injection E as ->. auto.
    + exfalso. destruct (elements_head _ _ Hl') as (c & t0 & -> & Hc). cbn in E. injection E as E _. congruence.
  - intros t l Hl IH t' v' r r' H' E S S'.
    destruct H' as [w' Hw'|w' t' l' Hw' Hl'| |t' l' Hl'|s' Hs'|w' Hn'| | |]; try (differ E); try number_case.
    + exfalso. destruct (elements_head _ _ Hl) as (c & t0 & -> & Hc). cbn in E. injection E as E _. congruence.
    + cbn in E. injection E as E. rewrite <- !app_assoc in E. destruct (IH _ _ _ _ Hl' E) as (-> & -> & ->). auto.
  - intros s Hs t' v' r r' H' E S S'.
    destruct H' as [w' Hw'|w' t' l' Hw' Hl'| |t' l' Hl'|s' Hs'|w' Hn'| | |]; try (differ E); try number_case.
    cbn in E. injection E as E. rewrite <- !app_assoc in E. apply body_det in E; try assumption.
    destruct E as (-> & ->). auto.
  - intros w Hn t' v' r r' H' E S S'.
    destruct H' as [w' Hw'|w' t' l' Hw' Hl'| |t' l' Hl'|s' Hs'|w' Hn'| | |]; try (symmetry in E; number_case).
    destruct (number_chars _ Hn) as (A & _), (number_chars _ Hn') as (A' & _).
    destruct (munch _ _ _ _ _ A A' E S S') as (-> & ->). auto.
  - intros t' v' r r' H' E S S'.
    destruct H' as [w' Hw'|w' t' l' Hw' Hl'| |t' l' Hl'|s' Hs'|w' Hn'| | |]; try (differ E); try number_case.
    cbn in E. injection E as ->. auto.
  - intros t' v' r r' H' E S S'.
    destruct H' as [w' Hw'|w' t' l' Hw' Hl'| |t' l' Hl'|s' Hs'|w' Hn'| | |]; try (differ E); try number_case.
    cbn in E. injection E as ->. auto.
  - intros t' v' r r' H' E S S'.
    destruct H' as [w' Hw'|w' t' l' Hw' Hl'| |t' l' Hl'|s' Hs'|w' Hn'| | |]; try (differ E); try number_case.
    cbn in E. injection E as ->. auto.
  - intros t k v w Hm IH Hw t' l' r r' H' E.
    destruct H' as [t' k' v' w' Hm' Hw'|t' k' v' w' w2 rest l' Hm' Hw' Hw2 Hl']; rewrite <- !app_assoc in E.
    + apply (IH _ _ _ _ _ Hm') in E; try (apply spaces_stop; [assumption|reflexivity]).
      destruct E as (-> & -> & -> & E). apply spaces_det in E; try assumption; try reflexivity.
      destruct E as (-> & E). injection E as ->. auto.
    + apply (IH _ _ _ _ _ Hm') in E; try (apply spaces_stop; [assumption|reflexivity]).
      destruct E as (_ & _ & _ & E). apply spaces_det in E; try assumption; try reflexivity.
      destruct E as (_ & E). discriminate E.
  - intros t k v w w0 rest0 l Hm IH Hw Hw0 Hl IHl t' l' r r' H' E.
    destruct H' as [t' k' v' w' Hm' Hw'|t' k' v' w' w2 rest l' Hm' Hw' Hw2 Hl']; rewrite <- !app_assoc in E.
    + apply (IH _ _ _ _ _ Hm') in E; try (apply spaces_stop; [assumption|reflexivity]).
      destruct E as (_ & _ & _ & E). apply spaces_det in E; try assumption; try reflexivity.
      destruct E as (_ & E). discriminate E.
    + apply (IH _ _ _ _ _ Hm') in E; try (apply spaces_stop; [assumption|reflexivity]).
      destruct E as (-> & -> & -> & E). apply spaces_det in E; try assumption; try reflexivity.
      destruct E as (-> & E). cbn in E. injection E as E. rewrite <- !app_assoc in E. apply spaces_det in E; try assumption.
      * destruct E as (-> & E). destruct (IHl _ _ _ _ Hl' E) as (-> & -> & ->). auto.
      * destruct (members_head _ _ Hl) as (t0 & ->). reflexivity.
      * destruct (members_head _ _ Hl') as (t0 & ->). reflexivity.
  - intros k w w0 t v Hk Hw Hw0 Hv IH t' k' v' r r' H' E S S'. destruct H' as [k' w' w0' t' v' Hk' Hw' Hw0' Hv'].
    cbn in E. injection E as E. rewrite <- !app_assoc in E. cbn [app] in E. apply body_det in E; try assumption.
    destruct E as (-> & E). rewrite <- !app_assoc in E. cbn [app] in E.
    apply spaces_det in E; try assumption; try reflexivity. destruct E as (-> & E). injection E as E.
    rewrite <- !app_assoc in E. apply spaces_det in E; try assumption; try (eapply value_nonspace; eassumption).
    destruct E as (-> & E). destruct (IH _ _ _ _ Hv' E S S') as (-> & -> & ->). auto.
  - intros w t v w0 Hw Hv IH Hw0 t' l' r r' H' E.
    destruct H' as [w' t' v' w0' Hw' Hv' Hw0'|w' t' v' w0' rest l' Hw' Hv' Hw0' Hl']; rewrite <- !app_assoc in E;
      (apply spaces_det in E; try assumption; try (eapply value_nonspace; eassumption));
      destruct E as (-> & E); (apply (IH _ _ _ _ Hv') in E; try (apply spaces_stop; [assumption|reflexivity]));
      destruct E as (-> & -> & E); cbn [app] in E;
      (apply spaces_det in E; try assumption; try reflexivity); destruct E as (-> & E).
    + injection E as ->. auto.
    + discriminate E.
  - intros w t v w0 rest0 l Hw Hv IH Hw0 Hl IHl t' l' r r' H' E.
    destruct H' as [w' t' v' w0' Hw' Hv' Hw0'|w' t' v' w0' rest l' Hw' Hv' Hw0' Hl']; rewrite <- !app_assoc in E;
      (apply spaces_det in E; try assumption; try (eapply value_nonspace; eassumption));
      destruct E as (-> & E); (apply (IH _ _ _ _ Hv') in E; try (apply spaces_stop; [assumption|reflexivity]));
      destruct E as (-> & -> & E); cbn [app] in E;
      (apply spaces_det in E; try assumption; try reflexivity); destruct E as (-> & E).
    + discriminate E.
    + injection E as E. destruct (IHl _ _ _ _ Hl' E) as (-> & -> & ->). auto.
Qed.

Theorem json_text_det t v v' : json_text t v -> json_text t v' -> v = v'.
Proof.
  intros [w u x w0 Hw Hv Hw0] H'. inversion H' as [w' u' x' w0' Hw' Hv' Hw0' E]. subst x'. symmetry in E.
  apply spaces_det in E; try assumption; try (eapply value_nonspace; eassumption). destruct E as (_ & E).
  apply (proj1 json_det _ _ Hv _ _ _ _ Hv') in E.
  - apply E.
  - rewrite <- (app_nil_r w0). apply spaces_stop; [assumption|exact I].
  - rewrite <- (app_nil_r w0'). apply spaces_stop; [assumption|exact I].
Qed.
