(** * JsonTrees: derivation trees of the grammar in json.bnf, the values they
    stand for and the keys printed for them. *)
From Verif Require Import Base Cst Ast Parser Examples FromCst Spec_Parse Spec_Tree Spec_Grammar Spec_Table
  Spec_Bnf Spec_Json TreeProofs ConvertProofs WalkProofs TGFirsts TGParse TGCheck BnfDet JsonParser.

Notation JG := JsonGrammar.
Notation N x := (SNonTerminal (s2b x)).

Definition jalts (n : bytes) : list sequence :=
  flat_map (fun r => if bytes_eqb (r_head r) n then r_tail r else []) JG.
Lemma alternative_jalts n s : alternative JG n s -> In s (jalts n).
Proof.
  intros (r & Hr & <- & Hs). unfold jalts. apply in_flat_map. exists r. split; [exact Hr|].
  rewrite (proj2 (bytes_eqb_eq (r_head r) (r_head r))) by reflexivity. exact Hs.
Qed.
Lemma json_closed_first : closed_first JG json_cert = true.
Proof. exact (passes_first _ _ json_passes). Qed.
Lemma json_nullable n : nullable JG [NT n] -> c_nul json_cert n = true.
Proof.
  intros H. apply (nul_over JG json_cert json_closed_first) in H. cbn [form_nul] in H.
  rewrite andb_true_r in H. exact H.
Qed.
Lemma tree_ind (P : node -> Prop) :
  (forall t, (forall c, In c (n_childs t) -> P c) -> P t) -> forall t, P t.
Proof.
  intros H t. induction t as [ty a b childs IH] using node_ind'. apply H. cbn [n_childs].
  rewrite Forall_forall in IH. exact IH.
Qed.

Section Trees.
  Variable src : bytes.
  Notation D := (derivation JG src).
  Notation Ds := (derivations JG src).
  Notation sl := (slice_nat src).

  Lemma D_le x p t q : D x p t q -> p <= q.
  Proof. intros H. exact (proj1 (proj1 (derivation_yields_both JG src) _ _ _ _ H)). Qed.
  Lemma Ds_le s p t q : Ds s p t q -> p <= q.
  Proof. intros H. exact (proj1 (proj2 (derivation_yields_both JG src) _ _ _ _ H)). Qed.
  Lemma cons_inv x s p l q : Ds (x :: s) p l q ->
    exists t m ts, l = t :: ts /\ D x p t m /\ Ds s m ts q /\ p <= m /\ m <= q.
  Proof.
    inversion 1; subst. eexists _, _, _. split; [reflexivity|]. split; [eassumption|]. split; [eassumption|].
    split; [eapply D_le|eapply Ds_le]; eassumption.
  Qed.
  Lemma nil_inv p l q : Ds [] p l q -> l = [] /\ q = p.
  Proof. inversion 1; auto. Qed.
  Lemma term_inv v p t q : D (STerminal v) p t q -> t = literal_at p q /\ sl p q = v.
  Proof. inversion 1; subst. split; [reflexivity|]. rewrite <- text_of_nat. assumption. Qed.
  Lemma nt_inv i n p t q : nth_error (heads JG) i = Some n -> D (SNonTerminal n) p t q ->
    (exists s childs, In s (jalts n) /\ t = mk (Z.of_nat i) p q childs /\ Ds s p childs q) \/
    (c_nul json_cert n = true /\ t = mk (Z.of_nat i) p q [nothing_at p] /\ q = p).
  Proof.
    intros Hi H.
    assert (U : forall j, nth_error (heads JG) j = Some n -> j = i).
    { intros j Hj. eapply (proj1 (NoDup_nth_error (heads JG)) (wf_distinct _ (dg_wf _ json_dec))).
      - apply nth_error_Some. congruence.
      - congruence. }
    inversion H as [|j n' s p' childs q' Hj Ha Hd|j n' p' Hj Hn]; subst; rewrite (U _ Hj).
    - left. exists s, childs. split; [apply alternative_jalts, Ha|]. auto.
    - right. split; [apply json_nullable, Hn|]. auto.
  Qed.
  Lemma sl_cat p m q : p <= m -> m <= q -> sl p q = sl p m ++ sl m q.
  Proof. apply slice_split. Qed.

  Ltac alternatives H :=
    let s := fresh "s" in let childs := fresh "childs" in let Hs := fresh "Hs" in let Hd := fresh "Hd" in
    let Hz := fresh "Hz" in
    destruct H as [(s & childs & Hs & -> & Hd)|(Hz & -> & ->)];
    [vm_compute in Hs; repeat (destruct Hs as [<-|Hs]; [|]); try (destruct Hs)
    |try (vm_compute in Hz; discriminate Hz)].
  Ltac child t m H1 :=
    match goal with
    | H : derivations _ _ (_ :: _) _ _ _ |- _ =>
        apply cons_inv in H;
        let L1 := fresh "L" in let L2 := fresh "L" in
        destruct H as (t & m & ?ts & -> & H1 & H & L1 & L2);
        try (apply term_inv in H1; destruct H1 as (-> & H1))
    end.
  Ltac done_childs :=
    match goal with
    | H : derivations _ _ [] _ _ _ |- _ => apply nil_inv in H; destruct H as (-> & ->)
    end.
  Ltac no_nothing :=
    match goal with
    | H : derivations _ _ [SNothing] _ _ _ |- _ =>
        apply cons_inv in H; destruct H as (? & ? & ? & _ & H & _); inversion H
    end.

  (** ** Characters *)
  Lemma class_inv i n (P : ascii -> bool) p t q :
    nth_error (heads JG) i = Some n -> c_nul json_cert n = false ->
    forallb (fun s => match s with [STerminal [c]] => P c | _ => false end) (jalts n) = true ->
    D (SNonTerminal n) p t q -> exists c, P c = true /\ sl p q = [c].
  Proof.
    intros Hi Hn Ha H. destruct (nt_inv i n p t q Hi H) as [(s & childs & Hs & -> & Hd)|(Hz & _)]; [|congruence].
    rewrite forallb_forall in Ha. specialize (Ha s Hs).
    destruct s as [|[|[|c [|]]| |] [|]]; try discriminate.
    apply cons_inv in Hd. destruct Hd as (t & m & ts & -> & H1 & H2 & _).
    apply nil_inv in H2. destruct H2 as (-> & ->). apply term_inv in H1. destruct H1 as (-> & E).
    exists c. auto.
  Qed.
  Definition is_one_nine (c : ascii) : bool := is_digit c && negb (Ascii.eqb c "0"%char).
  Lemma one_nine_inv p t q : D (N "one-nine") p t q -> exists c, is_one_nine c = true /\ sl p q = [c].
  Proof. apply (class_inv 27); vm_compute; reflexivity. Qed.
  Definition plain (c : ascii) : bool :=
    is_printable c && negb (Ascii.eqb c DQ) && negb (Ascii.eqb c BSL).
  Lemma letter_inv p t q : D (N "letter") p t q -> exists c, plain c = true /\ sl p q = [c].
  Proof. apply (class_inv 28); vm_compute; reflexivity. Qed.
  Lemma symbol_inv p t q : D (N "symbol") p t q -> exists c, plain c = true /\ sl p q = [c].
  Proof. apply (class_inv 29); vm_compute; reflexivity. Qed.
  Lemma digit_inv p t q : D (N "digit") p t q -> exists c, is_digit c = true /\ sl p q = [c].
  Proof.
    intros H. apply (nt_inv 26) in H; [|reflexivity]. alternatives H; child t1 m E; done_childs.
    - exists "0"%char. split; [reflexivity|exact E].
    - apply one_nine_inv in E. destruct E as (c & Hc & E). exists c. split; [|exact E].
      unfold is_one_nine in Hc. apply andb_prop in Hc. apply Hc.
  Qed.
  Lemma hex_inv p t q : D (N "hex") p t q -> exists c, is_hex c = true /\ sl p q = [c].
  Proof.
    intros H. apply (nt_inv 16) in H; [|reflexivity]. alternatives H; child t1 m E; done_childs.
    - apply digit_inv in E. destruct E as (c & Hc & E). exists c. split; [|exact E]. unfold is_hex. rewrite Hc. reflexivity.
    - exists "A"%char. split; [reflexivity|exact E].
    - exists "B"%char. split; [reflexivity|exact E].
    - exists "C"%char. split; [reflexivity|exact E].
    - exists "D"%char. split; [reflexivity|exact E].
    - exists "E"%char. split; [reflexivity|exact E].
    - exists "F"%char. split; [reflexivity|exact E].
    - exists "a"%char. split; [reflexivity|exact E].
    - exists "b"%char. split; [reflexivity|exact E].
    - exists "c"%char. split; [reflexivity|exact E].
    - exists "d"%char. split; [reflexivity|exact E].
    - exists "e"%char. split; [reflexivity|exact E].
    - exists "f"%char. split; [reflexivity|exact E].
  Qed.
  Lemma plain_body c w : plain c = true -> string_body w -> string_body (c :: w).
  Proof.
    unfold plain. rewrite !andb_true_iff, !negb_true_iff. intros [[H1 H2] H3] H.
    apply sb_plain; [exact H1| | |exact H]; intros ->; discriminate.
  Qed.
  Lemma character_inv p t q w : D (N "character") p t q -> string_body w -> string_body (sl p q ++ w).
  Proof.
    intros H Hw. apply (nt_inv 13) in H; [|reflexivity]. alternatives H; child t1 m E; done_childs.
    - apply digit_inv in E. destruct E as (c & Hc & ->). apply plain_body; [|exact Hw].
      destruct c as [[] [] [] [] [] [] [] []]; vm_compute in Hc; try discriminate Hc; reflexivity.
    - apply letter_inv in E. destruct E as (c & Hc & ->). apply plain_body; assumption.
    - apply (nt_inv 14) in E; [|reflexivity]. alternatives E. child t2 m2 E1. child t3 m3 E2. done_childs.
      rewrite (sl_cat p m2 m3), E1 by assumption.
      apply (nt_inv 15) in E2; [|reflexivity].
      alternatives E2; child t4 m4 F1; [..|child t5 m5 F2; child t6 m6 F3; child t7 m7 F4]; done_childs;
        try (rewrite F1; apply sb_escape; [cbn; tauto|exact Hw]).
      apply hex_inv in F2, F3, F4. destruct F2 as (a & Ha & E3), F3 as (b & Hb & E4), F4 as (c & Hc & E5).
      rewrite (sl_cat m2 m4 m7), (sl_cat m4 m5 m7), (sl_cat m5 m6 m7), F1, E3, E4, E5 by lia.
      apply sb_unicode; assumption.
    - apply symbol_inv in E. destruct E as (c & Hc & ->). apply plain_body; assumption.
  Qed.
  Lemma text_inv p t q : D (N "text") p t q -> string_body (sl p q).
  Proof.
    revert p q. induction t as [t IH] using tree_ind. intros p q H.
    apply (nt_inv 12) in H; [|reflexivity]. alternatives H.
    - no_nothing.
    - child t1 m E. child t2 m2 D2. done_childs.
      rewrite (sl_cat p m m2) by assumption. eapply character_inv; [exact E|].
      apply (IH t2); [right; left; reflexivity|assumption].
    - rewrite slice_empty. constructor.
  Qed.
  Lemma string_inv p t q : D (N "string") p t q -> exists m1 m2 t',
    t = mk 11 p q [literal_at p m1; t'; literal_at m2 q] /\ p <= m1 /\ m1 <= m2 /\ m2 <= q /\
    n_pos t' = Z.of_nat m1 /\ n_end t' = Z.of_nat m2 /\
    sl p q = DQ :: sl m1 m2 ++ [DQ] /\ string_body (sl m1 m2).
  Proof.
    intros H. apply (nt_inv 11) in H; [|reflexivity]. alternatives H.
    child t1 m1 E1. child t2 m2 E2. child t3 m3 E3. done_childs.
    exists m1, m2, t2. split; [reflexivity|]. do 3 (split; [assumption|]).
    pose proof (text_inv _ _ _ E2) as B.
    apply (nt_inv 12) in E2; [|reflexivity].
    assert (X : n_pos t2 = Z.of_nat m1 /\ n_end t2 = Z.of_nat m2).
    { destruct E2 as [(s & childs & _ & -> & _)|(_ & -> & _)]; split; reflexivity. }
    destruct X as (X1 & X2). split; [exact X1|]. split; [exact X2|]. split; [|exact B].
    rewrite (sl_cat p m1 m3), (sl_cat m1 m2 m3), E1, E3 by lia. reflexivity.
  Qed.

  Lemma spaces_inv p t q : D (N "opt-whitespace") p t q -> spaces (sl p q).
  Proof.
    revert p q. induction t as [t IH] using tree_ind. intros p q H.
    apply (nt_inv 30) in H; [|reflexivity]. alternatives H.
    - no_nothing.
    - child t1 m E. child t2 m2 D2. done_childs. rewrite (sl_cat p m m2) by assumption.
      assert (W : spaces (sl m m2)) by (apply (IH t2); [right; left; reflexivity|assumption]).
      apply (nt_inv 31) in E; [|reflexivity]. alternatives E; child t3 m3 E1; done_childs.
      + rewrite E1. apply sp_space, W.
      + apply (nt_inv 32) in E1; [|reflexivity]. alternatives E1; child t4 m4 E2; done_childs; rewrite E2.
        * apply sp_lf, W.
        * apply sp_crlf, W.
    - rewrite slice_empty. constructor.
  Qed.

  (** ** Numbers *)
  Lemma opt_digits_inv p t q : D (N "opt-digits") p t q -> all is_digit (sl p q).
  Proof.
    revert p q. induction t as [t IH] using tree_ind. intros p q H.
    apply (nt_inv 24) in H; [|reflexivity]. alternatives H.
    - no_nothing.
    - child t1 m E. child t2 m2 D2. done_childs. apply digit_inv in E. destruct E as (c & Hc & E).
      rewrite (sl_cat p m m2), E by assumption. constructor; [exact Hc|].
      apply (IH t2); [right; left; reflexivity|assumption].
    - rewrite slice_empty. constructor.
  Qed.
  Lemma digits_inv p t q : D (N "digits") p t q -> digits (sl p q).
  Proof.
    intros H. apply (nt_inv 23) in H; [|reflexivity]. alternatives H. child t1 m E. child t2 m2 D2. done_childs.
    apply digit_inv in E. destruct E as (c & Hc & E). rewrite (sl_cat p m m2), E by assumption.
    split; [discriminate|]. constructor; [exact Hc|]. eapply opt_digits_inv, D2.
  Qed.
  Lemma sign_inv p t q : D (N "opt-sign") p t q -> sl p q = [] \/ sl p q = s2b "+" \/ sl p q = s2b "-".
  Proof.
    intros H. apply (nt_inv 25) in H; [|reflexivity]. alternatives H.
    - no_nothing.
    - child t1 m E. done_childs. auto.
    - child t1 m E. done_childs. auto.
    - rewrite slice_empty. auto.
  Qed.
  Lemma number_inv p t q : D (N "number") p t q -> number (sl p q).
  Proof.
    intros H. apply (nt_inv 17) in H; [|reflexivity]. alternatives H.
    child t1 m1 E1. child t2 m2 E2. child t3 m3 E3. done_childs.
    apply (nt_inv 18) in E1; [|reflexivity]. alternatives E1. child t4 m4 E4. child t5 m5 E5. done_childs.
    exists (sl p m4), (sl m4 m5), (sl m5 m2), (sl m2 m3).
    split; [rewrite (sl_cat p m4 m3), (sl_cat m4 m5 m3), (sl_cat m5 m2 m3) by lia; reflexivity|].
    split; [|split; [|split]].
    - apply (nt_inv 20) in E4; [|reflexivity]. alternatives E4.
      + no_nothing.
      + child t6 m6 E6. done_childs. auto.
      + rewrite slice_empty. auto.
    - apply (nt_inv 19) in E5; [|reflexivity]. alternatives E5.
      + child t6 m6 E6. done_childs. left. exact E6.
      + child t6 m6 E6. child t7 m7 E7. done_childs. right.
        apply one_nine_inv in E6. destruct E6 as (c & Hc & E6).
        rewrite (sl_cat m4 m6 m7), E6 by assumption. unfold is_one_nine in Hc. apply andb_prop in Hc. destruct Hc as (Hc & Hn).
        exists c, (sl m6 m7). split; [reflexivity|]. split; [exact Hc|].
        split; [intros ->; discriminate|]. eapply opt_digits_inv, E7.
    - apply (nt_inv 21) in E2; [|reflexivity]. alternatives E2.
      + no_nothing.
      + child t6 m6 E6. child t7 m7 E7. done_childs. right. exists (sl m6 m7).
        rewrite (sl_cat m5 m6 m7), E6 by assumption. split; [reflexivity|]. eapply digits_inv, E7.
      + left. apply slice_empty.
    - assert (X : forall a m6 m7 b t7 t8 e, sl a m6 = [e] -> e = "e"%char \/ e = "E"%char -> a <= m6 -> m6 <= m7 -> m7 <= b ->
              D (N "opt-sign") m6 t7 m7 -> D (N "digits") m7 t8 b -> exponent_part (sl a b)).
      { intros a m6 m7 b t7 t8 e Ee He La Lb Lc D7 D8. right. exists e, (sl m6 m7), (sl m7 b).
        rewrite (sl_cat a m6 b), (sl_cat m6 m7 b), Ee by lia. split; [reflexivity|]. split; [exact He|].
        split; [eapply sign_inv, D7|eapply digits_inv, D8]. }
      apply (nt_inv 22) in E3; [|reflexivity]. alternatives E3.
      + no_nothing.
      + child t6 m6 E6. child t7 m7 E7. child t8 m8 E8. done_childs. eapply X; [exact E6|auto|exact L9|exact L11|exact L13|exact E7|exact E8].
      + child t6 m6 E6. child t7 m7 E7. child t8 m8 E8. done_childs. eapply X; [exact E6|auto|exact L9|exact L11|exact L13|exact E7|exact E8].
      + left. apply slice_empty.
  Qed.

  (** ** Printing *)
  Notation W := (walk (keyVisit src)).
  Definition prints (lvl : nat) (t : node) (k : bytes) : Prop := forall out, W lvl out t = Ok (out ++ k).

  Lemma prints_deep lvl t : (10 <? n_type t)%Z = true -> prints lvl t [].
  Proof. intros H out. rewrite walk_eq. unfold keyVisit. rewrite H, app_nil_r. reflexivity. Qed.
  Lemma prints_each lvl ts ks : Forall2 (prints lvl) ts ks -> forall out,
    walk_each (keyVisit src) lvl out ts = Ok (out ++ concat ks).
  Proof.
    induction 1 as [|t k ts ks H _ IH]; intros out; cbn [walk_each concat]; [rewrite app_nil_r; reflexivity|].
    rewrite H, IH, app_assoc. reflexivity.
  Qed.
  Lemma prints_node lvl lvl' i p q ts ks :
    (10 <? i)%Z = false -> (i =? 6)%Z = false ->
    lvl' = (if (i =? 9)%Z || (i =? 10)%Z then S lvl else lvl) ->
    Forall2 (prints lvl') ts ks -> prints lvl (mk i p q ts) (concat ks).
  Proof.
    intros H1 H2 -> H out. rewrite walk_eq. unfold keyVisit. unfold mk. cbn [n_type n_childs].
    rewrite H1, H2. cbn [gobind]. apply prints_each, H.
  Qed.
  Lemma prints_literal lvl p q : prints lvl (literal_at p q) [].
  Proof. apply (prints_node lvl lvl (-1) p q [] []); try reflexivity. constructor. Qed.
  Lemma prints_nothing lvl p : prints lvl (nothing_at p) [].
  Proof. apply (prints_node lvl lvl (-2) p p [] []); try reflexivity. constructor. Qed.
  Lemma prints_member lvl p q m1 m2 p' q' t' ts ks i j k :
    n_pos t' = Z.of_nat m1 -> n_end t' = Z.of_nat m2 -> m1 <= m2 -> m2 <= length src ->
    Forall2 (prints lvl) (mk 11 p' q' [literal_at i j; t'; k] :: ts) ks ->
    prints lvl (mk 6 p q (mk 11 p' q' [literal_at i j; t'; k] :: ts)) (indent lvl ++ sl m1 m2 ++ LF :: concat ks).
  Proof.
    intros H1 H2 L1 L2 H out. rewrite walk_eq. unfold keyVisit at 1. unfold mk. cbn [n_type n_childs].
    change (10 <? 6)%Z with false. change (6 =? 6)%Z with true. change ((6 =? 9)%Z || (6 =? 10)%Z) with false. cbv iota.
    unfold child. cbn [n_childs nth_error gobind]. rewrite H1, H2. unfold slice.
    assert (B : ((0 <=? Z.of_nat m1) && (Z.of_nat m1 <=? Z.of_nat m2) && (Z.of_nat m2 <=? Z.of_nat (length src)))%Z = true)
      by (rewrite !andb_true_iff, !Z.leb_le; lia).
    rewrite B. cbn [gobind]. unfold mk in H. rewrite (prints_each _ _ _ H).
    replace (Z.to_nat (Z.of_nat m2 - Z.of_nat m1)) with (m2 - m1) by lia. rewrite Nat2Z.id.
    unfold sl, indent. rewrite <- !app_assoc. reflexivity.
  Qed.

  Ltac shallow := repeat (first [apply Forall2_nil | apply Forall2_cons]).

  Lemma deep_nt i n lvl p t q : nth_error (heads JG) i = Some n -> (10 <? Z.of_nat i)%Z = true ->
    D (SNonTerminal n) p t q -> prints lvl t [].
  Proof.
    intros Hi Ht H. apply prints_deep. apply (nt_inv i) in H; [|exact Hi].
    destruct H as [(s & childs & _ & -> & _)|(_ & -> & _)]; exact Ht.
  Qed.
  Lemma spaces_print lvl p t q : D (N "opt-whitespace") p t q -> prints lvl t [].
  Proof. apply (deep_nt 30); reflexivity. Qed.

  (** ** Values *)
  Definition is_value p t q := exists v, value_text (sl p q) v /\ forall lvl, prints lvl t (key_lines lvl v).
  Definition member_lines lvl (m : bytes * jvalue) : bytes := indent lvl ++ fst m ++ LF :: key_lines lvl (snd m).
  Definition is_members p t q := (sl p q = [] /\ forall lvl, prints lvl t []) \/
    exists l, members_text (sl p q) l /\ forall lvl, prints lvl t (flat_map (member_lines lvl) l).
  Definition is_members_tail p t q := (sl p q = [] /\ forall lvl, prints lvl t []) \/
    exists w rest l, sl p q = ","%char :: w ++ rest /\ spaces w /\ members_text rest l /\
      forall lvl, prints lvl t (flat_map (member_lines lvl) l).
  Definition is_elements p t q := (sl p q = [] /\ forall lvl, prints lvl t []) \/
    exists l, elements_text (sl p q) l /\ forall lvl, prints lvl t (flat_map (key_lines lvl) l).
  Definition is_elements_tail p t q := (sl p q = [] /\ forall lvl, prints lvl t []) \/
    exists rest l, sl p q = ","%char :: rest /\ elements_text rest l /\
      forall lvl, prints lvl t (flat_map (key_lines lvl) l).
  Definition is_member p t q := exists k v, member_text (sl p q) k v /\
    forall lvl, prints lvl t (member_lines lvl (k, v)).
  Definition is_wvalue p t q := exists w v' t' w', sl p q = w ++ t' ++ w' /\ spaces w /\ value_text t' v' /\ spaces w' /\
    forall lvl, prints lvl t (key_lines lvl v').

  Lemma empty_prints i p q : (10 <? i)%Z = false -> (i =? 6)%Z = false ->
    forall lvl, prints lvl (mk i p q [nothing_at p]) [].
  Proof.
    intros H1 H2 lvl. apply (prints_node lvl _ i p q _ [[]] H1 H2 eq_refl).
    constructor; [apply prints_nothing|constructor].
  Qed.

  Lemma members_join lvl m1 ts m2 : concat [member_lines lvl m1; []; flat_map (member_lines lvl) m2] = ts ->
    ts = flat_map (member_lines lvl) (m1 :: m2).
  Proof. intros <-. cbn. rewrite app_nil_r. reflexivity. Qed.

  Lemma trees t : forall p q, q <= length src ->
    (D (N "value") p t q -> is_value p t q) /\
    (D (N "object") p t q -> is_value p t q) /\
    (D (N "array") p t q -> is_value p t q) /\
    (D (N "opt-key-value-list") p t q -> is_members p t q) /\
    (D (N "opt-key-value-list-tail") p t q -> is_members_tail p t q) /\
    (D (N "key-value") p t q -> is_member p t q) /\
    (D (N "opt-value-list") p t q -> is_elements p t q) /\
    (D (N "opt-value-list-tail") p t q -> is_elements_tail p t q) /\
    (D (N "opt-whitespaced-value") p t q -> is_wvalue p t q).
  Proof.
    induction t as [t IH] using tree_ind. intros p q Lq.
    assert (IH' : forall c, In c (n_childs t) -> forall p' q', q' <= length src -> _) by exact IH. clear IH.
    repeat split; intros H.
    - (* value *)
      apply (nt_inv 8) in H; [|reflexivity]. alternatives H; child t1 m E; done_childs.
      + destruct (IH' t1 (or_introl eq_refl) p m Lq) as (_ & X & _). destruct (X E) as (v & Hv & Hp).
        exists v. split; [exact Hv|]. intros lvl.
        rewrite <- (app_nil_r (key_lines lvl v)). change (key_lines lvl v ++ []) with (concat [key_lines lvl v]).
        eapply prints_node; try reflexivity. shallow; apply Hp.
      + destruct (IH' t1 (or_introl eq_refl) p m Lq) as (_ & _ & X & _). destruct (X E) as (v & Hv & Hp).
        exists v. split; [exact Hv|]. intros lvl.
        rewrite <- (app_nil_r (key_lines lvl v)). change (key_lines lvl v ++ []) with (concat [key_lines lvl v]).
        eapply prints_node; try reflexivity. shallow; apply Hp.
      + pose proof (string_inv _ _ _ E) as (m1 & m2 & t' & _ & _ & _ & _ & _ & _ & Es & B).
        exists (JString (sl m1 m2)). split; [rewrite Es; apply vt_string, B|]. intros lvl.
        change (key_lines lvl (JString (sl m1 m2))) with (concat [@nil ascii]).
        eapply prints_node; try reflexivity. shallow. eapply (deep_nt 11); [reflexivity|reflexivity|exact E].
      + exists (JNumber (sl p m)). split; [apply vt_number; eapply number_inv, E|]. intros lvl.
        change (key_lines lvl (JNumber (sl p m))) with (concat [@nil ascii]).
        eapply prints_node; try reflexivity. shallow. eapply (deep_nt 17); [reflexivity|reflexivity|exact E].
      + exists JTrue. split; [rewrite E; constructor|]. intros lvl. change (key_lines lvl JTrue) with (concat [@nil ascii]).
        eapply prints_node; try reflexivity. shallow; apply prints_literal.
      + exists JFalse. split; [rewrite E; constructor|]. intros lvl. change (key_lines lvl JFalse) with (concat [@nil ascii]).
        eapply prints_node; try reflexivity. shallow; apply prints_literal.
      + exists JNull. split; [rewrite E; constructor|]. intros lvl. change (key_lines lvl JNull) with (concat [@nil ascii]).
        eapply prints_node; try reflexivity. shallow; apply prints_literal.
    - (* object *)
      apply (nt_inv 9) in H; [|reflexivity]. alternatives H.
      child t1 m1 E1. child t2 m2 E2. child t3 m3 E3. child t4 m4 E4. done_childs.
      destruct (IH' t3 ltac:(cbn; tauto) m2 m3 ltac:(lia)) as (_ & _ & _ & X & _). specialize (X E3).
      assert (Es : sl p m4 = "{"%char :: sl m1 m2 ++ sl m2 m3 ++ s2b "}").
      { rewrite (sl_cat p m1 m4), (sl_cat m1 m2 m4), (sl_cat m2 m3 m4), E1, E4 by lia. reflexivity. }
      destruct X as [(Ee & Hp)|(l & Hl & Hp)].
      + exists (JObject []). rewrite Es, Ee. split; [apply vt_no_members; eapply spaces_inv, E2|]. intros lvl.
        change (key_lines lvl (JObject [])) with (concat [[]; []; []; @nil ascii]).
        eapply prints_node; try reflexivity.
        shallow; first [apply prints_literal|eapply spaces_print, E2|apply Hp].
      + exists (JObject l). rewrite Es. split; [apply vt_object; [eapply spaces_inv, E2|exact Hl]|]. intros lvl.
        replace (key_lines lvl (JObject l)) with (concat [[]; []; flat_map (member_lines (S lvl)) l; @nil ascii])
          by (cbn [concat app]; rewrite app_nil_r; reflexivity).
        eapply prints_node; try reflexivity.
        shallow; first [apply prints_literal|eapply spaces_print, E2|apply Hp].
    - (* array *)
      apply (nt_inv 10) in H; [|reflexivity]. alternatives H.
      child t1 m1 E1. child t2 m2 E2. child t3 m3 E3. done_childs.
      destruct (IH' t2 ltac:(cbn; tauto) m1 m2 ltac:(lia)) as (_ & _ & _ & _ & _ & _ & X & _). specialize (X E2).
      assert (Es : sl p m3 = "["%char :: sl m1 m2 ++ s2b "]").
      { rewrite (sl_cat p m1 m3), (sl_cat m1 m2 m3), E1, E3 by lia. reflexivity. }
      destruct X as [(Ee & Hp)|(l & Hl & Hp)].
      + exists (JArray []). rewrite Es, Ee. split; [apply vt_no_elements|]. intros lvl.
        change (key_lines lvl (JArray [])) with (concat [[]; []; @nil ascii]).
        eapply prints_node; try reflexivity. shallow; first [apply prints_literal|apply Hp].
      + exists (JArray l). rewrite Es. split; [apply vt_array; exact Hl|]. intros lvl.
        replace (key_lines lvl (JArray l)) with (concat [[]; flat_map (key_lines (S lvl)) l; @nil ascii])
          by (cbn [concat app]; rewrite app_nil_r; reflexivity).
        eapply prints_node; try reflexivity. shallow; first [apply prints_literal|apply Hp].
    - (* members *)
      apply (nt_inv 4) in H; [|reflexivity]. alternatives H.
      + no_nothing.
      + child t1 m1 E1. child t2 m2 E2. child t3 m3 E3. done_childs. right.
        destruct (IH' t1 ltac:(cbn; tauto) p m1 ltac:(lia)) as (_ & _ & _ & _ & _ & X & _). destruct (X E1) as (k & v & Hm & Hp).
        destruct (IH' t3 ltac:(cbn; tauto) m2 m3 ltac:(lia)) as (_ & _ & _ & _ & Y & _). specialize (Y E3).
        rewrite (sl_cat p m1 m3), (sl_cat m1 m2 m3) by lia.
        destruct Y as [(Ee & Hq)|(w & rest & l & Ee & Hw & Hl & Hq)].
        * exists [(k, v)]. rewrite Ee, app_nil_r. split; [apply me_last; [exact Hm|eapply spaces_inv, E2]|].
          intros lvl. change (flat_map (member_lines lvl) [(k, v)]) with (concat [member_lines lvl (k, v)]).
          replace (concat [member_lines lvl (k, v)]) with (concat [member_lines lvl (k, v); []; []]) by reflexivity.
          eapply prints_node; try reflexivity. shallow; first [apply Hp|apply Hq|eapply spaces_print, E2].
        * exists ((k, v) :: l). rewrite Ee. split; [apply me_more; [exact Hm|eapply spaces_inv, E2|exact Hw|exact Hl]|].
          intros lvl. rewrite <- (members_join lvl (k, v) _ l eq_refl).
          eapply prints_node; try reflexivity. shallow; first [apply Hp|apply Hq|eapply spaces_print, E2].
      + left. split; [apply slice_empty|]. apply empty_prints; reflexivity.
    - (* members tail *)
      apply (nt_inv 5) in H; [|reflexivity]. alternatives H.
      + no_nothing.
      + child t0 m0 E0. child t00 m00 E00. child t1 m1 E1. child t2 m2 E2. child t3 m3 E3. done_childs. right.
        destruct (IH' t1 ltac:(cbn; tauto) m00 m1 ltac:(lia)) as (_ & _ & _ & _ & _ & X & _). destruct (X E1) as (k & v & Hm & Hp).
        destruct (IH' t3 ltac:(cbn; tauto) m2 m3 ltac:(lia)) as (_ & _ & _ & _ & Y & _). specialize (Y E3).
        exists (sl m0 m00), (sl m00 m3).
        destruct Y as [(Ee & Hq)|(w & rest & l & Ee & Hw & Hl & Hq)].
        * exists [(k, v)]. split; [rewrite (sl_cat p m0 m3), (sl_cat m0 m00 m3), E0 by lia; reflexivity|].
          split; [eapply spaces_inv, E00|]. rewrite (sl_cat m00 m1 m3), (sl_cat m1 m2 m3), Ee, app_nil_r by lia.
          split; [apply me_last; [exact Hm|eapply spaces_inv, E2]|].
          intros lvl. replace (flat_map (member_lines lvl) [(k, v)]) with (concat [[]; []; member_lines lvl (k, v); []; []]) by reflexivity.
          eapply prints_node; try reflexivity.
          shallow; first [apply prints_literal|apply Hp|apply Hq|eapply spaces_print, E2|eapply spaces_print, E00].
        * exists ((k, v) :: l). split; [rewrite (sl_cat p m0 m3), (sl_cat m0 m00 m3), E0 by lia; reflexivity|].
          split; [eapply spaces_inv, E00|]. rewrite (sl_cat m00 m1 m3), (sl_cat m1 m2 m3), Ee by lia.
          split; [apply me_more; [exact Hm|eapply spaces_inv, E2|exact Hw|exact Hl]|].
          intros lvl. rewrite <- (members_join lvl (k, v) _ l eq_refl).
          change (concat [member_lines lvl (k, v); []; flat_map (member_lines lvl) l])
            with (concat [[]; []; member_lines lvl (k, v); []; flat_map (member_lines lvl) l]).
          eapply prints_node; try reflexivity.
          shallow; first [apply prints_literal|apply Hp|apply Hq|eapply spaces_print, E2|eapply spaces_print, E00].
      + left. split; [apply slice_empty|]. apply empty_prints; reflexivity.
    - (* member *)
      apply (nt_inv 6) in H; [|reflexivity]. alternatives H.
      child t1 m1 E1. child t2 m2 E2. child t3 m3 E3. child t4 m4 E4. child t5 m5 E5. done_childs.
      destruct (IH' t5 ltac:(cbn; tauto) m4 m5 ltac:(lia)) as (X & _). destruct (X E5) as (v & Hv & Hp).
      pose proof (deep_nt 11 _ 0 _ _ _ eq_refl eq_refl E1) as _.
      pose proof E1 as E1'. apply string_inv in E1'.
      destruct E1' as (a & b & t' & -> & La & Lb & Lc & P1 & P2 & Es & B).
      exists (sl a b), v.
      rewrite (sl_cat p m1 m5), (sl_cat m1 m2 m5), (sl_cat m2 m3 m5), (sl_cat m3 m4 m5), Es, E3 by lia.
      replace ((DQ :: sl a b ++ [DQ]) ++ sl m1 m2 ++ [":"%char] ++ sl m3 m4 ++ sl m4 m5)
        with (DQ :: sl a b ++ DQ :: sl m1 m2 ++ ":"%char :: sl m3 m4 ++ sl m4 m5)
        by (cbn [app]; rewrite <- app_assoc; reflexivity).
      split; [apply mb; [exact B|eapply spaces_inv, E2|eapply spaces_inv, E4|exact Hv]|].
      intros lvl. unfold member_lines. cbn [fst snd].
      replace (key_lines lvl v) with (concat [[]; []; []; []; key_lines lvl v]) by (cbn; apply app_nil_r).
      eapply prints_member; [exact P1|exact P2|lia|lia|].
      shallow; first [apply prints_literal|apply Hp|eapply spaces_print, E2|eapply spaces_print, E4
                     |eapply (deep_nt 11); [reflexivity|reflexivity|exact E1]].
    - (* elements *)
      apply (nt_inv 2) in H; [|reflexivity]. alternatives H.
      + no_nothing.
      + child t1 m1 E1. child t2 m2 E2. done_childs. right.
        destruct (IH' t1 ltac:(cbn; tauto) p m1 ltac:(lia)) as (_ & _ & _ & _ & _ & _ & _ & _ & X).
        destruct (X E1) as (w & v & u & w' & Eu & Hw & Hv & Hw' & Hp).
        destruct (IH' t2 ltac:(cbn; tauto) m1 m2 ltac:(lia)) as (_ & _ & _ & _ & _ & _ & _ & Y & _). specialize (Y E2).
        rewrite (sl_cat p m1 m2), Eu by lia.
        destruct Y as [(Ee & Hq)|(rest & l & Ee & Hl & Hq)].
        * exists [v]. rewrite Ee, app_nil_r. split; [apply el_last; assumption|]. intros lvl.
          change (flat_map (key_lines lvl) [v]) with (concat [key_lines lvl v; []]).
          eapply prints_node; try reflexivity. shallow; first [apply Hp|apply Hq].
        * exists (v :: l). rewrite Ee, <- !app_assoc. split; [apply el_more; assumption|]. intros lvl.
          replace (flat_map (key_lines lvl) (v :: l)) with (concat [key_lines lvl v; flat_map (key_lines lvl) l])
            by (cbn; rewrite app_nil_r; reflexivity).
          eapply prints_node; try reflexivity. shallow; first [apply Hp|apply Hq].
      + left. split; [apply slice_empty|]. apply empty_prints; reflexivity.
    - (* elements tail *)
      apply (nt_inv 3) in H; [|reflexivity]. alternatives H.
      + no_nothing.
      + child t0 m0 E0. child t1 m1 E1. child t2 m2 E2. done_childs. right.
        destruct (IH' t1 ltac:(cbn; tauto) m0 m1 ltac:(lia)) as (_ & _ & _ & _ & _ & _ & _ & _ & X).
        destruct (X E1) as (w & v & u & w' & Eu & Hw & Hv & Hw' & Hp).
        destruct (IH' t2 ltac:(cbn; tauto) m1 m2 ltac:(lia)) as (_ & _ & _ & _ & _ & _ & _ & Y & _). specialize (Y E2).
        exists (sl m0 m2).
        destruct Y as [(Ee & Hq)|(rest & l & Ee & Hl & Hq)].
        * exists [v]. split; [rewrite (sl_cat p m0 m2), E0 by lia; reflexivity|].
          rewrite (sl_cat m0 m1 m2), Eu, Ee, app_nil_r by lia. split; [apply el_last; assumption|]. intros lvl.
          change (flat_map (key_lines lvl) [v]) with (concat [[]; key_lines lvl v; []]).
          eapply prints_node; try reflexivity. shallow; first [apply prints_literal|apply Hp|apply Hq].
        * exists (v :: l). split; [rewrite (sl_cat p m0 m2), E0 by lia; reflexivity|].
          rewrite (sl_cat m0 m1 m2), Eu, Ee, <- !app_assoc by lia. split; [apply el_more; assumption|]. intros lvl.
          replace (flat_map (key_lines lvl) (v :: l)) with (concat [[]; key_lines lvl v; flat_map (key_lines lvl) l])
            by (cbn; rewrite app_nil_r; reflexivity).
          eapply prints_node; try reflexivity. shallow; first [apply prints_literal|apply Hp|apply Hq].
      + left. split; [apply slice_empty|]. apply empty_prints; reflexivity.
    - (* value between white space *)
      apply (nt_inv 7) in H; [|reflexivity]. alternatives H.
      child t1 m1 E1. child t2 m2 E2. child t3 m3 E3. done_childs.
      destruct (IH' t2 ltac:(cbn; tauto) m1 m2 ltac:(lia)) as (X & _). destruct (X E2) as (v & Hv & Hp).
      exists (sl p m1), v, (sl m1 m2), (sl m2 m3).
      split; [rewrite (sl_cat p m1 m3), (sl_cat m1 m2 m3) by lia; reflexivity|].
      split; [eapply spaces_inv, E1|]. split; [exact Hv|]. split; [eapply spaces_inv, E3|]. intros lvl.
      replace (key_lines lvl v) with (concat [[]; key_lines lvl v; []]) by (cbn; apply app_nil_r).
      eapply prints_node; try reflexivity. shallow; first [apply Hp|eapply spaces_print, E1|eapply spaces_print, E3].
  Qed.
End Trees.

Lemma slice_all s : slice_nat s 0 (length s) = s.
Proof. unfold slice_nat. cbn [skipn]. rewrite Nat.sub_0_r. apply firstn_all. Qed.

Theorem json_tree src t : derivation_tree JG src t ->
  exists v, json_text src v /\ printKeys src t = Ok (key_lines 0 v).
Proof.
  unfold derivation_tree. change (start JG) with (s2b "json"). intros H.
  apply (nt_inv src 0) in H; [|reflexivity].
  destruct H as [(s & childs & Hs & -> & Hd)|(Hz & _)]; [|vm_compute in Hz; discriminate Hz].
  vm_compute in Hs. destruct Hs as [<-|[]]. apply cons_inv in Hd. destruct Hd as (t1 & m & ts & -> & E & Hd & _).
  apply nil_inv in Hd. destruct Hd as (-> & <-).
  apply (nt_inv src 1) in E; [|reflexivity].
  destruct E as [(s & childs & Hs & -> & Hd)|(Hz & _)]; [|vm_compute in Hz; discriminate Hz].
  vm_compute in Hs. destruct Hs as [<-|[]]. apply cons_inv in Hd. destruct Hd as (t2 & m2 & ts & -> & E & Hd & _).
  apply nil_inv in Hd. destruct Hd as (-> & <-).
  destruct (trees src t2 0 (length src) (le_n _)) as (_ & _ & _ & _ & _ & _ & _ & _ & X).
  destruct (X E) as (w & v & u & w' & Eu & Hw & Hv & Hw' & Hp). exists v.
  split; [rewrite <- (slice_all src), Eu; constructor; assumption|].
  assert (P : prints src 0 (mk (Z.of_nat 0) 0 (length src) [mk (Z.of_nat 1) 0 (length src) [t2]]) (key_lines 0 v)).
  { rewrite <- (app_nil_r (key_lines 0 v)). change (key_lines 0 v ++ []) with (concat [key_lines 0 v]).
    eapply prints_node; try reflexivity. constructor; [|constructor].
    rewrite <- (app_nil_r (key_lines 0 v)). change (key_lines 0 v ++ []) with (concat [key_lines 0 v]).
    eapply prints_node; try reflexivity. constructor; [apply Hp|constructor]. }
  exact (P []).
Qed.
