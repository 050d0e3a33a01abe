(** * JsonWords: every text of the JSON dialect is a word of the grammar in json.bnf. *)
From Verif Require Import Base Ast Spec_Grammar Spec_Bnf Spec_Json TGParse JsonParser.

Notation JG := JsonGrammar.
Notation G := (gen JsonGrammar).

Lemma jpick (i j : nat) r s w : nth_error JG i = Some r -> nth_error (r_tail r) j = Some s ->
  G (seq_form s) w -> G [NT (r_head r)] w.
Proof.
  intros Hi Hj H. rewrite <- (app_nil_r w). eapply gen_nt; [|exact H|constructor].
  exists r. split; [eapply nth_error_In, Hi|]. split; [reflexivity|]. eapply nth_error_In, Hj.
Qed.
Ltac use_alt i j :=
  let r := eval vm_compute in (nth i JG (mkRule [] [])) in
  let s := eval cbn in (nth j (r_tail r) []) in
  eapply (jpick i j r s); [reflexivity|reflexivity|cbn [seq_form flat_map sym_form map app s2b]].
Lemma gen_cons x u w1 w2 : G [x] w1 -> G u w2 -> G (x :: u) (w1 ++ w2).
Proof. apply (gen_app JG [x]). Qed.
Lemma gen_last x w : G [x] w -> G [x] w.
Proof. auto. Qed.
Lemma gen_cons_c c u w : G u w -> G (Ch c :: u) (c :: w).
Proof. apply gen_ch. Qed.

Definition one_char (i : nat) (c : ascii) : bool :=
  match nth_error JG i with
  | Some r => existsb (fun s => match s with [STerminal [d]] => Ascii.eqb d c | _ => false end) (r_tail r)
  | None => false
  end.
Lemma one_char_gen i n c : nth_error (heads JG) i = Some n -> one_char i c = true -> G [NT n] [c].
Proof.
  unfold heads, one_char. rewrite nth_error_map. destruct (nth_error JG i) as [r|] eqn:Hi; [|discriminate].
  intros E H. injection E as <-. apply existsb_exists in H. destruct H as (s & Hs & H).
  destruct s as [|[|[|d [|]]| |] [|]]; try discriminate. apply Ascii.eqb_eq in H. subst d.
  apply In_nth_error in Hs. destruct Hs as (j & Hj).
  eapply jpick; [exact Hi|exact Hj|]. cbn. apply gen_ch. constructor.
Qed.
Ltac bits c H := destruct c as [[] [] [] [] [] [] [] []]; vm_compute in H; try discriminate H.

Lemma one_nine_gen c : is_digit c = true -> c <> "0"%char -> G [NT (s2b "one-nine")] [c].
Proof.
  intros H N. apply (one_char_gen 27); [reflexivity|]. bits c H; try (vm_compute; reflexivity).
  destruct N. reflexivity.
Qed.
Lemma digit_gen c : is_digit c = true -> G [NT (s2b "digit")] [c].
Proof.
  intros H. destruct (Ascii.eqb_spec c "0"%char) as [->|N].
  - use_alt 26 0. apply gen_ch. constructor.
  - use_alt 26 1. apply one_nine_gen; assumption.
Qed.
Lemma char_cases c : is_printable c = true ->
  is_digit c = true \/ one_char 28 c = true \/ one_char 29 c = true \/ c = DQ \/ c = BSL.
Proof.
  intros H. bits c H; first [left; vm_compute; reflexivity | right; left; vm_compute; reflexivity
          | right; right; left; vm_compute; reflexivity | auto 10 ].
Qed.
Lemma character_gen c : is_printable c = true -> c <> DQ -> c <> BSL -> G [NT (s2b "character")] [c].
Proof.
  intros H N1 N2. destruct (char_cases c H) as [L|[L|[L|[L|L]]]]; try contradiction.
  - use_alt 13 0. apply digit_gen, L.
  - use_alt 13 1. apply (one_char_gen 28); [reflexivity|exact L].
  - use_alt 13 3. apply (one_char_gen 29); [reflexivity|exact L].
Qed.
Lemma hex_gen c : is_hex c = true -> G [NT (s2b "hex")] [c].
Proof.
  intros H. unfold is_hex in H. apply orb_true_iff in H. destruct H as [H|H].
  - use_alt 16 0. apply digit_gen, H.
  - apply (one_char_gen 16); [reflexivity|]. bits c H; vm_compute; reflexivity.
Qed.
Lemma escape_gen e w : G [NT (s2b "escape")] (e :: w) -> G [NT (s2b "character")] (BSL :: e :: w).
Proof. intros H. use_alt 13 2. use_alt 14 0. apply gen_ch. exact H. Qed.
Lemma body_gen s : string_body s -> G [NT (s2b "text")] s.
Proof.
  induction 1 as [|c w P N B _ IH|e w He _ IH|a b c w Ha Hb Hc _ IH].
  - use_alt 12 0. constructor.
  - use_alt 12 1. apply (gen_cons _ _ [c]); [|exact IH]. apply character_gen; assumption.
  - use_alt 12 1. apply (gen_cons _ _ [BSL; e]); [|exact IH]. apply escape_gen.
    apply (one_char_gen 15); [reflexivity|]. vm_compute in He.
    repeat (destruct He as [<-|He]; [vm_compute; reflexivity|]). destruct He.
  - use_alt 12 1. apply (gen_cons _ _ [BSL; "u"%char; a; b; c]); [|exact IH]. apply escape_gen.
    use_alt 15 8. apply gen_ch. apply (gen_cons _ _ [a]); [apply hex_gen, Ha|].
    apply (gen_cons _ _ [b]); [apply hex_gen, Hb|apply hex_gen, Hc].
Qed.
Lemma string_gen s : string_body s -> G [NT (s2b "string")] (DQ :: s ++ [DQ]).
Proof.
  intros H. use_alt 11 0. apply gen_ch. apply gen_cons; [apply body_gen, H|]. apply gen_ch. constructor.
Qed.

Lemma spaces_gen w : spaces w -> G [NT (s2b "opt-whitespace")] w.
Proof.
  induction 1 as [|w _ IH|w _ IH|w _ IH].
  - use_alt 30 0. constructor.
  - use_alt 30 1. apply (gen_cons _ _ [" "%char]); [|exact IH]. use_alt 31 0. apply gen_ch. constructor.
  - use_alt 30 1. apply (gen_cons _ _ [LF]); [|exact IH]. use_alt 31 1. use_alt 32 0. apply gen_ch. constructor.
  - use_alt 30 1. apply (gen_cons _ _ [CR; LF]); [|exact IH]. use_alt 31 1. use_alt 32 1.
    apply gen_ch, gen_ch. constructor.
Qed.

Lemma opt_digits_gen ds : all is_digit ds -> G [NT (s2b "opt-digits")] ds.
Proof.
  induction 1 as [|c ds H _ IH].
  - use_alt 24 0. constructor.
  - use_alt 24 1. apply (gen_cons _ _ [c]); [apply digit_gen, H|exact IH].
Qed.
Lemma digits_gen ds : digits ds -> G [NT (s2b "digits")] ds.
Proof.
  intros (N & H). destruct H as [|c ds H A]; [contradiction|].
  use_alt 23 0. apply (gen_cons _ _ [c]); [apply digit_gen, H|apply opt_digits_gen, A].
Qed.
Lemma sign_gen s : s = [] \/ s = s2b "+" \/ s = s2b "-" -> G [NT (s2b "opt-sign")] s.
Proof.
  intros [->|[->| ->]]; [use_alt 25 0; constructor|use_alt 25 1|use_alt 25 2]; apply gen_ch; constructor.
Qed.
Lemma number_gen w : number w -> G [NT (s2b "number")] w.
Proof.
  intros (m & i & f & e & -> & Hm & Hi & Hf & He). use_alt 17 0. rewrite app_assoc.
  apply gen_cons; [|apply gen_cons].
  - use_alt 18 0. apply gen_cons.
    + destruct Hm as [->| ->]; [use_alt 20 0; constructor|use_alt 20 1; apply gen_ch; constructor].
    + destruct Hi as [->|(d & ds & -> & H1 & H2 & H3)].
      * use_alt 19 0. apply gen_ch. constructor.
      * use_alt 19 1. apply (gen_cons _ _ [d]); [apply one_nine_gen; assumption|apply opt_digits_gen, H3].
  - destruct Hf as [->|(ds & -> & H)].
    + use_alt 21 0. constructor.
    + use_alt 21 1. apply gen_ch. apply digits_gen, H.
  - destruct He as [->|(c & s & ds & -> & [->| ->] & Hs & Hd)].
    + use_alt 22 0. constructor.
    + use_alt 22 2. apply gen_ch. apply gen_cons; [apply sign_gen, Hs|apply digits_gen, Hd].
    + use_alt 22 1. apply gen_ch. apply gen_cons; [apply sign_gen, Hs|apply digits_gen, Hd].
Qed.

Scheme value_ind' := Induction for value_text Sort Prop
  with members_ind' := Induction for members_text Sort Prop
  with member_ind' := Induction for member_text Sort Prop
  with elements_ind' := Induction for elements_text Sort Prop.
Combined Scheme json_ind from value_ind', members_ind', member_ind', elements_ind'.

Lemma wvalue_gen w t w' : spaces w -> G [NT (s2b "value")] t -> spaces w' ->
  G [NT (s2b "opt-whitespaced-value")] (w ++ t ++ w').
Proof.
  intros H1 H2 H3. use_alt 7 0. apply gen_cons; [apply spaces_gen, H1|]. apply gen_cons; [exact H2|].
  apply spaces_gen, H3.
Qed.

Lemma gen_json :
  (forall t v, value_text t v -> G [NT (s2b "value")] t) /\
  (forall t l, members_text t l -> exists a b, t = a ++ b /\ G [NT (s2b "key-value")] a /\
     G [NT (s2b "opt-whitespace"); NT (s2b "opt-key-value-list-tail")] b) /\
  (forall t k v, member_text t k v -> G [NT (s2b "key-value")] t) /\
  (forall t l, elements_text t l -> G [NT (s2b "opt-whitespaced-value"); NT (s2b "opt-value-list-tail")] t).
Proof.
  apply (json_ind (fun t v _ => G [NT (s2b "value")] t)
    (fun t l _ => exists a b, t = a ++ b /\ G [NT (s2b "key-value")] a /\
       G [NT (s2b "opt-whitespace"); NT (s2b "opt-key-value-list-tail")] b)
    (fun t k v _ => G [NT (s2b "key-value")] t)
    (fun t l _ => G [NT (s2b "opt-whitespaced-value"); NT (s2b "opt-value-list-tail")] t)).
  - intros w Hw. use_alt 8 0. use_alt 9 0. apply gen_ch. apply gen_cons; [apply spaces_gen, Hw|].
    apply (gen_cons _ _ []); [use_alt 4 0; constructor|]. apply gen_ch. constructor.
  - intros w t l Hw _ (a & b & -> & Ha & Hb). use_alt 8 0. use_alt 9 0. apply gen_ch.
    apply gen_cons; [apply spaces_gen, Hw|]. apply gen_cons; [|apply gen_ch; constructor].
    use_alt 4 1. apply gen_cons; [exact Ha|exact Hb].
  - use_alt 8 1. use_alt 10 0. apply gen_ch. apply (gen_cons _ _ []); [use_alt 2 0; constructor|].
    apply gen_ch. constructor.
  - intros t l _ H. use_alt 8 1. use_alt 10 0. apply gen_ch. apply gen_cons; [use_alt 2 1; exact H|].
    apply gen_ch. constructor.
  - intros s H. use_alt 8 2. apply string_gen, H.
  - intros w H. use_alt 8 3. apply number_gen, H.
  - use_alt 8 4. repeat apply gen_ch. constructor.
  - use_alt 8 5. repeat apply gen_ch. constructor.
  - use_alt 8 6. repeat apply gen_ch. constructor.
  - intros t k v w _ H Hw. exists t, w. split; [reflexivity|]. split; [exact H|].
    rewrite <- (app_nil_r w). apply gen_cons; [apply spaces_gen, Hw|]. use_alt 5 0. constructor.
  - intros t k v w w' rest l _ H Hw Hw' _ (a & b & -> & Ha & Hb). exists t, (w ++ ","%char :: w' ++ a ++ b).
    split; [reflexivity|]. split; [exact H|]. apply gen_cons; [apply spaces_gen, Hw|].
    use_alt 5 1. apply gen_ch. apply gen_cons; [apply spaces_gen, Hw'|]. apply gen_cons; [exact Ha|exact Hb].
  - intros k w w' t v Hk Hw Hw' _ H. use_alt 6 0.
    replace (DQ :: k ++ DQ :: w ++ ":"%char :: w' ++ t) with ((DQ :: k ++ [DQ]) ++ w ++ ":"%char :: w' ++ t)
      by (cbn [app]; rewrite <- app_assoc; reflexivity).
    apply gen_cons; [apply string_gen, Hk|]. apply gen_cons; [apply spaces_gen, Hw|]. apply gen_ch.
    apply gen_cons; [apply spaces_gen, Hw'|exact H].
  - intros w t v w' Hw _ H Hw'. rewrite <- (app_nil_r (w ++ t ++ w')).
    apply gen_cons; [apply wvalue_gen; assumption|]. use_alt 3 0. constructor.
  - intros w t v w' rest l Hw _ H Hw' _ IH.
    replace (w ++ t ++ w' ++ ","%char :: rest) with ((w ++ t ++ w') ++ ","%char :: rest)
      by (rewrite <- !app_assoc; reflexivity).
    apply gen_cons; [apply wvalue_gen; assumption|]. use_alt 3 1. apply gen_ch. exact IH.
Qed.

Lemma json_gen t v : json_text t v -> G [NT (s2b "json")] t.
Proof.
  intros [w t' v' w' Hw H Hw']. use_alt 0 0. use_alt 1 0. apply wvalue_gen; try assumption.
  eapply (proj1 gen_json), H.
Qed.
