(** * BnfWords: every text in BNF notation is a word of SelfGrammar. *)
From Verif Require Import Base Ast SelfGrammar Spec_Grammar Spec_Bnf BnfDet TGParse.

Notation SG := SelfGrammar.
Notation G := (gen SelfGrammar).

(** Alternative [j] of rule [i]. *)
Lemma pick (i j : nat) r s w : nth_error SG i = Some r -> nth_error (r_tail r) j = Some s ->
  G (seq_form s) w -> G [NT (r_head r)] w.
Proof.
  intros Hi Hj H. rewrite <- (app_nil_r w). eapply gen_nt; [|exact H|constructor].
  exists r. split; [eapply nth_error_In, Hi|]. split; [reflexivity|]. eapply nth_error_In, Hj.
Qed.

(** [rule n i j]: use alternative [j] of rule [i] for [NT n]. *)
Ltac use_alt i j :=
  let r := eval vm_compute in (nth i SG (mkRule [] [])) in
  let s := eval cbn in (nth j (r_tail r) []) in
  eapply (pick i j r s); [reflexivity|reflexivity|cbn [seq_form flat_map sym_form map app s2b]].
(** Form = first symbol and the rest, text = [w1 ++ w2]. *)
Lemma gen_cons x u w1 w2 : G [x] w1 -> G u w2 -> G (x :: u) (w1 ++ w2).
Proof. apply (gen_app SG [x]). Qed.
Lemma gen_c c u w : G u w -> G (Ch c :: u) (c :: w).
Proof. apply gen_ch. Qed.

(** Rules whose alternatives are single characters. *)
Definition one_char (r : rule) (c : ascii) : bool :=
  existsb (fun s => match s with [STerminal [d]] => Ascii.eqb d c | _ => false end) (r_tail r).
Lemma one_char_gen i r c : nth_error SG i = Some r -> one_char r c = true -> G [NT (r_head r)] [c].
Proof.
  intros Hi H. unfold one_char in H. apply existsb_exists in H. destruct H as (s & Hs & H).
  destruct s as [|[|[|d [|]]| |] [|]]; try discriminate. apply Ascii.eqb_eq in H. subst d.
  apply In_nth_error in Hs. destruct Hs as (j & Hj).
  eapply pick; [exact Hi|exact Hj|]. cbn. apply gen_ch. constructor.
Qed.

Lemma letter_gen c : is_letter c = true -> G [NT (s2b "letter")] [c].
Proof.
  intros H. apply (one_char_gen 21 self_rule_21); [reflexivity|].
  destruct c as [[] [] [] [] [] [] [] []]; vm_compute in H; try discriminate H; vm_compute; reflexivity.
Qed.
Lemma digit_gen c : is_digit c = true -> G [NT (s2b "digit")] [c].
Proof.
  intros H. apply (one_char_gen 22 self_rule_22); [reflexivity|].
  destruct c as [[] [] [] [] [] [] [] []]; vm_compute in H; try discriminate H; vm_compute; reflexivity.
Qed.
Lemma escaped_gen e c : escape e c -> G [NT (s2b "escaped-char")] [e].
Proof.
  intros H. apply (one_char_gen 17 self_rule_17); [reflexivity|]. destruct H; vm_compute; reflexivity.
Qed.

(** Printable characters other than quotes and backslash. *)
Definition is_symbol (c : ascii) : bool := one_char self_rule_23 c.
Lemma symbol_gen c : is_symbol c = true -> G [NT (s2b "symbol")] [c].
Proof. intros H. apply (one_char_gen 23 self_rule_23); [reflexivity|exact H]. Qed.
Lemma printable_cases c : is_printable c = true ->
  is_letter c = true \/ is_digit c = true \/ is_symbol c = true \/ c = DQ \/ c = SQ \/ c = BSL.
Proof.
  intros H. destruct c as [[] [] [] [] [] [] [] []]; vm_compute in H; try discriminate H;
    first [left; vm_compute; reflexivity | right; left; vm_compute; reflexivity
          | right; right; left; vm_compute; reflexivity | auto 10 ].
Qed.
Lemma character_gen c : is_printable c = true -> c <> DQ -> c <> SQ -> c <> BSL ->
  G [NT (s2b "character")] [c].
Proof.
  intros H N1 N2 N3. destruct (printable_cases c H) as [L|[L|[L|[L|[L|L]]]]]; try contradiction.
  - use_alt 15 0. apply letter_gen, L.
  - use_alt 15 1. apply digit_gen, L.
  - use_alt 15 2. apply symbol_gen, L.
Qed.
Lemma escape_gen e c : escape e c -> G [NT (s2b "character")] [BSL; e].
Proof.
  intros H. use_alt 15 3. use_alt 16 0. apply gen_ch. apply (gen_cons _ _ [e]). 
  - eapply escaped_gen, H.
  - constructor.
Qed.

Lemma text1_gen raw v : quoted DQ raw v -> G [NT (s2b "text1")] raw.
Proof.
  induction 1 as [|c raw v P N B _ IH|e c raw v E _ IH].
  - use_alt 11 0. constructor.
  - use_alt 11 1. apply (gen_cons _ _ [c]); [|exact IH].
    destruct (Ascii.eqb_spec c SQ) as [->|NS].
    + use_alt 13 0. apply gen_ch. constructor.
    + use_alt 13 1. apply character_gen; assumption.
  - use_alt 11 1. apply (gen_cons _ _ [BSL; e]); [|exact IH].
    use_alt 13 1. eapply escape_gen, E.
Qed.
Lemma text2_gen raw v : quoted SQ raw v -> G [NT (s2b "text2")] raw.
Proof.
  induction 1 as [|c raw v P N B _ IH|e c raw v E _ IH].
  - use_alt 12 0. constructor.
  - use_alt 12 1. apply (gen_cons _ _ [c]); [|exact IH].
    destruct (Ascii.eqb_spec c DQ) as [->|NS].
    + use_alt 14 0. apply gen_ch. constructor.
    + use_alt 14 1. apply character_gen; assumption.
  - use_alt 12 1. apply (gen_cons _ _ [BSL; e]); [|exact IH].
    use_alt 14 1. eapply escape_gen, E.
Qed.

Lemma name_tail_gen s : all is_name_char s -> G [NT (s2b "rule-name-tail")] s.
Proof.
  induction 1 as [|c s H _ IH].
  - use_alt 19 0. constructor.
  - use_alt 19 1. apply (gen_cons _ _ [c]); [|exact IH]. unfold is_name_char in H.
    apply orb_true_iff in H. destruct H as [H|H]; [apply orb_true_iff in H; destruct H as [H|H]|].
    + use_alt 20 0. apply letter_gen, H.
    + use_alt 20 1. apply digit_gen, H.
    + apply Ascii.eqb_eq in H. subst c. use_alt 20 2. apply gen_ch. constructor.
Qed.
Lemma name_gen n : name n -> G [NT (s2b "rule-name")] n.
Proof.
  intros (c & s & -> & H & A). use_alt 18 0. apply (gen_cons _ _ [c]); [apply letter_gen, H|].
  apply name_tail_gen, A.
Qed.
Lemma blanks_gen w : blanks w -> G [NT (s2b "opt-whitespace")] w.
Proof.
  induction 1 as [|c w H _ IH].
  - use_alt 24 1. constructor.
  - apply Ascii.eqb_eq in H. subst c. use_alt 24 0. apply gen_ch, IH.
Qed.
Lemma eol_gen e : eol e -> G [NT (s2b "EOL")] e.
Proof. intros []; [use_alt 25 0|use_alt 25 1]; repeat apply gen_ch; constructor. Qed.

Lemma term_gen t s : symbol_text t s -> G [NT (s2b "term")] t.
Proof.
  intros H. destruct (symbol_text_cases _ _ H) as [(n & Hn & -> & _)|(q & raw & v & Q & Hq & -> & _)].
  - use_alt 9 1. apply gen_ch. apply gen_cons; [apply name_gen, Hn|]. apply gen_ch. constructor.
  - use_alt 9 0. destruct Q as [-> | ->]; [use_alt 10 0|use_alt 10 1]; apply gen_ch;
      (apply gen_cons; [|apply gen_ch; constructor]).
    + eapply text1_gen, Hq.
    + eapply text2_gen, Hq.
Qed.

Lemma sequence_gen t s : sequence_text t s -> G [NT (s2b "list")] t /\ G [NT (s2b "list-tail")] t.
Proof.
  assert (T0 : G [NT (s2b "list-tail")] []) by (use_alt 8 0; constructor).
  induction 1 as [t w s Ht Hw|t w s ts ss Ht Hw _ (_ & IH)].
  - rewrite <- (app_nil_r w).
    split; [use_alt 7 0|use_alt 8 1]; (apply gen_cons; [eapply term_gen, Ht|]);
      (apply gen_cons; [apply blanks_gen, Hw|exact T0]).
  - split; [use_alt 7 0|use_alt 8 1]; (apply gen_cons; [eapply term_gen, Ht|]);
      (apply gen_cons; [apply blanks_gen, Hw|exact IH]).
Qed.

Lemma alternatives_gen t s : alternatives_text t s ->
  G [NT (s2b "expression")] t /\
  forall w, blanks w -> G [NT (s2b "expression-tail")] ("|"%char :: w ++ t).
Proof.
  assert (T0 : G [NT (s2b "expression-tail")] []) by (use_alt 6 0; constructor).
  induction 1 as [t s Hs|t s w ts ss Hs Hw _ (_ & IH)].
  - pose proof (proj1 (sequence_gen _ _ Hs)) as L. rewrite <- (app_nil_r t). split.
    + use_alt 5 0. apply gen_cons; [exact L|exact T0].
    + intros w Hw. use_alt 6 1. apply gen_ch. apply gen_cons; [apply blanks_gen, Hw|].
      apply gen_cons; [exact L|exact T0].
  - pose proof (proj1 (sequence_gen _ _ Hs)) as L. specialize (IH w Hw). split.
    + use_alt 5 0. apply gen_cons; [exact L|exact IH].
    + intros w' Hw'. use_alt 6 1. apply gen_ch. apply gen_cons; [apply blanks_gen, Hw'|].
      apply gen_cons; [exact L|exact IH].
Qed.

Lemma rule_gen t r : rule_text t r -> G [NT (s2b "content")] t.
Proof.
  intros [n w1 w2 t0 alts Hn H1 H2 Ha]. use_alt 4 0. apply gen_ch.
  apply gen_cons; [apply name_gen, Hn|]. apply gen_ch.
  apply gen_cons; [apply blanks_gen, H1|]. cbn [s2b app]. do 3 apply gen_ch.
  apply gen_cons; [apply blanks_gen, H2|]. exact (proj1 (alternatives_gen _ _ Ha)).
Qed.

Lemma lines_gen t g : lines_text t g -> G [NT (s2b "more-lines")] t.
Proof.
  induction 1 as [|e w rest g He Hw _ IH|e w t r rest g He Hw Hr _ IH].
  - use_alt 1 0. constructor.
  - use_alt 1 1. apply gen_cons; [apply eol_gen, He|]. apply gen_cons; [|exact IH].
    use_alt 2 0. rewrite <- (app_nil_r w). apply gen_cons; [apply blanks_gen, Hw|]. use_alt 3 1. constructor.
  - use_alt 1 1. apply gen_cons; [apply eol_gen, He|]. rewrite app_assoc. apply gen_cons; [|exact IH].
    use_alt 2 0. apply gen_cons; [apply blanks_gen, Hw|]. use_alt 3 0. eapply rule_gen, Hr.
Qed.

Theorem bnf_word t g : bnf_text t g -> word SG t.
Proof.
  intros [w t0 r rest g0 Hw Hr H]. split; [discriminate|]. apply gen_yields.
  change (start SG) with (s2b "syntax"). use_alt 0 0.
  apply gen_cons; [apply blanks_gen, Hw|]. apply gen_cons; [eapply rule_gen, Hr|]. eapply lines_gen, H.
Qed.
