(** * BnfPrint: the String methods of pkg/bnf/ast.go print the notation of
    Spec_Bnf. *)
From Verif Require Import Base Ast Spec_Bnf BnfDet.

(** ** Terminals *)

Lemma replace_flat o w (f : ascii -> bytes) v :
  replace_all o w (flat_map f v) = flat_map (fun c => replace_all o w (f c)) v.
Proof.
  induction v as [|c v IH]; [reflexivity|]. cbn [flat_map]. rewrite <- IH. unfold replace_all.
  rewrite flat_map_app. reflexivity.
Qed.

(** What the first four replacements make of one byte, and all five. *)
Definition esc4 (c : ascii) : bytes :=
  if Ascii.eqb c BSL then [BSL; BSL] else if Ascii.eqb c TAB then [BSL; "t"%char]
  else if Ascii.eqb c LF then [BSL; "n"%char] else if Ascii.eqb c CR then [BSL; "r"%char] else [c].
Definition esc5 (c : ascii) : bytes := if Ascii.eqb c DQ then [BSL; DQ] else esc4 c.

Ltac byte_cases c :=
  destruct c as [[] [] [] [] [] [] [] []]; vm_compute; try reflexivity.

Lemma replace4 v :
  replace_all CR [BSL; "r"%char] (replace_all LF [BSL; "n"%char] (replace_all TAB [BSL; "t"%char]
    (replace_all BSL [BSL; BSL] v))) = flat_map esc4 v.
Proof.
  unfold replace_all at 4. rewrite !replace_flat. apply flat_map_ext. intros c. byte_cases c.
Qed.
Lemma replace5 v : replace_all DQ [BSL; DQ] (flat_map esc4 v) = flat_map esc5 v.
Proof. rewrite replace_flat. apply flat_map_ext. intros c. byte_cases c. Qed.

Lemma contains_In s c : contains_byte s c = true <-> In c s.
Proof.
  unfold contains_byte. rewrite existsb_exists. split.
  - intros (x & H & E). apply Ascii.eqb_eq in E. subst x. exact H.
  - intros H. exists c. split; [exact H|apply Ascii.eqb_refl].
Qed.

Lemma esc4_no_dq c : In DQ (esc4 c) -> c = DQ.
Proof. byte_cases c; intuition discriminate. Qed.
Lemma esc4_no_sq c : In SQ (esc4 c) -> c = SQ.
Proof. byte_cases c; intuition discriminate. Qed.
Lemma esc4_sq : In SQ (esc4 SQ).
Proof. vm_compute. auto. Qed.

Lemma terminal_string_eq v :
  (In DQ v /\ ~ In SQ v /\ terminal_string v = SQ :: flat_map esc4 v ++ [SQ]) \/
  terminal_string v = DQ :: flat_map esc5 v ++ [DQ].
Proof.
  unfold terminal_string. rewrite replace4, replace5.
  destruct (contains_byte (flat_map esc4 v) DQ) eqn:D; cbn [andb]; [|right; reflexivity].
  destruct (contains_byte (flat_map esc4 v) SQ) eqn:Q; cbn [negb]; [right; reflexivity|left].
  apply contains_In in D. apply in_flat_map in D. destruct D as (c & Hc & D).
  apply esc4_no_dq in D. subst c. split; [exact Hc|]. split; [|reflexivity].
  intros H. assert (In SQ (flat_map esc4 v)) by (apply in_flat_map; exists SQ; split; [exact H|apply esc4_sq]).
  apply contains_In in H0. congruence.
Qed.

(** Scanning what was printed. *)
Lemma scan4 c v r rest : c <> SQ -> scan SQ r = Some (v, rest) -> scan SQ (esc4 c ++ r) = Some (c :: v, rest).
Proof.
  intros N H. unfold esc4.
  destruct (Ascii.eqb_spec c BSL) as [->|B]; [cbn; rewrite H; reflexivity|].
  destruct (Ascii.eqb_spec c TAB) as [->|]; [cbn; rewrite H; reflexivity|].
  destruct (Ascii.eqb_spec c LF) as [->|]; [cbn; rewrite H; reflexivity|].
  destruct (Ascii.eqb_spec c CR) as [->|]; [cbn; rewrite H; reflexivity|].
  cbn [app scan]. rewrite (proj2 (Ascii.eqb_neq c SQ) N), (proj2 (Ascii.eqb_neq c BSL) B), H. reflexivity.
Qed.
Lemma scan5 c v r rest : scan DQ r = Some (v, rest) -> scan DQ (esc5 c ++ r) = Some (c :: v, rest).
Proof.
  intros H. unfold esc5, esc4.
  destruct (Ascii.eqb_spec c DQ) as [->|N]; [cbn; rewrite H; reflexivity|].
  destruct (Ascii.eqb_spec c BSL) as [->|B]; [cbn; rewrite H; reflexivity|].
  destruct (Ascii.eqb_spec c TAB) as [->|]; [cbn; rewrite H; reflexivity|].
  destruct (Ascii.eqb_spec c LF) as [->|]; [cbn; rewrite H; reflexivity|].
  destruct (Ascii.eqb_spec c CR) as [->|]; [cbn; rewrite H; reflexivity|].
  cbn [app scan]. rewrite (proj2 (Ascii.eqb_neq c DQ) N), (proj2 (Ascii.eqb_neq c BSL) B), H. reflexivity.
Qed.

Lemma terminal_scanned v rest :
  exists q body, quote q /\ terminal_string v ++ rest = q :: body /\ scan q body = Some (v, rest).
Proof.
  destruct (terminal_string_eq v) as [(_ & N & ->)| ->].
  - exists SQ, (flat_map esc4 v ++ SQ :: rest). split; [right; reflexivity|].
    split; [cbn; rewrite <- app_assoc; reflexivity|].
    induction v as [|c v IH]; [reflexivity|]. cbn [flat_map]. rewrite <- app_assoc.
    apply scan4; [|apply IH; intros H; apply N; right; exact H]. intros ->. apply N. left. reflexivity.
  - exists DQ, (flat_map esc5 v ++ DQ :: rest). split; [left; reflexivity|].
    split; [cbn; rewrite <- app_assoc; reflexivity|].
    induction v as [|c v IH]; [reflexivity|]. cbn [flat_map]. rewrite <- app_assoc.
    apply scan5, IH.
Qed.

Lemma esc5_control c d : In d (esc5 c) -> d <> TAB /\ d <> LF /\ d <> CR.
Proof. byte_cases c; intuition (subst; discriminate). Qed.
Lemma esc4_control c d : In d (esc4 c) -> d <> TAB /\ d <> LF /\ d <> CR.
Proof. byte_cases c; intuition (subst; discriminate). Qed.

Lemma terminal_control v d : In d (terminal_string v) -> d <> TAB /\ d <> LF /\ d <> CR.
Proof.
  intros H. destruct (terminal_string_eq v) as [(_ & _ & E)|E]; rewrite E in H;
    (destruct H as [<-|H]; [repeat split; discriminate|]);
    apply in_app_or in H; (destruct H as [H|[<-|[]]]; [|repeat split; discriminate]);
    apply in_flat_map in H; destruct H as (c & _ & H).
  - eapply esc4_control, H.
  - eapply esc5_control, H.
Qed.

(** In the notation of Spec_Bnf. *)
Lemma quoted4 c raw v : writable_byte c = true -> c <> SQ -> quoted SQ raw v -> quoted SQ (esc4 c ++ raw) (c :: v).
Proof.
  intros W N H. destruct c as [[] [] [] [] [] [] [] []]; vm_compute in W; try discriminate W;
    try (exfalso; apply N; reflexivity);
    first [ apply qu_plain; [reflexivity|discriminate|discriminate|exact H]
          | apply qu_escape; [constructor|exact H] ].
Qed.
Lemma quoted5 c raw v : writable_byte c = true -> quoted DQ raw v -> quoted DQ (esc5 c ++ raw) (c :: v).
Proof.
  intros W H. destruct c as [[] [] [] [] [] [] [] []]; vm_compute in W; try discriminate W;
    first [ apply qu_plain; [reflexivity|discriminate|discriminate|exact H]
          | apply qu_escape; [constructor|exact H] ].
Qed.

Lemma terminal_printed v : v <> [] -> all writable_byte v -> symbol_text (terminal_string v) (STerminal v).
Proof.
  intros Hv W. destruct (terminal_string_eq v) as [(_ & N & ->)| ->]; apply sy_terminal; auto.
  - right. reflexivity.
  - clear Hv. induction W as [|c v Wc _ IH]; [constructor|]. cbn [flat_map].
    apply quoted4; [exact Wc| |apply IH; intros H; apply N; right; exact H]. intros ->. apply N. left. reflexivity.
  - left. reflexivity.
  - clear Hv. induction W as [|c v Wc _ IH]; [constructor|]. cbn [flat_map]. apply quoted5; assumption.
Qed.

(** ** Grammars *)

Lemma symbol_printed s : printable_symbol s -> symbol_text (symbol_string s) s.
Proof.
  destruct s as [n|v| |x]; cbn.
  - apply sy_nonterminal.
  - intros (H & W). apply terminal_printed; assumption.
  - intros _. apply (sy_nothing DQ). left. reflexivity.
  - intros [].
Qed.

Lemma blanks1 : blanks [" "%char].
Proof. repeat constructor. Qed.
Lemma blanks0 : blanks [].
Proof. constructor. Qed.

Lemma sequence_printed s ss w : Forall printable_symbol (s :: ss) -> blanks w ->
  sequence_text (symbol_string s ++ symbols_string ss ++ w) (s :: ss).
Proof.
  revert s. induction ss as [|s' ss IH]; intros s P W; inversion P as [|x l P1 P2]; subst.
  - apply sq_last; [apply symbol_printed, P1|exact W].
  - cbn [symbols_string flat_map]. rewrite <- !app_assoc.
    apply (sq_more _ (s2b " ")); [apply symbol_printed, P1|apply blanks1|]. apply IH; assumption.
Qed.

Lemma alternatives_printed s0 rest : Forall printable_sequence (s0 :: rest) ->
  exists t, sequences_string (s0 :: rest) = s2b " " ++ t /\ alternatives_text t (s0 :: rest).
Proof.
  revert s0. induction rest as [|s1 rest IH]; intros s0 P; inversion P as [|x l (N & P1) P2]; subst;
    (destruct s0 as [|s ss]; [congruence|]).
  - exists (symbol_string s ++ symbols_string ss). split.
    + unfold sequences_string. cbn [flat_map]. rewrite app_nil_r. reflexivity.
    + apply al_last. rewrite <- (app_nil_r (symbols_string ss)). apply sequence_printed; [exact P1|constructor].
  - destruct (IH s1 P2) as (t & E & A).
    exists ((symbol_string s ++ symbols_string ss ++ s2b " ") ++ "|"%char :: s2b " " ++ t). split.
    + unfold sequences_string in *. cbn [flat_map]. rewrite <- app_assoc, E.
      cbn [symbols_string flat_map]. rewrite <- !app_assoc. reflexivity.
    + apply al_more; [apply sequence_printed; [exact P1|apply blanks1]|apply blanks1|exact A].
Qed.

Lemma rule_printed r : printable_rule r -> rule_text (rule_string r) r.
Proof.
  destruct r as [n alts]. intros (Hn & Ne & P). cbn [r_head r_tail] in *.
  destruct alts as [|s0 rest]; [congruence|].
  destruct (alternatives_printed s0 rest P) as (t & E & A).
  unfold rule_string. cbn [r_head r_tail]. rewrite E.
  pose proof (rl n (s2b " ") (s2b " ") t _ Hn blanks1 blanks1 A) as R.
  unfold nonterminal_string. cbn [app]. rewrite <- app_assoc. exact R.
Qed.

Lemma lines_printed g : Forall printable_rule g -> lines_text (flat_map (fun r => LF :: rule_string r) g) g.
Proof.
  induction 1 as [|r g P _ IH]; [constructor|]. cbn [flat_map].
  apply (li_rule [LF] [] (rule_string r)); [constructor|constructor|apply rule_printed, P|exact IH].
Qed.

Theorem grammar_printed g : printable_grammar g -> bnf_text (grammar_string g) g.
Proof.
  intros (N & P). destruct g as [|r g]; [congruence|]. inversion P; subst.
  apply (bt []); [constructor|apply rule_printed; assumption|apply lines_printed; assumption].
Qed.

(** Whatever can be read can be printed. *)
Lemma escape_writable e c : escape e c -> writable_byte c = true.
Proof. intros []; reflexivity. Qed.
Lemma quoted_writable q raw v : quoted q raw v -> all writable_byte v.
Proof.
  induction 1; constructor; auto.
  - unfold writable_byte. rewrite H. reflexivity.
  - eapply escape_writable; eassumption.
Qed.
Lemma symbol_text_printable t s : symbol_text t s -> printable_symbol s.
Proof. intros []; cbn; auto. split; [assumption|]. eapply quoted_writable; eassumption. Qed.
Lemma sequence_text_printable t s : sequence_text t s -> printable_sequence s.
Proof.
  induction 1 as [t w s H|t w s ts ss H _ _ (_ & IH)]; (split; [discriminate|]); constructor; auto;
    eapply symbol_text_printable; eassumption.
Qed.
Lemma alternatives_text_printable t s : alternatives_text t s -> s <> [] /\ Forall printable_sequence s.
Proof.
  induction 1 as [t s H|t s w ts ss H _ _ (_ & IH)]; (split; [discriminate|]); constructor; auto;
    eapply sequence_text_printable; eassumption.
Qed.
Lemma rule_text_printable t r : rule_text t r -> printable_rule r.
Proof.
  intros []. split; [assumption|]. eapply alternatives_text_printable; eassumption.
Qed.
Lemma lines_text_printable t g : lines_text t g -> Forall printable_rule g.
Proof. induction 1; auto. constructor; [eapply rule_text_printable; eassumption|assumption]. Qed.
Theorem bnf_text_printable t g : bnf_text t g -> printable_grammar g.
Proof.
  intros []. split; [discriminate|]. constructor; [eapply rule_text_printable; eassumption|].
  eapply lines_text_printable; eassumption.
Qed.
