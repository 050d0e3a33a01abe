(** * Props_Outcome: property C67, every outcome of FromGrammar. *)
From Verif Require Import Base ByteSet Ast Cst Parser TableGen Spec_Parse Spec_Tree Spec_Grammar Spec_Table Spec_Override
  Spec_Outcome GrammarProofs ParseApi ParseApi2 TGMain TGCells TGClosed TGParse TGCheck Props_Parser Props_TableGen
  TGOverride TGOutcome Props_Override.

(** Any grammar whose terminals contain no zero byte: names undefined, symbols
    out of place, empty terminals, empty alternatives, no rules at all, unknown
    symbols, names defined twice. *)
Theorem C67_outcome :
  forall order fuel g g', last_definitions g g' -> terminals_nulfree g -> 256 * length g + 1 <= fuel ->
    outcome_of g' (follow_last g g') (FromGrammar_order order fuel g).
Proof. intros order fuel g g' S T Hf. apply FromGrammar_outcome; assumption. Qed.
Print Assumptions C67_outcome.

(** With every name defined once, in terms of the grammar itself. *)
Theorem C67_outcome_distinct :
  forall order fuel g, NoDup (heads g) -> terminals_nulfree g -> 256 * length g + 1 <= fuel ->
    outcome_of g (follow_code g) (FromGrammar_order order fuel g).
Proof.
  intros order fuel g N T Hf.
  assert (E : forall n x, defined g n -> (follow_last g g n x <-> follow_code g n x)).
  { intros n x Hd. apply follow_last_self; assumption. }
  assert (E' : forall n x, defined g n -> (follow_code g n x <-> follow_last g g n x)).
  { intros n x Hd. symmetry. apply E, Hd. }
  destruct (C67_outcome order fuel g g (last_self g N) T Hf) as [f Hff|f N1 Hff|f N1 N2 Hff|tbl names N1 N2 N3 TS].
  - apply oc_first, Hff.
  - apply oc_follow; assumption.
  - apply oc_cell; [assumption..|]. eapply cell_fault_wrt; [exact E|exact Hff].
  - apply oc_table; [assumption..| |].
    + intros f Hff. apply (N3 f). eapply cell_fault_wrt; [exact E'|exact Hff].
    + destruct TS as (TK & TC). split; [exact TK|]. intros i r b Hr.
      destruct (TC i r b Hr) as (rw & Hrw & Hc). exists rw. split; [exact Hrw|].
      assert (Hd : defined g (r_head r)) by (unfold defined, heads; apply in_map; eapply nth_error_In, Hr).
      unfold cell_spec in *. destruct (map_get Ascii.eqb b rw) as [ops|].
      * destruct Hc as (ch & Hs & Ho & Hk). exists ch. split; [exact Hs|]. split; [exact Ho|].
        intros Hch. destruct (Hk Hch) as (Hx & Hy). split; [exact Hx|]. apply E; assumption.
      * destruct Hc as (Hs & Hk). split; [exact Hs|]. intros (Hx & Hy). apply Hk. split; [exact Hx|].
        apply E; assumption.
Qed.
Print Assumptions C67_outcome_distinct.

(** A table is returned exactly when there is no fault. *)
Theorem C67_accepted :
  forall order fuel g g', last_definitions g g' -> terminals_nulfree g -> 256 * length g + 1 <= fuel ->
    ((exists tbl names, FromGrammar_order order fuel g = Ok (tbl, names)) <->
     forall f, ~ first_fault g' f /\ ~ follow_fault g' f /\ ~ cell_fault g' (follow_last g g') f).
Proof.
  intros order fuel g g' S T Hf.
  assert (X : forall f tbl names, @fault_result (table * list (Z * bytes)) f = Ok (tbl, names) -> False)
    by (intros [e|p] tbl names; discriminate).
  destruct (C67_outcome order fuel g g' S T Hf) as [f Hff|f N1 Hff|f N1 N2 Hff|tbl names N1 N2 N3 TS]; split.
  - intros (tbl & names & H). destruct (X _ _ _ H).
  - intros H. destruct (proj1 (H f) Hff).
  - intros (tbl & names & H). destruct (X _ _ _ H).
  - intros H. destruct (proj1 (proj2 (H f)) Hff).
  - intros (tbl & names & H). destruct (X _ _ _ H).
  - intros H. destruct (proj2 (proj2 (H f)) Hff).
  - intros _ f. repeat split; auto.
  - intros _. exists tbl, names. reflexivity.
Qed.
Print Assumptions C67_accepted.

(** Which name an error of the "no rules defined" kind carries: one that occurs
    in the grammar and has no rule. *)
Theorem C67_undefined_name :
  forall order fuel g m, terminals_nulfree g -> 256 * length g + 1 <= fuel ->
    FromGrammar_order order fuel g = Err (ENoRulesDefined m) ->
    ~ defined g m /\ exists n s, alternative g n s /\ In (SNonTerminal m) s.
Proof.
  intros order fuel g m T Hf E. destruct (C66_set_aside g) as (g' & S).
  assert (Y : forall n s, alternative g' n s -> In (SNonTerminal m) s -> ~ defined g' m ->
    ~ defined g m /\ exists n s, alternative g n s /\ In (SNonTerminal m) s).
  { intros n s Ha Hin Nd. split; [rewrite (last_defined g g' n s m S Ha Hin); exact Nd|].
    destruct (alt_from g g' S _ _ Ha) as (k & Hk). exists k, s. split; assumption. }
  pose proof (C67_outcome order fuel g g' S T Hf) as O. rewrite E in O.
  inversion O as [f Hff Ef|f N1 Hff Ef|f N1 N2 Hff Ef|]; subst; destruct f as [e|p]; try discriminate;
    injection Ef as ->; inversion Hff; subst.
  - match goal with H : leads _ _ _ _ |- _ => destruct H as ((k & Ha) & _) end.
    eapply Y; [exact Ha|apply in_or_app; right; left; reflexivity|assumption].
  - match goal with H : neighbours _ _ _ |- _ => destruct H as (_ & k & a & b & Ha) end.
    eapply Y; [exact Ha|apply in_or_app; right; right; left; reflexivity|assumption].
  - match goal with H : selectable _ _ |- _ => destruct H as (k & a & b & c & Ha & _) end.
    eapply Y; [exact Ha|apply in_or_app; right; left; reflexivity|assumption].
Qed.
Print Assumptions C67_undefined_name.

(** Each kind of fault, with what FromGrammar returns. *)
Definition faulty : list (grammar * option fault) :=
  [ (* FIRST *)
    ([ru "S" [[nt "X"]]], Some (Refused (ENoRulesDefined (s2b "X"))));
    ([ru "S" [[nt "E"; nt "X"]]; ru "E" [[SNothing]]], Some (Refused (ENoRulesDefined (s2b "X"))));
    ([ru "S" [[tm ""]]], Some (Panicked PanicIndex));
    ([ru "S" [[SNothing; tm "a"]]], Some (Refused ENothingNotSingle));
    ([ru "S" [[nt "E"; SNothing]]; ru "E" [[SNothing]]], Some (Refused ENothingNotSingle));
    ([ru "S" [[SUnknown (s2b "?")]]], Some (Panicked PanicUnknownSymbol));
    (* FOLLOW *)
    ([], Some (Panicked PanicIndex));
    ([ru "S" [[tm "a"]; []]], Some (Refused EEmptySequence));
    ([ru "S" [[tm "a"; nt "A"; nt "X"]]; ru "A" [[tm "b"]]], Some (Refused (ENoRulesDefined (s2b "X"))));
    ([ru "S" [[nt "A"; tm ""]]; ru "A" [[tm "b"]]], Some (Refused EEmptyTerminal));
    ([ru "S" [[nt "A"; SUnknown []]]; ru "A" [[tm "b"]]], Some (Refused EUnknownSymbol));
    (* cells *)
    ([ru "S" [[nt "A"; tm "a"]]; ru "A" [[tm "a"]; [SNothing]]], Some (Refused EConflict));
    ([ru "S" [[tm "a"; nt "X"]]], Some (Refused (ENoRulesDefined (s2b "X"))));
    ([ru "S" [[tm "a"; SNothing]]], Some (Panicked PanicNothingInSequence));
    ([ru "S" [[tm "a"; SUnknown []]]], Some (Panicked PanicUnknownSymbol));
    (* an earlier kind of fault is reported before a later one *)
    ([ru "S" [[tm "a"; nt "X"]; []; [nt "Y"]]], Some (Refused (ENoRulesDefined (s2b "Y"))));
    ([ru "S" [[tm "a"; nt "X"]; []]], Some (Refused EEmptySequence));
    (* faults out of reach: no complaint *)
    ([ru "S" [[tm "a"; tm ""]]], None);
    ([ru "S" [[tm "a"]; [nt "L"; tm "b"; nt "X"; SNothing; SUnknown []]]; ru "L" [[nt "L"; tm "c"]]], None) ].
Definition reported (x : grammar * option fault) : Prop :=
  match snd x with
  | Some f => FromGrammar (256 * length (fst x) + 1) (fst x) = fault_result f
  | None => exists tbl names, FromGrammar (256 * length (fst x) + 1) (fst x) = Ok (tbl, names)
  end.
Example C67_case : Forall reported faulty.
Proof. repeat constructor; vm_compute; try reflexivity. all: eexists; eexists; reflexivity. Qed.

(** The hypotheses of the theorems, for a grammar with a repeated name, an
    undefined one and an empty alternative. *)
Definition messy : grammar := [ru "S" [[tm "a"; nt "X"]; []]; ru "S" [[tm "b"]]].
Definition messy' : grammar := [ru "S0" [[tm "a"; nt "X"]; []]; ru "S" [[tm "b"]]].
Example C67_messy :
  last_definitions messy messy' /\ terminals_nulfree messy /\
  (forall f, ~ first_fault messy' f) /\ follow_fault messy' (Refused EEmptySequence) /\
  FromGrammar (256 * length messy + 1) messy = Err EEmptySequence.
Proof.
  assert (S : last_definitions messy messy').
  { split.
    - unfold messy, messy'.
      change (ru "S0" [[tm "a"; nt "X"]; []]) with (mkRule (s2b "S0") (r_tail (ru "S" [[tm "a"; nt "X"]; []]))).
      apply sa_earlier; [left; reflexivity| |].
      + intros [D|(m & s & (r & Hr & _ & Hs) & Hx)].
        * cbn in D. repeat (destruct D as [D|D]; [discriminate|]). exact D.
        * cbn in Hr. repeat (destruct Hr as [<-|Hr]; [cbn in Hs; repeat (destruct Hs as [<-|Hs];
            [cbn in Hx; repeat (destruct Hx as [Hx|Hx]; [discriminate|]); exact Hx|]); exact Hs|]); exact Hr.
      + apply sa_last; [intros []|]. constructor.
    - cbn. repeat constructor; cbn; intros H; repeat (destruct H as [H|H]; [discriminate|]); exact H. }
  assert (T : terminals_nulfree messy).
  { intros n s t (r & Hr & _ & Hs) Ht. cbn in Hr.
    repeat (destruct Hr as [<-|Hr]; [cbn in Hs; repeat (destruct Hs as [<-|Hs];
      [cbn in Ht; repeat (destruct Ht as [Ht|Ht]; [injection Ht as <-; cbn; intros X;
         repeat (destruct X as [X|X]; [discriminate|]); exact X|]);
       try discriminate; try (exact (False_ind _ Ht)); try (destruct Ht as [Ht|Ht]; [discriminate|destruct Ht])|]);
      destruct Hs|]). destruct Hr. }
  split; [exact S|]. split; [exact T|].
  assert (E : FromGrammar (256 * length messy + 1) messy = Err EEmptySequence) by (vm_compute; reflexivity).
  assert (FE : follow_fault messy' (Refused EEmptySequence)).
  { apply (fo_empty_sequence _ (s2b "S0")). exists (ru "S0" [[tm "a"; nt "X"]; []]).
    split; [left; reflexivity|]. split; [reflexivity|]. right. left. reflexivity. }
  split; [|split; [exact FE|exact E]].
  pose proof (C67_outcome (fun l => l) (256 * length messy + 1) messy messy' S T (le_n _)) as O.
  unfold FromGrammar in E. rewrite E in O.
  inversion O as [f Hff Ef|f N1 Hff Ef|f N1 N2 Hff Ef|]; subst.
  - destruct f as [e|p]; [|discriminate]. injection Ef as ->. inversion Hff.
  - exact N1.
  - exact N1.
Qed.
