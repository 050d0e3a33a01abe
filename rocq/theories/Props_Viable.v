(** * Props_Viable: property C57, where parsers detect errors. *)
From Verif Require Import Base ByteSet Ast Cst Parser TableGen Spec_Parse Spec_Tree Spec_Grammar Spec_Table Spec_Viable
  GrammarProofs ParseApi ParseApi2 TGMain TGCells TGClosed TGParse TGCheck Props_Parser Props_TableGen TGViable
  Checked SelfGrammar BnfParser JsonParser Props_Convert.

(** Whatever the table: the error depends only on the bytes up to the one it is
    about.  Every text that agrees with the source up to there is refused with
    the same error. *)
Theorem C57_error_local :
  forall tbl m src text fuel e,
    table_public tbl -> has_row0 tbl -> delivers src text -> fails_with fuel tbl (Some m) src e ->
    exists k, refuses tbl text (Some m) k e /\
      forall src' text', delivers src' text' ->
        (forall i, i <= k -> byte_at text' i = byte_at text i) ->
        exists fuel', fails_with fuel' tbl (Some m) src' e.
Proof.
  intros tbl m src text fuel e P R0 Hd Hf.
  destruct (proj1 (C19_error_diagnosis tbl m src text e P R0 Hd)) as (k & R); [exists fuel; exact Hf|].
  exists k. split; [exact R|]. intros src' text' Hd' A.
  apply (C19_error_diagnosis tbl m src' text' e P R0 Hd'). exists k.
  eapply refuses_agree; [|exact R]. intros i Hi. symmetry. apply A, Hi.
Qed.
Print Assumptions C57_error_local.

(** A generated parser stops at the first byte after which no continuation is
    a word: what stands before it can be completed to a word, nothing longer
    can.  The error is about that byte, or about the end of the text. *)
Theorem C57_error_position :
  forall order fuel0 g tbl names m src text fuel e,
    wf_grammar g -> LL1 g ->
    (forall n x, nullable g [NT n] -> (follow_code g n x <-> follow g n x)) ->
    productive g ->
    FromGrammar_order order fuel0 g = Ok (tbl, names) -> delivers src text ->
    fails_with fuel tbl (Some m) src e ->
    exists k, k <= length text /\ about_byte e (byte_at text k) /\
      viable g (firstn k text) /\
      (forall j, k < j <= length text -> ~ viable g (firstn j text)) /\
      ~ word g text.
Proof.
  intros order fuel0 g tbl names m src text fuel e W L FF P E Hd Hf.
  pose proof (FromGrammar_public _ _ _ _ _ E) as Pub.
  pose proof (FromGrammar_row0 _ _ _ _ _ E) as R0.
  destruct (proj1 (C19_error_diagnosis tbl m src text e Pub R0 Hd)) as (k & R); [exists fuel; exact Hf|].
  assert (NR : forall w k e, word g w -> ~ refuses tbl w (Some m) k e).
  { intros w k' e' Hw. eapply word_not_refused; [exact W|exact L|apply follow_closed| |exact E|exact Hw].
    intros n x Hn Hx. apply FF; assumption. }
  exists k. pose proof R as (form & H & S).
  destruct (refused_viable _ _ _ _ _ _ _ _ W (ll1_first _ _ L) P E H) as (Lk & V).
  split; [exact Lk|]. split; [|split; [exact V|split]].
  - pose proof (C24_only_input_errors _ _ _ _ _ E _ _ _ _ _ Hd Hf) as I.
    inversion S; subst; cbn in I |- *; try contradiction; reflexivity.
  - intros j Hj (v & Hw). apply (NR _ k e Hw). eapply refuses_agree; [|exact R].
    intros i Hi. unfold byte_at at 2. rewrite app_nth1 by (rewrite firstn_length; lia).
    change (byte_at text i = byte_at (firstn j text) i). symmetry. apply byte_at_firstn. lia.
  - intros Hw. exact (NR _ k e Hw R).
Qed.
Print Assumptions C57_error_position.

(** That what was matched can be completed holds without the LL(1) conditions
    on empty alternatives, also while the parser is still running. *)
Theorem C57_matched_viable :
  forall order fuel0 g tbl names text k form,
    wf_grammar g -> first_disjoint g -> productive g ->
    FromGrammar_order order fuel0 g = Ok (tbl, names) ->
    rewrites_star tbl text (0, [Row 0]) (k, form) -> k <= length text /\ viable g (firstn k text).
Proof. exact refused_viable. Qed.
Print Assumptions C57_matched_viable.

(** Checking that every rule is productive. *)
Definition ready (done : list bytes) (s : sequence) : bool :=
  forallb (fun x => match x with SNonTerminal n => existsb (bytes_eqb n) done | _ => true end) s.
Fixpoint saturate (g : grammar) (fuel : nat) (done : list bytes) : list bytes :=
  match fuel with
  | O => done
  | S fuel' => saturate g fuel' (map r_head (filter (fun r => existsb (ready done) (r_tail r)) g))
  end.
Definition productiveb (g : grammar) : bool :=
  forallb (fun n => existsb (bytes_eqb n) (saturate g (length g) [])) (heads g).

Lemma productiveb_ok g : productiveb g = true -> productive g.
Proof.
  intros H.
  assert (R : forall done s, (forall n, In n done -> exists w, yields g [NT n] (chars w)) ->
    ready done s = true -> exists w, yields g (seq_form s) (chars w)).
  { intros done s Hd. induction s as [|x s IH]; intros Hr; [exists []; constructor|].
    cbn in Hr. apply andb_true_iff in Hr. destruct Hr as (Hx & Hr). destruct (IH Hr) as (w & Y).
    assert (X : exists v, yields g (sym_form x) (chars v)).
    { destruct x as [n|t| |u]; cbn.
      - apply existsb_exists in Hx. destruct Hx as (n' & Hin & E). apply bytes_eqb_eq in E. subst n'. apply Hd, Hin.
      - exists t. constructor.
      - exists []. constructor.
      - exists []. constructor. }
    destruct X as (v & Yv). exists (v ++ w). unfold chars. rewrite map_app. cbn [seq_form flat_map].
    apply yields_app; assumption. }
  assert (S : forall fuel done, (forall n, In n done -> exists w, yields g [NT n] (chars w)) ->
    forall n, In n (saturate g fuel done) -> exists w, yields g [NT n] (chars w)).
  { induction fuel as [|fuel IH]; intros done Hd n Hn; [apply Hd, Hn|]. cbn in Hn. apply IH in Hn; [exact Hn|].
    clear n Hn. intros n Hn. apply in_map_iff in Hn. destruct Hn as (r & <- & Hr).
    apply filter_In in Hr. destruct Hr as (Hr & Hs). apply existsb_exists in Hs. destruct Hs as (s & Hs & Hready).
    destruct (R done s Hd Hready) as (w & Y). exists w.
    eapply yields_trans; [|exact Y]. apply yields_alt. exists r. auto. }
  intros n Hn. unfold productiveb in H. rewrite forallb_forall in H. specialize (H n Hn).
  apply existsb_exists in H. destruct H as (n' & Hin & E). apply bytes_eqb_eq in E. subst n'.
  eapply S; [|exact Hin]. intros ? [].
Qed.

(** The parsers of the package: BNF texts, and the JSON example. *)
Lemma dec_position order fuel0 g tbl names m src text fuel e :
  decidable_grammar g -> productive g ->
  FromGrammar_order order fuel0 g = Ok (tbl, names) -> delivers src text ->
  fails_with fuel tbl (Some m) src e ->
  exists k, k <= length text /\ about_byte e (byte_at text k) /\
    viable g (firstn k text) /\
    (forall j, k < j <= length text -> ~ viable g (firstn j text)) /\
    ~ word g text.
Proof.
  intros [W L S] P E Hd Hf.
  pose proof (FromGrammar_public _ _ _ _ _ E) as Pub.
  pose proof (FromGrammar_row0 _ _ _ _ _ E) as R0.
  destruct (proj1 (C19_error_diagnosis tbl m src text e Pub R0 Hd)) as (k & R); [exists fuel; exact Hf|].
  assert (NR : forall w k e, word g w -> ~ refuses tbl w (Some m) k e).
  { intros w k' e' Hw. eapply word_not_refused; [exact W|exact L|apply follow_rules_closed, (wf_nonempty _ W)|exact S|exact E|exact Hw]. }
  exists k. pose proof R as (form & H & St).
  destruct (refused_viable _ _ _ _ _ _ _ _ W (ll1_first _ _ L) P E H) as (Lk & V).
  split; [exact Lk|]. split; [|split; [exact V|split]].
  - pose proof (C24_only_input_errors _ _ _ _ _ E _ _ _ _ _ Hd Hf) as I.
    inversion St; subst; cbn in I |- *; try contradiction; reflexivity.
  - intros j Hj (v & Hw). apply (NR _ k e Hw). eapply refuses_agree; [|exact R].
    intros i Hi. unfold byte_at at 2. rewrite app_nth1 by (rewrite firstn_length; lia).
    change (byte_at text i = byte_at (firstn j text) i). symmetry. apply byte_at_firstn. lia.
  - intros Hw. exact (NR _ k e Hw R).
Qed.

Theorem C57_bnf_and_json :
  forall order fuel0 g tbl names m src text fuel e,
    g = SelfGrammar \/ g = JsonGrammar ->
    FromGrammar_order order fuel0 g = Ok (tbl, names) -> delivers src text ->
    fails_with fuel tbl (Some m) src e ->
    exists k, k <= length text /\ about_byte e (byte_at text k) /\
      viable g (firstn k text) /\
      (forall j, k < j <= length text -> ~ viable g (firstn j text)) /\
      ~ word g text.
Proof.
  intros order fuel0 g tbl names m src text fuel e [->| ->].
  - apply dec_position; [exact self_dec|]. apply productiveb_ok. vm_compute. reflexivity.
  - apply dec_position; [exact json_dec|]. apply productiveb_ok. vm_compute. reflexivity.
Qed.
Print Assumptions C57_bnf_and_json.

(** S ::= A "b" S | ""    A ::= "a" | "":  in "abxb" it is the "x". *)
Lemma demo_productive : productive demo.
Proof.
  intros n [<-|[<-|[]]].
  - exists []. rewrite_nt 0 0 1. apply ys_refl.
  - exists []. rewrite_nt 0 1 1. apply ys_refl.
Qed.
Example C57_case :
  wf_grammar demo /\ LL1 demo /\ productive demo /\
  (forall n x, nullable demo [NT n] -> (follow_code demo n x <-> follow demo n x)) /\
  fails_with 100 (fst (gen_of demo)) (Some (snd (gen_of demo))) (SrcString (s2b "abxb"))
    (ENoRulesForByte "x"%char (s2b "S")).
Proof.
  destruct C28_case as (W & L & N & R & _).
  split; [exact W|]. split; [exact L|]. split; [exact demo_productive|]. split.
  - intros n x _. apply C23_textbook; [discriminate|exact N|exact R].
  - vm_compute. reflexivity.
Qed.
