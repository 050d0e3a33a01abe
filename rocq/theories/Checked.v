(** * Checked: what follows for a grammar that passes the checks of TGCheck,
    whatever the order in which the generator walks its maps. *)
From Verif Require Import Base Cst Ast Parser TableGen Spec_Parse Spec_Grammar Spec_Table
  ParseApi TGMain TGCells TGClosed TGParse TGCheck Props_TableGen.

Lemma passes_generated g k : passes g k = true -> forall order, exists tbl names, forall fuel,
  256 * length g + 1 <= fuel -> FromGrammar_order order fuel g = Ok (tbl, names).
Proof.
  intros P order. destruct (passes_ok _ _ P) as (D & tbl0 & names0 & E0).
  assert (NL : ~ late_empty g (follow_code g)).
  { eapply (C29_reported _ _ _ (dg_wf _ D) (le_n _)). exists tbl0, names0. exact E0. }
  destruct (FromGrammar_wf order (256 * length g + 1) _ (dg_wf _ D) (le_n _))
    as [(_ & B)|(tbl & names & E & _)]; [contradiction|].
  exists tbl, names. intros fuel Hf.
  replace fuel with (256 * length g + 1 + (fuel - (256 * length g + 1))) by lia.
  rewrite FromGrammar_more; [exact E|]. rewrite E. discriminate.
Qed.

Lemma dec_LL1 g : decidable_grammar g -> wf_grammar g /\ LL1 g.
Proof.
  intros D. split; [exact (dg_wf _ D)|]. apply rules_LL1; [exact (wf_nonempty _ (dg_wf _ D))|exact (dg_ll1 _ D)].
Qed.

Lemma dec_tree order fuel0 fuel g tbl names m src text t : decidable_grammar g ->
  FromGrammar_order order fuel0 g = Ok (tbl, names) -> delivers src text -> ~ In NUL text ->
  parses_to fuel tbl (Some m) src t -> derivation_tree g text t /\ word g text.
Proof.
  intros D. apply C27_sound; [exact (dg_wf _ D)|exact (ll1_first _ _ (dg_ll1 _ D))].
Qed.

(** A word has a tree. *)
Lemma passes_tree g k text : passes g k = true -> ~ In NUL text -> word g text -> exists t, derivation_tree g text t.
Proof.
  intros P Hn W. pose proof (proj1 (passes_ok _ _ P)) as D.
  destruct (passes_generated _ _ P (fun l => l)) as (tbl & names & E).
  destruct (decides (fun l => l) _ g tbl names names (SrcString text) text D (E _ (le_n _)) (dl_string text)) as (_ & H).
  apply (H Hn) in W. destruct W as (fuel & t & Hp). exists t.
  eapply dec_tree; [exact D|exact (E _ (le_n _))|apply dl_string|exact Hn|exact Hp].
Qed.
