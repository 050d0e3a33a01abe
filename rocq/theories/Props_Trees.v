(** * Props_Trees: properties C53, C54 of the parsers made from LL(1) grammars.

    Reading guide: parse trees ([ptree], [parse_tree]) and [collapse] are those
    of Spec_ParseTree.v, the size of a grammar ([largest_alternative]) that of
    Spec_Time.v; the rest as in Props_TableGen.v. *)
From Verif Require Import Base ByteSet Cst Ast Parser TableGen Spec_Parse Spec_Tree Spec_Grammar Spec_Table
  Spec_ParseTree Spec_Time ParseApi ParseApi2 GrammarProofs TGFirsts TGFollows TGTable TGMain TGCells
  TGClosed TGParse TGNames TGCheck TGTrees TGTime Props_TableGen.
Local Opaque bs_contains bs_remove bs_union bs_bytes sequenceFirsts.

(** ** C53 *)

(** LL(1) grammars are unambiguous: the words are the texts with exactly one
    parse tree (other texts have none). *)
Theorem C53_unambiguous :
  forall g w, wf_grammar g -> LL1 g ->
    (word g w <-> exists t, parse_tree g w t) /\
    (forall t1 t2, parse_tree g w t1 -> parse_tree g w t2 -> t1 = t2).
Proof.
  intros g w W L. split; [split|].
  - apply word_parse_tree, W.
  - intros (t & H). eapply parse_tree_word; [exact (wf_nonempty _ W)|exact H].
  - apply (parse_tree_unique g (follow g) W L (follow_closed g)).
Qed.
Print Assumptions C53_unambiguous.

(** Parse returns that tree, cut at the rules that derive nothing. *)
Theorem C53_parser_tree :
  forall order fuel0 fuel g tbl names m src text t,
    wf_grammar g -> LL1 g -> FromGrammar_order order fuel0 g = Ok (tbl, names) ->
    delivers src text -> ~ In NUL text -> parses_to fuel tbl (Some m) src t ->
    exists T, parse_tree g text T /\ t = collapse T.
Proof.
  intros order fuel0 fuel g tbl names m src text t W L E Hd Hn Hp.
  destruct (C27_sound _ _ _ _ _ _ _ _ _ _ W (ll1_first _ _ L) E Hd Hn Hp) as [_ Hw].
  destruct (word_parse_tree _ _ W Hw) as (T & HT). exists T. split; [exact HT|].
  eapply (parser_tree_collapse g (follow g) W L (follow_closed g) text tbl); [|exact Hn| |exact HT].
  - eapply FromGrammar_table; [apply W|apply wf_nulfree, W|exact E].
  - eapply (parse_iff_derivation tbl m src text t (FromGrammar_public _ _ _ _ _ E) Hd). exists fuel. exact Hp.
Qed.
Print Assumptions C53_parser_tree.

(** S ::= A "c"     A ::= B     B ::= "b" | "" *)
Definition nested_empty : grammar :=
  [ru "S" [[nt "A"; tm "c"]]; ru "A" [[nt "B"]]; ru "B" [[tm "b"]; [SNothing]]].
Lemma passes_nested : passes nested_empty (auto_cert nested_empty) = true.
Proof. vm_compute. reflexivity. Qed.
Lemma gen_nested : FromGrammar (256 * length nested_empty + 1) nested_empty = Ok (gen_of nested_empty).
Proof. vm_compute. reflexivity. Qed.
Lemma nested_wf : wf_grammar nested_empty.
Proof. exact (dg_wf _ (proj1 (passes_ok _ _ passes_nested))). Qed.
Lemma nested_LL1 : LL1 nested_empty.
Proof. apply rules_LL1; [discriminate|exact (dg_ll1 _ (proj1 (passes_ok _ _ passes_nested)))]. Qed.

(** The cut shows: Parse does not return the parse tree itself. *)
Theorem C53_refuted_full_tree :
  exists g tbl names text t T,
    wf_grammar g /\ LL1 g /\ FromGrammar (256 * length g + 1) g = Ok (tbl, names) /\
    parses_to 100 tbl (Some names) (SrcString text) t /\ parse_tree g text T /\ t <> T.
Proof.
  exists nested_empty, (fst (gen_of nested_empty)), (snd (gen_of nested_empty)), (s2b "c").
  exists (mk 0 0 1 [mk 1 0 0 [nothing_at 0]; literal_at 0 1]).
  exists (mk 0 0 1 [mk 1 0 0 [mk 2 0 0 [nothing_at 0]]; literal_at 0 1]).
  split; [exact nested_wf|]. split; [exact nested_LL1|]. split; [exact gen_nested|].
  split; [eexists; vm_compute; reflexivity|]. split; [|discriminate].
  eapply (pt_rule _ _ 0 _ [nt "A"; tm "c"]); [reflexivity| |].
  { exists (nth 0 nested_empty (ru "" [])). cbn. auto. }
  eapply pts_cons; [|eapply pts_cons; [|apply pts_nil]].
  - eapply (pt_rule _ _ 1 _ [nt "B"]); [reflexivity| |].
    { exists (nth 1 nested_empty (ru "" [])). cbn. auto. }
    eapply pts_cons; [|apply pts_nil].
    eapply (pt_rule _ _ 2 _ [SNothing]); [reflexivity| |].
    { exists (nth 2 nested_empty (ru "" [])). cbn. auto. }
    eapply pts_cons; [apply pt_nothing|apply pts_nil].
  - apply (pt_terminal _ _ (s2b "c") 0); [discriminate|reflexivity].
Qed.
Print Assumptions C53_refuted_full_tree.

Example C53_case : wf_grammar demo /\ LL1 demo /\
  (exists tbl names, FromGrammar_order (fun l => l) (256 * length demo + 1) demo = Ok (tbl, names)) /\
  (exists t, parses_to 100 (fst (gen_of demo)) (Some (snd (gen_of demo))) (SrcString (s2b "abb")) t).
Proof.
  split; [exact demo_wf|]. split; [exact demo_LL1|]. split; [|exact C27_case].
  exists (fst (gen_of demo)), (snd (gen_of demo)). vm_compute. reflexivity.
Qed.

(** ** C54 *)

(** Parse goes through its loop at most 3 + r * a * n times, for a grammar of r
    rules with alternatives of size at most a and a text of n bytes. *)
Theorem C54_linear :
  forall order fuel0 g tbl names m src text,
    wf_grammar g -> LL1 g -> FromGrammar_order order fuel0 g = Ok (tbl, names) ->
    delivers src text ->
    result (3 + length g * largest_alternative g * length text) tbl m src <> NoFuel.
Proof.
  intros order fuel0 g tbl names m src text W L E Hd.
  unfold result. rewrite (Parse_usable _ tbl m src text); [|eapply FromGrammar_row0, E|exact Hd].
  cbn [po_result].
  eapply (run_init_bound g (follow g) W L (follow_closed g) tbl text m).
  eapply FromGrammar_table; [apply W|apply wf_nulfree, W|exact E].
Qed.
Print Assumptions C54_linear.

Example C54_case : length demo * largest_alternative demo = 14.
Proof. reflexivity. Qed.
