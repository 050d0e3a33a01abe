(** * Props_EndConc: property C120.

    From the text of a grammar to the trees of texts, in many goroutines at once. *)
From Verif Require Import Base Cst Ast FromCst Parser SelfGrammar SliceMem ParserMem TableGenMem FromCstMem
  TableGen TableGenConc ParserConc PipeConc ConvertConc PipeAll
  Spec_Parse Spec_Tree Spec_Grammar Spec_Table Spec_Bnf Spec_Mem Spec_GenMem Spec_GenConc Spec_ParserConc Spec_PipeConc
  Spec_ConvertConc Spec_MixConc Spec_PipeAll Spec_EndConc ParseApi NulProofs.
From Verif Require TGCells TGClosed NulText NulProofs Props_Parser Props_TableGen Props_Bnf Props_PipeAll.

(** A goroutine converts the tree of the BNF text of an LL(1) grammar, builds a
    parser of what it gets, and parses a text with it. Whatever else goes on, it
    ends with a derivation tree of the text, or with an error when the text is
    not in the language. *)
Theorem C120_end_to_end :
  forall order0 fuel0 stbl snames sm fuel1 bnf bsrc tree g,
    (* the tree is that of the text *)
    FromGrammar_order order0 fuel0 SelfGrammar = Ok (stbl, snames) ->
    bnf_text bnf g -> delivers bsrc bnf -> parses_to fuel1 stbl (Some sm) bsrc tree ->
    (* the grammar is LL(1), and the FOLLOW sets of the code are right where they count *)
    wf_grammar g -> LL1 g ->
    (forall n x, nullable g [NT n] -> (follow_code g n x <-> follow g n x)) ->
    forall order s text, delivers s text ->
    exists fuel, forall jobs m0 sched i grow bgrow bfuel nx c out,
      zjobs_in m0 jobs ->
      nth_error jobs i = Some (ZConvert (mkRJob grow SelfCSTtoASTBindings tree bnf)
                                        (Some (mkBNext bgrow order bfuel (Some nx)))) ->
      256 * length g + 1 <= bfuel -> fuel <= xn_fuel nx -> source_in (gm_mem m0) (xn_source nx) s ->
      let m := zc_mem (zafter jobs m0 sched) in
      nth_error (zc_calls (zafter jobs m0 sched)) i = Some c -> zdone c = Some out ->
      exists o, out = ZBuilt (XTree o) /\
        ((word g (before_nul text) /\ exists n, accepted_as m0 m o n /\ derivation_tree g (before_nul text) n) \/
         (~ word g (before_nul text) /\ refused o)).
Proof.
  intros order0 fuel0 stbl snames sm fuel1 bnf bsrc tree g Es B Hb Ht W L FF order s text Hd.
  assert (T : ToAST SelfCSTtoASTBindings tree bnf = Ok g).
  { destruct (proj2 (Props_Bnf.C35_pipeline _ _ _ _ sm bsrc bnf g Es Hb (Props_Bnf.bnf_nulfree _ _ B)) B) as (f2 & t2 & P2 & A2).
    replace tree with t2; [exact A2|]. destruct Ht as (nm & Ht), P2 as (nm2 & P2).
    pose proof (Props_Parser.C17_deterministic fuel1 (fuel1 + f2) stbl (Some sm) bsrc) as M1.
    pose proof (Props_Parser.C17_deterministic f2 (fuel1 + f2) stbl (Some sm) bsrc) as M2.
    rewrite Ht in M1. rewrite P2 in M2. unfold result in Ht, P2.
    rewrite <- (M1 ltac:(discriminate) ltac:(lia)) in Ht. rewrite <- (M2 ltac:(discriminate) ltac:(lia)) in P2. congruence. }
  destruct (Props_TableGen.C28_complete order g W L FF) as (tbl & names & E & C).
  pose proof (E _ (le_n _)) as E1. pose proof (TGCells.wf_nulfree _ W) as Nf.
  destruct (Props_TableGen.C33_terminates order _ g tbl names names s text W L E1 Hd) as (fuel & Hf).
  exists fuel. intros jobs m0 sched i grow bgrow bfuel nx c out J Ej Lb Lf Hs m Ec D.
  pose proof (Props_PipeAll.C119_results jobs m0 sched i _ c out J Ej Ec D) as X. fold m in X.
  cbn [z_as_alone r_bindings r_root r_str b_order b_fuel b_next] in X. rewrite T, (E _ Lb) in X.
  destruct (X s Hs) as (o & -> & R & _). exists o. split; [reflexivity|].
  assert (Nn : result (xn_fuel nx) tbl (Some names) s <> NoFuel).
  { unfold result. rewrite (Props_Parser.C17_deterministic _ _ _ _ _ Hf Lf). exact Hf. }
  fold (result (xn_fuel nx) tbl (Some names) s) in R.
  destruct (result (xn_fuel nx) tbl (Some names) s) as [r|[]|p|] eqn:Er; [| |contradiction].
  2: { exfalso. eapply Props_Parser.C07_parse_never_panics; [eapply TGClosed.FromGrammar_public, E1|exact Er]. }
  destruct (qo_result o) as [mr| | |] eqn:Eo; try contradiction. destruct R as (_ & R1 & R2).
  destruct (Props_Parser.C08_return_contract _ _ _ _ _ Er) as [(t & nm & ->)|(e & ->)]; cbn in R1, R2.
  - left. assert (P : parses_to (xn_fuel nx) tbl (Some names) s t) by (exists nm; exact Er).
    apply (NulText.parses_before _ _ _ _ _ Nf E1 _ _ _ _ _ Hd) in P.
    destruct (Props_TableGen.C27_sound _ _ _ _ _ _ _ _ _ _ W (ll1_first _ _ L) E1 (dl_string _) (NulProofs.before_nul_free _) P) as [Dt Hw].
    split; [exact Hw|]. exists t. split; [|exact Dt]. destruct (mr_tree mr) as [mn|] eqn:Em; [|contradiction].
    exists mr, mn. auto.
  - right. split.
    + intros Hw. destruct (C names _ _ (dl_string (before_nul text)) Hw) as (f' & t & P).
      apply (NulText.parses_before _ _ _ _ _ Nf E1 _ _ _ _ _ Hd) in P. destruct P as (nm & P).
      pose proof (Props_Parser.C17_deterministic (xn_fuel nx) (xn_fuel nx + f') tbl (Some names) s) as M1.
      pose proof (Props_Parser.C17_deterministic f' (xn_fuel nx + f') tbl (Some names) s) as M2.
      rewrite Er in M1. rewrite P in M2. unfold result in Er, P.
      rewrite <- (M1 ltac:(discriminate) ltac:(lia)) in Er. rewrite <- (M2 ltac:(discriminate) ltac:(lia)) in P. congruence.
    + exists mr, e. split; [exact Eo|]. split; [exact R1|]. destruct (mr_tree mr); [contradiction|reflexivity].
Qed.
Print Assumptions C120_end_to_end.

(** Such a goroutine gets there under every schedule in which it has turns again
    and again. *)
Theorem C120_gets_there :
  forall order0 fuel0 stbl snames sm fuel1 bnf bsrc tree g,
    FromGrammar_order order0 fuel0 SelfGrammar = Ok (stbl, snames) ->
    bnf_text bnf g -> delivers bsrc bnf -> parses_to fuel1 stbl (Some sm) bsrc tree ->
    wf_grammar g -> LL1 g ->
    (forall n x, nullable g [NT n] -> (follow_code g n x <-> follow g n x)) ->
    forall order s text, delivers s text ->
    exists fuel, forall jobs m0 (sched : nat -> nat) i grow bgrow bfuel nx,
      zjobs_in m0 jobs ->
      nth_error jobs i = Some (ZConvert (mkRJob grow SelfCSTtoASTBindings tree bnf)
                                        (Some (mkBNext bgrow order bfuel (Some nx)))) ->
      256 * length g + 1 <= bfuel -> fuel <= xn_fuel nx -> source_in (gm_mem m0) (xn_source nx) s ->
      (forall t, exists t', t <= t' /\ sched t' = i) ->
      exists t c o,
        let now := zafter jobs m0 (map sched (seq 0 t)) in
        nth_error (zc_calls now) i = Some c /\ zdone c = Some (ZBuilt (XTree o)) /\
        ((word g (before_nul text) /\ exists n, accepted_as m0 (zc_mem now) o n /\ derivation_tree g (before_nul text) n) \/
         (~ word g (before_nul text) /\ refused o)).
Proof.
  intros order0 fuel0 stbl snames sm fuel1 bnf bsrc tree g Es B Hb Ht W L FF order s text Hd.
  destruct (C120_end_to_end _ _ _ _ _ _ _ _ _ _ Es B Hb Ht W L FF order s text Hd) as (fuel & H).
  exists fuel. intros jobs m0 sched i grow bgrow bfuel nx J Ej Lb Lf Hs Fair.
  destruct (Props_PipeAll.C119_progress jobs m0 sched i) as (t & c & out & Ec & D); [|exact Fair|].
  { apply nth_error_Some. congruence. }
  destruct (H jobs m0 _ i grow bgrow bfuel nx c out J Ej Lb Lf Hs Ec D) as (o & -> & R).
  exists t, c, o. split; [exact Ec|]. split; [exact D|exact R].
Qed.
Print Assumptions C120_gets_there.

(** ** A concrete case: the printed text of the grammar of C28_case,
    [S ::= A "b" S | ""], [A ::= "a" | ""]. Its tree exists, it is LL(1), and two
    goroutines may convert it, build and parse, one the word "abb", and one "aab". *)
Example C120_case : exists stbl snames fuel1 tree,
  FromGrammar_order (fun l => l) (256 * length SelfGrammar + 1) SelfGrammar = Ok (stbl, snames) /\
  let bnf := grammar_string Props_TableGen.demo in
  bnf_text bnf Props_TableGen.demo /\ parses_to fuel1 stbl (Some snames) (SrcString bnf) tree /\
  wf_grammar Props_TableGen.demo /\ LL1 Props_TableGen.demo /\
  (forall n x, nullable Props_TableGen.demo [NT n] ->
     (follow_code Props_TableGen.demo n x <-> follow Props_TableGen.demo n x)) /\
  word Props_TableGen.demo (before_nul (s2b "abb")) /\
  forall fuel m0,
    let job text := ZConvert (mkRJob (fun n => n) SelfCSTtoASTBindings tree bnf)
      (Some (mkBNext (fun n => 2 * n) (fun l => l) 600 (Some (mkXNext (fun n => n) fuel (MSrcString text))))) in
    zjobs_in m0 [job (s2b "abb"); job (s2b "aab")] /\ 256 * length Props_TableGen.demo + 1 <= 600 /\
    source_in (gm_mem m0) (MSrcString (s2b "abb")) (SrcString (s2b "abb")).
Proof.
  destruct (Props_Bnf.C42_generated (fun l => l)) as (stbl & snames & E). specialize (E _ (le_n _)).
  assert (B : bnf_text (grammar_string Props_TableGen.demo) Props_TableGen.demo).
  { apply Props_Bnf.C39_normal_form with (text := grammar_string Props_TableGen.demo).
    apply BnfPrint.grammar_printed. apply Props_Bnf.printableb_ok. vm_compute. reflexivity. }
  destruct (proj2 (Props_Bnf.C35_pipeline _ _ _ _ snames _ _ Props_TableGen.demo E (dl_string _) (Props_Bnf.bnf_nulfree _ _ B)) B)
    as (fuel1 & tree & P & _).
  destruct Props_TableGen.C28_case as (W & L & N & R & Hw).
  exists stbl, snames, fuel1, tree. split; [exact E|]. cbv zeta. split; [exact B|]. split; [exact P|].
  split; [exact W|]. split; [exact L|]. split.
  { intros n x _. apply Props_TableGen.C23_textbook; [exact (wf_nonempty _ W)|exact N|exact R]. }
  split; [exact Hw|]. intros fuel m0. split; [|split; [cbn; lia|reflexivity]].
  repeat constructor; cbn; [exists (SrcString (s2b "abb")); reflexivity|exists (SrcString (s2b "aab")); reflexivity].
Qed.
