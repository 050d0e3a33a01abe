(** * Props_Alloc: C106, the total work and the total allocation of Parse. *)
From Verif Require Import Base ByteSet Ast Cst Parser TableGen Spec_Parse Spec_Grammar Spec_Table Spec_Time Spec_Size
  Spec_Stack SliceMem ParserMem Spec_Mem Spec_Alloc ParserTime ParserProofs ParserMemProofs ParserAlloc ParseApi ParseApi2
  TGMain TGCells TGClosed TGParse TGCheck Props_Parser Props_TableGen Props_Trees Props_Size Props_Stack Props_Mem FromCstTime.

(** ** Lemmas *)
Lemma run_t_more tbl text names fuel : forall st k,
  fst (run tbl text names fuel st) <> NoFuel ->
  run_t tbl text names (fuel + k) st = run_t tbl text names fuel st.
Proof.
  induction fuel as [|fuel IH]; intros st k N; [contradiction N; reflexivity|]. cbn [run_t run Nat.add] in *.
  rewrite <- step_t_eq in N. destruct (step_t tbl text names st) as [j [st'|r nm|p]]; cbn [snd] in N; try reflexivity.
  rewrite IH by exact N. reflexivity.
Qed.
Lemma mrun_more grow mt ms names fuel : forall st k,
  fst (fst (mrun grow mt ms names fuel st)) <> NoFuel ->
  mrun grow mt ms names (fuel + k) st = mrun grow mt ms names fuel st.
Proof.
  induction fuel as [|fuel IH]; intros st k N; [contradiction N; reflexivity|]. cbn [mrun Nat.add] in *.
  destruct (mstep grow mt ms names st); try reflexivity. apply IH, N.
Qed.
Lemma init_tame w : Forall (tame w) (ps_ops init_state).
Proof. repeat constructor. Qed.
Lemma init_lone : lone (ps_ops init_state).
Proof. exists [OpNonTerminal 0]. split; [reflexivity|]. repeat constructor. discriminate. Qed.
Lemma minit_J a w grow m : steady a grow -> J a w (cells (m_ops m)) (cells (m_nodes m)) 0 (minit grow m).
Proof.
  intros S. unfold minit.
  destruct (push_op grow m nil_slice OpEOS) as [m1 s1] eqn:E1.
  destruct (push_op_alloc a grow S 2 _ m nil_slice OpEOS m1 s1 (AI_nil a 2 (m_ops m)) E1) as (A1 & L1 & N1 & _).
  { cbn. lia. }
  destruct (push_op grow m1 s1 (OpNonTerminal 0)) as [m2 s2] eqn:E2. cbn [sl_len nil_slice] in L1.
  destruct (push_op_alloc a grow S _ _ _ _ _ _ _ A1 E2) as (A2 & L2 & N2 & _); [lia|].
  split; [cbn [ms_mem ms_ops]; exact A2|]. split; [cbn [ms_ops]; lia|].
  exists 0. cbn [ms_mem ms_prods nil_slice sl_len]. rewrite N2, N1, Nat.add_0_r. split; [apply AI_nil|lia].
Qed.
Lemma read_keeps m ms r ms' m' : mreadSource m ms = (r, ms', m') -> m_ops m' = m_ops m /\ m_nodes m' = m_nodes m.
Proof.
  destruct ms as [|x|x|[x|]|x|]; cbn; try (intros E; injection E as _ _ <-; split; reflexivity).
  destruct (rd_end x); intros E; injection E as _ _ <-; split; reflexivity.
Qed.
Lemma Parse_t_more fuel k p src : po_result (Parse fuel p src) <> NoFuel ->
  Parse_t (fuel + k) p src = Parse_t fuel p src.
Proof.
  unfold Parse, Parse_t. intros N. destruct (p_table p) as [|r0 t] eqn:Et; [reflexivity|].
  destruct (table_get 0 (r0 :: t)); [|reflexivity]. destruct (readSource src) as [[text|e|q|] s']; try reflexivity.
  rewrite run_t_more; [reflexivity|]. destruct (run (r0 :: t) text (p_names p) fuel init_state). exact N.
Qed.
Lemma mParse_more grow fuel k mt names m ms : mo_result (mParse grow fuel mt names m ms) <> NoFuel ->
  mParse grow (fuel + k) mt names m ms = mParse grow fuel mt names m ms.
Proof.
  unfold mParse. intros N. destruct mt as [|r0 mt]; [reflexivity|].
  destruct (mtable_get 0 (r0 :: mt)); [|reflexivity].
  destruct (mreadSource m ms) as [[[text|e|q|] s'] m']; try reflexivity.
  rewrite mrun_more; [reflexivity|].
  destruct (mrun grow (r0 :: mt) text names fuel (minit grow m')) as [[rx nmx] m2]. exact N.
Qed.

(** ** C106 *)

(** Counting does not change what Parse does. *)
Theorem C106_same_result : forall fuel p src, snd (Parse_t fuel p src) = Parse fuel p src.
Proof.
  intros fuel p src. unfold Parse_t, Parse. destruct (p_table p) as [|r0 t]; [reflexivity|].
  destruct (table_get 0 (r0 :: t)); [|reflexivity]. destruct (readSource src) as [[text|e|q|] s']; try reflexivity.
  rewrite <- run_t_eq. destruct (run_t (r0 :: t) text (p_names p) fuel init_state) as [k [rx nmx]]. reflexivity.
Qed.
Print Assumptions C106_same_result.

(** Rounds of all loops together within [fuel] iterations of the main loop:
    none of the inner loops makes it more than linear, whatever the text. *)
Theorem C106_rounds : forall w fuel tbl names src,
  2 <= w -> width_at_most w tbl -> table_public tbl ->
  fst (Parse_t fuel (NewLL1Parser tbl names) src) <= fuel * (3 + w).
Proof.
  intros w fuel tbl names src W2 W P. unfold Parse_t, NewLL1Parser. cbn [p_table p_names].
  destruct tbl as [|r0 t]; [cbn; lia|]. destruct (table_get 0 (r0 :: t)); [|cbn; lia].
  destruct (readSource src) as [[text|e|q|] s']; try (cbn; lia).
  pose proof (run_t_rounds (r0 :: t) text names w W2 W P fuel 0 init_state (init_tame w)) as R.
  destruct (run_t (r0 :: t) text names fuel init_state) as [k x]. cbn [fst].
  cbn [init_state ps_ops ps_prods length fst] in R. specialize (R ltac:(lia)). lia.
Qed.
Print Assumptions C106_rounds.

(** A call that returns a tree makes at most three rounds per iteration,
    whatever the table. *)
Theorem C106_rounds_success : forall fuel tbl names src t,
  table_public tbl -> parses_to fuel tbl names src t ->
  fst (Parse_t fuel (NewLL1Parser tbl names) src) <= 3 * fuel.
Proof.
  intros fuel tbl names src t P (nm & E). unfold result, Parse in E. unfold Parse_t, NewLL1Parser in *. cbn [p_table p_names] in *.
  destruct tbl as [|r0 tb]; [cbn; lia|]. destruct (table_get 0 (r0 :: tb)); [|cbn; lia].
  destruct (readSource src) as [[text|e|q|] s']; try (cbn; lia).
  destruct (run (r0 :: tb) text names fuel init_state) as [rx nmx] eqn:Er. cbn [po_result] in E. subst rx.
  pose proof (run_t_success (r0 :: tb) text names P fuel init_state _ _ _ init_lone Er) as R.
  destruct (run_t (r0 :: tb) text names fuel init_state) as [k x]. cbn [fst] in *.
  cbn [init_state ps_ops ps_prods length fst] in R. lia.
Qed.
Print Assumptions C106_rounds_success.

(** All arrays of operands and nodes Parse has allocated after at most [fuel]
    iterations, those it no longer uses included, in elements: linear as well,
    also when it fails or panics. *)
Theorem C106_allocated : forall a w grow fuel mt tbl names m ms s,
  steady a grow -> 2 <= w -> table_in m mt tbl -> source_in m ms s ->
  width_at_most w tbl -> table_public tbl ->
  let m' := mo_mem (mParse grow fuel mt names m ms) in
  allocated (m_ops m) (m_ops m') <= 5 * a * (2 + fuel * w) /\
  allocated (m_nodes m) (m_nodes m') <= (5 * a + 2) * fuel + w.
Proof.
  intros a w grow fuel mt tbl names m ms s S W2 Ht Hs W P. cbv zeta. unfold allocated.
  assert (Z : forall m', m_ops m' = m_ops m -> m_nodes m' = m_nodes m ->
            cells (m_ops m') - cells (m_ops m) <= 5 * a * (2 + fuel * w) /\
            cells (m_nodes m') - cells (m_nodes m) <= (5 * a + 2) * fuel + w).
  { intros m' -> ->. rewrite !Nat.sub_diag. lia. }
  unfold mParse. destruct mt as [|r0 mt]; [apply Z; reflexivity|].
  destruct (mtable_get 0 (r0 :: mt)); [|apply Z; reflexivity].
  pose proof (readSource_sim m ms s Hs) as R.
  destruct (mreadSource m ms) as [[rr ms'] m1] eqn:Er. destruct (read_keeps _ _ _ _ _ Er) as (Ko & Kn).
  destruct rr as [sl|e|p|]; cbn [mo_mem]; try (apply Z; assumption).
  destruct (readSource s) as [[text|e'|p'|] s']; try contradiction. destruct R as (U & _ & Hh & _).
  pose proof (mrun_alloc a w grow S W2 m1 (r0 :: mt) tbl sl text names
    (table_in_untouched _ _ _ _ U Ht) Hh W P (cells (m_ops m1)) (cells (m_nodes m1)) fuel 0 _ init_state
    (minit_inv grow m1 m1 (untouched_refl m1)) (init_tame w) (minit_J a w grow m1 S)) as (B1 & B2).
  destruct (mrun grow (r0 :: mt) sl names fuel (minit grow m1)) as [[res nm] m2]. cbn [mo_mem snd Nat.add] in *.
  rewrite Ko in B1. rewrite Kn in B2. nia.
Qed.
Print Assumptions C106_allocated.

(** With the table of an LL(1) grammar of r rules whose alternatives have size
    at most s, both are linear in the length n of the text, however long Parse
    is given: with k = 3 + r s n and w = max s 2, at most k (3 + w) rounds,
    3 k of them if it returns a tree, and arrays of at most 5 a (2 + k w)
    operands and (5 a + 2) k + w nodes. *)
Theorem C106_linear : forall order fuel0 g tbl names nm src text a grow mt m ms fuel,
  wf_grammar g -> LL1 g -> FromGrammar_order order fuel0 g = Ok (tbl, names) ->
  delivers src text -> steady a grow -> table_in m mt tbl -> source_in m ms src ->
  let k := 3 + length g * largest_alternative g * length text in
  let w := max (largest_alternative g) 2 in
  let m' := mo_mem (mParse grow fuel mt nm m ms) in
  fst (Parse_t fuel (NewLL1Parser tbl nm) src) <= k * (3 + w) /\
  (forall t, parses_to fuel tbl nm src t -> fst (Parse_t fuel (NewLL1Parser tbl nm) src) <= 3 * k) /\
  allocated (m_ops m) (m_ops m') <= 5 * a * (2 + k * w) /\
  allocated (m_nodes m) (m_nodes m') <= (5 * a + 2) * k + w.
Proof.
  intros order fuel0 g tbl names nm src text a grow mt m ms fuel Wf L E Hd S Ht Hs k w.
  pose proof (C54_linear order fuel0 g tbl names nm src text Wf L E Hd) as Nf. fold k in Nf.
  assert (W : width_at_most w tbl).
  { intros n r c ops H1 H2. destruct (generated_width _ _ _ _ _ Wf (ll1_first _ _ L) E n r c ops H1 H2) as [X Y].
    unfold w. split; [lia|]. intros t Htt. specialize (Y t Htt). lia. }
  assert (W2 : 2 <= w) by (unfold w; lia).
  assert (P : table_public tbl) by (eapply FromGrammar_public, E).
  assert (Nm : mo_result (mParse grow k mt nm m ms) <> NoFuel).
  { destruct (C63_result grow k mt tbl nm m ms src Ht Hs) as (R & _). unfold result in Nf. intros X. rewrite X in R.
    unfold same_result in R. destruct (po_result (Parse k (NewLL1Parser tbl nm) src)); try contradiction. }
  assert (D : exists f, f <= k /\ Parse_t fuel (NewLL1Parser tbl nm) src = Parse_t f (NewLL1Parser tbl nm) src /\
            mParse grow fuel mt nm m ms = mParse grow f mt nm m ms).
  { destruct (Nat.le_gt_cases fuel k) as [Lf|Lf]; [exists fuel; auto|]. exists k. split; [lia|].
    replace fuel with (k + (fuel - k)) by lia.
    split; [apply Parse_t_more, Nf|apply mParse_more, Nm]. }
  destruct D as (f & Lf & Dt & Dm).
  split; [|split].
  - rewrite Dt. etransitivity; [apply (C106_rounds w); assumption|]. apply Nat.mul_le_mono_r, Lf.
  - intros t Hp. rewrite Dt. etransitivity; [apply (C106_rounds_success f tbl nm src t P)|lia].
    destruct Hp as (n' & Hp). exists n'. unfold result in *. rewrite <- C106_same_result in *. rewrite <- Dt. exact Hp.
  - rewrite Dm. destruct (C106_allocated a w grow f mt tbl nm m ms src S W2 Ht Hs W P) as (A1 & A2). split.
    + etransitivity; [exact A1|]. apply Nat.mul_le_mono_l, Nat.add_le_mono_l, Nat.mul_le_mono_r, Lf.
    + etransitivity; [exact A2|]. apply Nat.add_le_mono_r, Nat.mul_le_mono_l, Lf.
Qed.
Print Assumptions C106_linear.

(** The growth of Go's slices is steady. *)
Theorem C106_go : steady 2 go_grow.
Proof.
  split; [lia|]. intros n L. unfold go_grow. destruct (Nat.ltb_spec (n - 1) 256) as [H|H]; [lia|].
  pose proof (Nat.div_mod (n - 1 + 768) 4 ltac:(lia)) as D. pose proof (Nat.mod_upper_bound (n - 1 + 768) 4 ltac:(lia)). lia.
Qed.
Print Assumptions C106_go.

(** A concrete case: the table of [case_mt] (Props_Mem.v) is the one generated
    from a grammar with two rules; the call makes 21 rounds and returns a tree. *)
Definition alloc_grammar : grammar :=
  [mkRule (s2b "S") [[STerminal (s2b "a"); SNonTerminal (s2b "T")]]; mkRule (s2b "T") [[STerminal (s2b "b")]; [SNothing]]].
Example C106_case :
  wf_grammar alloc_grammar /\ LL1 alloc_grammar /\
  FromGrammar 1000 alloc_grammar = Ok (case_t, [(0%Z, s2b "S"); (1%Z, s2b "T")]) /\
  delivers (SrcBytes (s2b "ab")) (s2b "ab") /\ steady 2 go_grow /\
  table_in case_m case_mt case_t /\ source_in case_m case_ms (SrcBytes (s2b "ab")) /\
  (exists t, parses_to 40 case_t (Some []) (SrcBytes (s2b "ab")) t) /\
  fst (Parse_t 40 (NewLL1Parser case_t (Some [])) (SrcBytes (s2b "ab"))) = 21 /\
  let m' := mo_mem (mParse go_grow 40 case_mt (Some []) case_m case_ms) in
  (allocated (m_ops case_m) (m_ops m'), allocated (m_nodes case_m) (m_nodes m')) = (15, 6).
Proof.
  assert (P : passes alloc_grammar (auto_cert alloc_grammar) = true) by (vm_compute; reflexivity).
  split; [apply wfb_spec; vm_compute; reflexivity|].
  split; [apply rules_LL1; [discriminate|]; apply (dg_ll1 _ (proj1 (passes_ok _ _ P)))|].
  split; [vm_compute; reflexivity|]. split; [constructor|]. split; [exact C106_go|].
  split; [exact case_table_ok|]. split; [exact case_source_ok|].
  split; [eexists; eexists; vm_compute; reflexivity|]. split; [vm_compute; reflexivity|]. vm_compute. reflexivity.
Qed.
