(** * Props_TableSize: C112, the size of generated tables and what making them allocates. *)
From Verif Require Import Base ByteSet Ast Parser SelfGrammar TableGen SliceMem ParserMem TableGenMem Spec_Parse Spec_Grammar Spec_Bnf Spec_GenMem
  Spec_GenTime Spec_Alloc Spec_TableSize TGAlloc TGWide Props_GenTime Props_GenMem Props_Alloc.

(** Row [i] belongs to rule [i]. It has at most one cell per byte, and a cell
    has at most as many operands as the alternatives of the rule have symbols. *)
Theorem C112_rows :
  forall order fuel g tbl names, FromGrammar_order order fuel g = Ok (tbl, names) ->
    Forall2 (fun (r : rule) (row : Z * row) =>
        NoDup (map fst (snd row)) /\ length (snd row) <= 256 /\
        forall c ops, In (c, ops) (snd row) -> length ops <= rule_symbols r) g tbl.
Proof.
  intros order fuel g tbl names H. apply table_fits in H. induction H as [|r p g tbl F _ IH]; constructor; [|exact IH].
  destruct (row_fits_cells _ _ F) as (L & _). destruct F as (N & B). split; [exact N|]. split; [exact L|exact B].
Qed.
Print Assumptions C112_rows.

(** The whole table. *)
Theorem C112_total :
  forall order fuel g tbl names, FromGrammar_order order fuel g = Ok (tbl, names) ->
    table_cells tbl <= 256 * length g /\ table_operands tbl <= 256 * grammar_symbols g.
Proof. intros order fuel g tbl names H. exact (table_fits_total _ _ (table_fits _ _ _ _ _ H)). Qed.
Print Assumptions C112_total.

(** The factor is real: two rules and [k + 256] symbols, and more than 255
    operands for each [k]. *)
Theorem C112_wide :
  forall k order fuel, 513 <= fuel ->
    length (wide k) = 2 /\ grammar_symbols (wide k) = k + 256 /\
    exists tbl names, FromGrammar_order order fuel (wide k) = Ok (tbl, names) /\ 255 * (k + 1) <= table_operands tbl.
Proof.
  intros k order fuel F. split; [reflexivity|]. split; [apply wide_symbols|].
  destruct (wide_accepted k order fuel F) as (tbl & names & E). exists tbl, names. split; [exact E|exact (wide_operands _ _ _ _ _ E)].
Qed.
Print Assumptions C112_wide.

(** A grammar read from a BNF text of [N] bytes. *)
Theorem C112_from_text :
  forall order fuel text g tbl names, bnf_text text g -> FromGrammar_order order fuel g = Ok (tbl, names) ->
    table_cells tbl <= 32 * length text /\ table_operands tbl <= 256 * length text.
Proof.
  intros order fuel text g tbl names T H. destruct (C112_total _ _ _ _ _ H) as (C & O).
  destruct (C97_from_text (fun l => l) fuel text g (fun l => Permutation.Permutation_refl l) T) as (N1 & N2 & _).
  assert (S : grammar_symbols g <= grammar_size g); [|split; [lia|nia]].
  unfold grammar_symbols, grammar_size. clear. induction g as [|r g IH]; [cbn; lia|]. cbn [map]. rewrite !ls_cons.
  assert (rule_symbols r <= alternatives_size (r_tail r)); [|lia].
  unfold rule_symbols, alternatives_size. generalize (r_tail r). induction s as [|s l IHl]; [cbn; lia|]. cbn [map]. rewrite !ls_cons. lia.
Qed.
Print Assumptions C112_from_text.

(** What a call allocates, garbage included and whatever its outcome: arrays of
    operands with at most [1280 a] times as many elements as the grammar has
    symbols if slices grow steadily; two arrays of sets with one set per rule
    each; nothing else, and the arrays the grammar is stored in remain. *)
Theorem C112_allocated :
  forall a grow order fuel m mg g, steady a grow -> grammar_in m mg g ->
    let m' := snd (mFromGrammar grow order fuel mg m) in
    allocated (m_ops (gm_mem m)) (m_ops (gm_mem m')) <= 1280 * a * grammar_symbols g /\
    allocated (gm_sets m) (gm_sets m') = 2 * length g /\
    m_nodes (gm_mem m') = m_nodes (gm_mem m) /\ m_bytes (gm_mem m') = m_bytes (gm_mem m) /\
    gm_syms m' = gm_syms m /\ gm_seqs m' = gm_seqs m /\ gm_rules m' = gm_rules m.
Proof.
  intros a grow order fuel m mg g S G m'. destruct (mFromGrammar_alloc a grow order fuel m mg g S G) as ((A & B & C) & D & E & F & H).
  fold m' in A, B, C, D, E, F, H. unfold allocated. split; [lia|]. split; [lia|]. auto.
Qed.
Print Assumptions C112_allocated.

(** The grammar of BNF, and the tenth wide grammar (which has 266 symbols). *)
Example C112_case :
  grammar_symbols SelfGrammar = 168 /\
  match FromGrammar (256 * 26 + 1) SelfGrammar with
  | Ok (tbl, _) => N.of_nat (table_cells tbl) = 796%N /\ N.of_nat (table_operands tbl) = 1116%N
  | _ => False
  end /\
  match FromGrammar 513 (wide 10) with
  | Ok (tbl, _) => N.of_nat (table_cells tbl) = 510%N /\ N.of_nat (table_operands tbl) = 3060%N
  | _ => False
  end.
Proof. vm_compute. repeat split. Qed.

(** The hypotheses of C112_allocated are met by the grammar in memory of C71
    (gcase_in) and Go's growth (C106_go). There the call allocates 6 operands'
    worth of arrays and 4 sets for a grammar of two rules. *)
Example C112_memory_case :
  steady 2 go_grow /\ grammar_in gcase_m gcase_mg gcase_g /\ length gcase_g = 2 /\ grammar_symbols gcase_g = 5 /\
  (let m' := snd (mFromGrammar go_grow (fun l => l) 10 gcase_mg gcase_m) in
   allocated (m_ops (gm_mem gcase_m)) (m_ops (gm_mem m')) = 6 /\
   allocated (gm_sets gcase_m) (gm_sets m') = 4).
Proof.
  split; [exact C106_go|]. split; [exact gcase_in|]. split; [reflexivity|]. split; [reflexivity|]. vm_compute. split; reflexivity.
Qed.
