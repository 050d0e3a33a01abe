(** * Props_Recode: property C96, bytes mean nothing but themselves. *)
From Verif Require Import Base ByteSet Ast Cst Parser TableGen Spec_Parse Spec_Grammar Spec_Table Spec_Recode
  ParseApi ParseApi2 TGMain TGClosed TGNames Props_TableGen Recode.
From Coq Require Import Permutation.

(** Parse: a re-encoded table on a re-encoded source ends the way the table
    ends on the source -- the same tree with the same positions, the same names,
    the same error (naming the re-encoded bytes), the same panic, the same
    amount of input left -- for every table, source and fuel, unless the table
    uses the built-in end-of-line operand and the encoding moves one of its two
    bytes. *)
Theorem C96_parse :
  forall p r t t' names src fuel,
    recoding p r -> recoded_table p t t' -> (uses_eol t -> p LF = LF /\ p CR = CR) ->
    let out := Parse fuel (NewLL1Parser t names) src in
    Parse fuel (NewLL1Parser t' names) (recoded_source p src) =
      mkOut (recoded_result p (po_result out)) (po_names out) (recoded_source p (po_source out)).
Proof. intros p r t t' names src fuel P T E. exact (Parse_recoded p r P t t' names src fuel T E). Qed.
Print Assumptions C96_parse.

(** FromGrammar: a grammar whose terminals are re-encoded, named and ordered as
    before, gives the re-encoded table and the same names, or the same error, or
    the same panic. *)
Theorem C96_generated :
  forall p r order fuel g,
    recoding p r ->
    match FromGrammar_order order fuel g, FromGrammar_order order fuel (recoded_grammar p g) with
    | Ok (tbl, names), Ok (tbl', names') => recoded_table p tbl tbl' /\ names' = names
    | Err e, Err e' => e' = e
    | Panic q, Panic q' => q' = q
    | NoFuel, NoFuel => True
    | _, _ => False
    end.
Proof.
  intros p r order fuel g P. pose proof (FromGrammar_sim p r P g order fuel) as S.
  destruct (FromGrammar_order order fuel g) as [(t, n)|e|q|], (FromGrammar_order order fuel (recoded_grammar p g)) as [(t', n')|e'|q'|];
    cbn in S; try contradiction; auto. destruct S. auto.
Qed.
Print Assumptions C96_generated.

(** Both together: the parser of the re-encoded grammar does to the re-encoded
    source what the parser of the grammar does to the source. *)
Theorem C96_pipeline :
  forall p r order order' fuel0 fuel0' g tbl tbl' names names' m src fuel,
    recoding p r ->
    (forall l, Permutation (order l) l) -> (forall l, Permutation (order' l) l) ->
    FromGrammar_order order fuel0 g = Ok (tbl, names) ->
    FromGrammar_order order' fuel0' (recoded_grammar p g) = Ok (tbl', names') ->
    let out := Parse fuel (NewLL1Parser tbl m) src in
    Parse fuel (NewLL1Parser tbl' m) (recoded_source p src) =
      mkOut (recoded_result p (po_result out)) (po_names out) (recoded_source p (po_source out)) /\
    forall k, map_get Z.eqb k names' = map_get Z.eqb k names.
Proof.
  intros p r order order' fuel0 fuel0' g tbl tbl' names names' m src fuel P O O' E E'.
  assert (X : FromGrammar_order order (fuel0 + fuel0') g = Ok (tbl, names)) by (rewrite FromGrammar_more; congruence).
  assert (X' : FromGrammar_order order' (fuel0 + fuel0') (recoded_grammar p g) = Ok (tbl', names')) by (rewrite Nat.add_comm, FromGrammar_more; congruence).
  pose proof (C96_generated p r order (fuel0 + fuel0') g P) as S. rewrite X in S.
  pose proof (FromGrammar_any_order order order' (fuel0 + fuel0') (recoded_grammar p g) O O') as A. rewrite X' in A.
  destruct (FromGrammar_order order (fuel0 + fuel0') (recoded_grammar p g)) as [(t1, n1)| | |]; try contradiction.
  destruct S as (S & ->), A as (<- & A). split; [|intros k; symmetry; apply A].
  apply (C96_parse p r); [exact P|exact S|]. intros (n & rw & c & ops & Hn & Hc & I). exfalso.
  assert (I1 : In (n, rw) tbl).
  { clear - Hn. unfold table_get in Hn. induction tbl as [|(k, v) l IH]; cbn in Hn; [discriminate|]. destruct (Z.eqb_spec n k) as [->|]; [left; congruence|right; auto]. }
  assert (I2 : In (c, ops) rw).
  { clear - Hc. unfold row_get in Hc. induction rw as [|(k, v) l IH]; cbn in Hc; [discriminate|]. destruct (Ascii.eqb_spec c k) as [->|]; [left; congruence|right; auto]. }
  destruct (C24_operands _ _ _ _ _ E n rw c ops _ I1 I2 I) as [(k & Ek & Ik)|(h & s & w & Ek & _)]; [|discriminate].
  injection Ek as <-. rewrite (C24_rows _ _ _ _ _ E) in Ik. apply in_map_iff in Ik. destruct Ik as (i & Hi & _). lia.
Qed.
Print Assumptions C96_pipeline.

(** Two bytes exchanged, the others left alone. *)
Definition exchange (a b c : ascii) : ascii := if Ascii.eqb c a then b else if Ascii.eqb c b then a else c.
Lemma exchange_twice a b c : exchange a b (exchange a b c) = c.
Proof.
  unfold exchange. destruct (Ascii.eqb_spec c a) as [->|N].
  - rewrite Ascii.eqb_refl. destruct (Ascii.eqb_spec b a); congruence.
  - destruct (Ascii.eqb_spec c b) as [->|M]; [rewrite Ascii.eqb_refl; reflexivity|].
    destruct (Ascii.eqb_spec c a); [congruence|]. destruct (Ascii.eqb_spec c b); [congruence|reflexivity].
Qed.
Definition ch (n : N) : ascii := ascii_of_N n.
Notation ch_a := (ch 97).
Notation ch_b := (ch 98).
Notation ch_z := (ch 122).
Definition recode_row (p : ascii -> ascii) (r : row) : row :=
  map (fun x => (p (fst x), map (recoded_op p) (snd x))) r.
Definition recode_table (p : ascii -> ascii) (t : table) : table := map (fun x => (fst x, recode_row p (snd x))) t.
Lemma recode_table_ok p r t : (forall c, r (p c) = c) -> recoded_table p t (recode_table p t).
Proof.
  intros P n. induction t as [|(k, rw) t IH]; [exact I|]. cbn. destruct (n =? k)%Z; [|exact IH].
  intros c. unfold row_get, recode_row. induction rw as [|(d, ops) rw IHr]; [reflexivity|]. cbn [map map_get fst snd].
  replace (Ascii.eqb (p c) (p d)) with (Ascii.eqb c d).
  - destruct (Ascii.eqb c d); [reflexivity|exact IHr].
  - destruct (Ascii.eqb_spec c d) as [->|N]; symmetry; [apply Ascii.eqb_refl|]. apply Ascii.eqb_neq. intros E. apply N.
    rewrite <- (P c), E. apply P.
Qed.

(** The byte 0 has to stay: behind the end of the input Parse reads a 0 that is
    not there. *)
Theorem C96_refuted_nul :
  exists p r t t' fuel,
    (forall c, r (p c) = c) /\ (forall c, p (r c) = c) /\ recoded_table p t t' /\ ~ uses_eol t /\
    fails_with fuel t (Some []) (SrcString []) (ENoRulesForByte NUL (s2b "Unknown_0")) /\
    exists tree, parses_to fuel t' (Some []) (recoded_source p (SrcString [])) tree.
Proof.
  exists (exchange NUL ch_a), (exchange NUL ch_a), [(0%Z, [(ch_a, [OpTerminal [ch_a]])])],
    (recode_table (exchange NUL ch_a) [(0%Z, [(ch_a, [OpTerminal [ch_a]])])]), 20.
  split; [apply exchange_twice|]. split; [apply exchange_twice|]. split; [apply recode_table_ok with (r := exchange NUL ch_a), exchange_twice|].
  split.
  - intros (n & rw & c & ops & Hn & Hc & I). unfold table_get in Hn. cbn [map_get] in Hn.
    destruct (n =? 0)%Z; [|congruence]. injection Hn as <-. unfold row_get in Hc. cbn [map_get] in Hc.
    destruct (Ascii.eqb c _) in Hc; [|congruence]. injection Hc as <-. cbn [In] in I. destruct I as [I|I]; [discriminate I|exact I].
  - split; [vm_compute; reflexivity|]. eexists _, _. vm_compute. reflexivity.
Qed.
Print Assumptions C96_refuted_nul.

(** So do the bytes of the line ends, for a table with the built-in operand. *)
Theorem C96_refuted_eol :
  exists p r t t' fuel,
    recoding p r /\ recoded_table p t t' /\
    (exists tree, parses_to fuel t (Some []) (SrcString [LF]) tree) /\
    fails_with fuel t' (Some []) (recoded_source p (SrcString [LF])) (ENoRulesEOL ch_a).
Proof.
  exists (exchange LF ch_a), (exchange LF ch_a), [(0%Z, [(LF, [OpNonTerminal (-2)])])],
    (recode_table (exchange LF ch_a) [(0%Z, [(LF, [OpNonTerminal (-2)])])]), 20.
  split; [split; [apply exchange_twice|split; [apply exchange_twice|reflexivity]]|].
  split; [apply recode_table_ok with (r := exchange LF ch_a), exchange_twice|].
  split; [eexists _, _|]; vm_compute; reflexivity.
Qed.
Print Assumptions C96_refuted_eol.

(** The demo grammar with the letters a and z exchanged. *)
Lemma exchange_recoding a b : a <> NUL -> b <> NUL -> recoding (exchange a b) (exchange a b).
Proof.
  intros A B. split; [apply exchange_twice|]. split; [apply exchange_twice|]. unfold exchange.
  destruct (Ascii.eqb_spec NUL a); [congruence|]. destruct (Ascii.eqb_spec NUL b); [congruence|reflexivity].
Qed.
Example C96_case :
  recoding (exchange ch_a ch_z) (exchange ch_a ch_z) /\
  FromGrammar 600 demo = Ok (gen_of demo) /\
  recoded_grammar (exchange ch_a ch_z) demo =
    [ru "S" [[nt "A"; tm "b"; nt "S"]; [SNothing]]; ru "A" [[tm "z"]; [SNothing]]] /\
  FromGrammar 600 (recoded_grammar (exchange ch_a ch_z) demo) = Ok (gen_of (recoded_grammar (exchange ch_a ch_z) demo)) /\
  (exists tree,
     parses_to 50 (fst (gen_of demo)) (Some []) (SrcString (s2b "abb")) tree /\
     parses_to 50 (fst (gen_of (recoded_grammar (exchange ch_a ch_z) demo))) (Some []) (SrcString (s2b "zbb")) tree) /\
  fails_with 50 (fst (gen_of demo)) (Some []) (SrcString (s2b "ba")) (EExpectedChar ch_b NUL) /\
  fails_with 50 (fst (gen_of demo)) (Some []) (SrcString (s2b "bz")) (ENoRulesForByte ch_z (s2b "Unknown_0")) /\
  fails_with 50 (fst (gen_of (recoded_grammar (exchange ch_a ch_z) demo))) (Some []) (SrcString (s2b "ba")) (ENoRulesForByte ch_a (s2b "Unknown_0")).
Proof.
  split; [apply exchange_recoding; discriminate|].
  split; [vm_compute; reflexivity|]. split; [vm_compute; reflexivity|]. split; [vm_compute; reflexivity|].
  split; [eexists; split; eexists; vm_compute; reflexivity|]. repeat split; vm_compute; reflexivity.
Qed.
