(** * Props_Respell: property C98, how literals are cut into pieces. *)
From Verif Require Import Base ByteSet Ast Cst Parser TableGen Spec_Parse Spec_Grammar Spec_Table Spec_Respell
  ParseApi ParseApi2 TGMain TGClosed TGNames TGParse Props_Parser Props_TableGen Recode Respell.
From Coq Require Import Permutation.

(** Parse with two tables which differ only in that some literals of the one
    are cut into several non-empty ones in the other: on every source both
    accept, with the same tree but for the literals, or both fail with the same
    error, or neither returns. *)
Theorem C98_parse :
  forall t t' m src,
    table_public t -> table_public t' -> respelled_table t t' ->
    (forall tree, (exists fuel, parses_to fuel t (Some m) src tree) ->
       exists fuel tree', parses_to fuel t' (Some m) src tree' /\ respelled_tree tree tree') /\
    (forall tree', (exists fuel, parses_to fuel t' (Some m) src tree') ->
       exists fuel tree, parses_to fuel t (Some m) src tree /\ respelled_tree tree tree') /\
    (forall e, (exists fuel, fails_with fuel t (Some m) src e) <-> (exists fuel, fails_with fuel t' (Some m) src e)) /\
    ((forall fuel, result fuel t (Some m) src = NoFuel) <-> (forall fuel, result fuel t' (Some m) src = NoFuel)).
Proof.
  intros t t' m src P P' T.
  assert (Main :
    (forall tree, (exists fuel, parses_to fuel t (Some m) src tree) ->
       exists fuel tree', parses_to fuel t' (Some m) src tree' /\ respelled_tree tree tree') /\
    (forall tree', (exists fuel, parses_to fuel t' (Some m) src tree') ->
       exists fuel tree, parses_to fuel t (Some m) src tree /\ respelled_tree tree tree') /\
    (forall e, (exists fuel, fails_with fuel t (Some m) src e) <-> (exists fuel, fails_with fuel t' (Some m) src e))).
  { destruct (has_row0_dec t) as [(r & Hr)|Hn].
    - assert (H0 : has_row0 t) by (exists r; exact Hr). pose proof (proj1 (row0_same _ _ T) H0) as H0'.
      destruct (readSource_cases src) as [(text & Hd & _)|(e0 & He & _)].
      + split; [|split].
        * intros tree H. apply (C11_parse_iff_derivation t m src text tree P Hd) in H.
          destruct (derives_text_respelled t t' T text tree H) as (tree' & D & R).
          apply (C11_parse_iff_derivation t' m src text tree' P' Hd) in D. destruct D as (fuel & D). eauto.
        * intros tree' H.
          assert (A : exists fuel tr, parses_to fuel t' (Some m) src tr) by (destruct H as (fuel & H); eauto).
          apply (C11_parse_iff_rewriting t' m src text P' Hd) in A. destruct A as (q & A & B).
          apply (rewrites_star_same t t' T text) in A.
          destruct (proj2 (C11_parse_iff_rewriting t m src text P Hd)) as (fuel & tree & A2); [eauto|].
          exists fuel, tree. split; [exact A2|].
          assert (D : derives_text t text tree) by (apply (C11_parse_iff_derivation t m src text tree P Hd); eauto).
          destruct (derives_text_respelled t t' T text tree D) as (tree2 & D2 & R).
          apply (C11_parse_iff_derivation t' m src text tree' P' Hd) in H. rewrite (C11_tree_unique t' text tree' tree2 H D2). exact R.
        * intros e. rewrite (C19_error_diagnosis t m src text e P H0 Hd), (C19_error_diagnosis t' m src text e P' H0' Hd).
          split; intros (k & H); exists k; apply (refuses_same t t' T text), H.
      + unfold parses_to, fails_with, result.
        split; [|split].
        * intros tree (fuel & nm & H). rewrite (Parse_bad_source _ _ _ _ e0) in H by assumption. discriminate.
        * intros tree (fuel & nm & H). rewrite (Parse_bad_source _ _ _ _ e0) in H by assumption. discriminate.
        * intros e. split; intros (fuel & H); exists fuel; rewrite (Parse_bad_source _ _ _ _ e0) in H by assumption; rewrite (Parse_bad_source _ _ _ _ e0) by assumption; exact H.
    - pose proof (proj1 (no_row _ _ T 0%Z) Hn) as Hn'. unfold parses_to, fails_with, result.
      assert (Z0 : t = [] <-> t' = []).
      { clear - T. split; intros ->.
        - destruct t' as [|[k v] t']; [reflexivity|]. specialize (T k). cbn in T. rewrite Z.eqb_refl in T. destruct T.
        - destruct t as [|[k v] t]; [reflexivity|]. specialize (T k). cbn in T. rewrite Z.eqb_refl in T. destruct T. }
      split; [|split].
      + intros tree (fuel & nm & H). rewrite Parse_no_row0 in H by assumption. discriminate.
      + intros tree (fuel & nm & H). rewrite Parse_no_row0 in H by assumption. discriminate.
      + intros e. split; intros (fuel & H); exists fuel; rewrite Parse_no_row0 in H by assumption; rewrite Parse_no_row0 by assumption; cbn [po_result] in *.
        * destruct t, t'; try exact H; [discriminate (proj1 Z0 eq_refl)|discriminate (proj2 Z0 eq_refl)].
        * destruct t, t'; try exact H; [discriminate (proj1 Z0 eq_refl)|discriminate (proj2 Z0 eq_refl)]. }
  destruct Main as (M1 & M2 & M3). split; [exact M1|]. split; [exact M2|]. split; [exact M3|]. split; intros H fuel.
  - destruct (result fuel t' (Some m) src) as [r|e|q|] eqn:X; [|destruct e| |reflexivity]; exfalso.
    + destruct (C08_return_contract _ _ _ _ _ X) as [(tr & nm & ->)|(e & ->)].
      * destruct (M2 tr) as (f & tr2 & (nm2 & Y) & _); [exists fuel, nm; exact X|]. rewrite H in Y. discriminate.
      * destruct (proj2 (M3 e)) as (f & Y); [exists fuel; exact X|]. unfold fails_with in Y. rewrite H in Y. discriminate.
    + exact (C07_parse_never_panics _ _ _ _ _ P' X).
  - destruct (result fuel t (Some m) src) as [r|e|q|] eqn:X; [|destruct e| |reflexivity]; exfalso.
    + destruct (C08_return_contract _ _ _ _ _ X) as [(tr & nm & ->)|(e & ->)].
      * destruct (M1 tr) as (f & tr2 & (nm2 & Y) & _); [exists fuel, nm; exact X|]. rewrite H in Y. discriminate.
      * destruct (proj1 (M3 e)) as (f & Y); [exists fuel; exact X|]. unfold fails_with in Y. rewrite H in Y. discriminate.
    + exact (C07_parse_never_panics _ _ _ _ _ P X).
Qed.
Print Assumptions C98_parse.

(** FromGrammar: a grammar some of whose terminals are cut into several
    non-empty ones gives the same table but for the cuts, and the same names, or
    the same error, or the same panic. *)
Theorem C98_generated :
  forall order fuel g g',
    respelled_grammar g g' ->
    match FromGrammar_order order fuel g, FromGrammar_order order fuel g' with
    | Ok (tbl, names), Ok (tbl', names') => respelled_table tbl tbl' /\ names' = names
    | Err e, Err e' => e' = e
    | Panic q, Panic q' => q' = q
    | NoFuel, NoFuel => True
    | _, _ => False
    end.
Proof.
  intros order fuel g g' R. pose proof (FromGrammar_respelled g g' R order fuel) as S.
  destruct (FromGrammar_order order fuel g) as [(t, n)|e|q|], (FromGrammar_order order fuel g') as [(t', n')|e'|q'|];
    cbn in S; try contradiction; auto. destruct S. auto.
Qed.
Print Assumptions C98_generated.

(** Both together. *)
Theorem C98_pipeline :
  forall order order' fuel0 fuel0' g g' tbl tbl' names names' m src,
    respelled_grammar g g' ->
    FromGrammar_order order fuel0 g = Ok (tbl, names) ->
    FromGrammar_order order' fuel0' g' = Ok (tbl', names') ->
    (forall tree, (exists fuel, parses_to fuel tbl (Some m) src tree) ->
       exists fuel tree', parses_to fuel tbl' (Some m) src tree' /\ respelled_tree tree tree') /\
    (forall tree', (exists fuel, parses_to fuel tbl' (Some m) src tree') ->
       exists fuel tree, parses_to fuel tbl (Some m) src tree /\ respelled_tree tree tree') /\
    (forall e, (exists fuel, fails_with fuel tbl (Some m) src e) <-> (exists fuel, fails_with fuel tbl' (Some m) src e)) /\
    ((forall fuel, result fuel tbl (Some m) src = NoFuel) <-> (forall fuel, result fuel tbl' (Some m) src = NoFuel)).
Proof.
  intros order order' fuel0 fuel0' g g' tbl tbl' names names' m src R E E'.
  apply C98_parse; [exact (FromGrammar_public _ _ _ _ _ E)|exact (FromGrammar_public _ _ _ _ _ E')|].
  assert (X : FromGrammar_order order (fuel0 + fuel0') g = Ok (tbl, names)) by (rewrite FromGrammar_more; congruence).
  assert (X' : FromGrammar_order order' (fuel0 + fuel0') g' = Ok (tbl', names')) by (rewrite Nat.add_comm, FromGrammar_more; congruence).
  pose proof (C98_generated order (fuel0 + fuel0') g g' R) as S. rewrite X in S.
  unfold FromGrammar_order in S, X'. destruct (Run g' _ _ _ _) as [tb| | |]; cbn [gobind] in S, X'; try contradiction; try discriminate.
  injection X' as -> _. apply S.
Qed.
Print Assumptions C98_pipeline.

(** The pieces must not be empty. *)
Theorem C98_refuted_empty_piece :
  exists g g',
    g' = [ru "S" [[tm ""; tm "ab"]]] /\ g = [ru "S" [[tm "ab"]]] /\
    (exists r, FromGrammar 600 g = Ok r) /\ FromGrammar 600 g' = Panic PanicIndex.
Proof. eexists _, _. split; [reflexivity|]. split; [reflexivity|]. split; [eexists|]; vm_compute; reflexivity. Qed.
Print Assumptions C98_refuted_empty_piece.

(** "while" in one and in three pieces. *)
Definition loop1 : grammar := [ru "S" [[tm "while("; nt "S"; tm ")"]; [SNothing]]].
Definition loop2 : grammar := [ru "S" [[tm "wh"; tm "i"; tm "le("; nt "S"; tm ")"]; [SNothing]]].
Example C98_case :
  respelled_grammar loop1 loop2 /\
  FromGrammar 600 loop1 = Ok (gen_of loop1) /\ FromGrammar 600 loop2 = Ok (gen_of loop2) /\
  (exists tree tree',
    parses_to 100 (fst (gen_of loop1)) (Some []) (SrcString (s2b "while()")) tree /\
    parses_to 100 (fst (gen_of loop2)) (Some []) (SrcString (s2b "while()")) tree' /\
    tree = Node 0 0 7 [Node (-1) 0 6 []; Node 0 6 6 [Node (-2) 6 6 []]; Node (-1) 6 7 []] /\
    tree' = Node 0 0 7 [Node (-1) 0 2 []; Node (-1) 2 3 []; Node (-1) 3 6 []; Node 0 6 6 [Node (-2) 6 6 []]; Node (-1) 6 7 []]) /\
  fails_with 100 (fst (gen_of loop1)) (Some []) (SrcString (s2b "whale()")) (EExpectedChar (b8 105) (b8 97)) /\
  fails_with 100 (fst (gen_of loop2)) (Some []) (SrcString (s2b "whale()")) (EExpectedChar (b8 105) (b8 97)).
Proof.
  split.
  - constructor; [|constructor]. split; [reflexivity|]. constructor; [|constructor; [apply respelled_refl|constructor]].
    exists [[tm "wh"; tm "i"; tm "le("]; [nt "S"]; [tm ")"]]. split; [|reflexivity].
    constructor; [|repeat constructor]. apply (rs_cut _ [s2b "wh"; s2b "i"; s2b "le("]). split; [discriminate|]. split; [repeat constructor; discriminate|reflexivity].
  - split; [vm_compute; reflexivity|]. split; [vm_compute; reflexivity|].
    split; [eexists _, _; split; [eexists; vm_compute; reflexivity|split; [eexists; vm_compute; reflexivity|split; reflexivity]]|].
    split; vm_compute; reflexivity.
Qed.
