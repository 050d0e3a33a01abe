(** * Props_LeftRec: property C58, when Parse returns. *)
From Verif Require Import Base ByteSet Ast Cst Parser TableGen Spec_Parse Spec_Tree Spec_Grammar Spec_Table Spec_LeftRec
  GrammarProofs ParseApi ParseApi2 TreeProofs TGMain TGCells TGClosed TGParse TGCheck Props_Parser Props_TableGen TGLeftRec.
From Coq Require Import Relations.

(** For any table (no NUL byte in its terminals) and any source: Parse returns,
    unless it gets to a row that leads back to itself before the byte found
    there. *)
Theorem C58_returns_iff :
  forall tbl m src text,
    table_public tbl -> table_nulfree tbl -> has_row0 tbl -> delivers src text ->
    ((exists fuel, result fuel tbl (Some m) src <> NoFuel) <->
     (forall k n form, rewrites_star tbl text (0, [Row 0]) (k, Row n :: form) ->
        ~ left_recursive_row tbl (byte_at text k) n)).
Proof.
  intros tbl m src text P Nf R0 Hd. split.
  - intros (fuel & H) k n form R C. apply (reached_never tbl text _ k n form R C).
    destruct (result fuel tbl (Some m) src) as [r|e|q|] eqn:E; [|destruct e| |contradiction].
    + destruct (C08_return_contract _ _ _ _ _ E) as [(t & nm & ->)|(e & ->)].
      * assert (D : exists fuel t, parses_to fuel tbl (Some m) src t) by (exists fuel, t, nm; exact E).
        apply (C11_parse_iff_rewriting tbl m src text P Hd) in D. destruct D as (q & D & _).
        exists (q, []). split; [exact D|]. intros c' X. inversion X.
      * destruct (proj1 (C19_error_diagnosis tbl m src text e P R0 Hd)) as (k' & f & D & S); [exists fuel; exact E|].
        exists (k', f). split; [exact D|]. intros c'. eapply stuck_irreducible, S.
    + destruct (C07_parse_never_panics _ _ _ _ _ P E).
  - intros NC. apply (halts_parse tbl m src text P R0 Hd).
    apply (reached_halts tbl text Nf NC (length text) 0); [lia|lia|constructor].
Qed.
Print Assumptions C58_returns_iff.

(** So a table none of whose rows leads back to itself is safe on every source. *)
Theorem C58_no_cycle :
  forall tbl m src text,
    table_public tbl -> table_nulfree tbl -> has_row0 tbl -> delivers src text ->
    (forall c n, ~ left_recursive_row tbl c n) ->
    exists fuel, result fuel tbl (Some m) src <> NoFuel.
Proof.
  intros tbl m src text P Nf R0 Hd NC. apply (C58_returns_iff tbl m src text P Nf R0 Hd).
  intros k n form _. apply NC.
Qed.
Print Assumptions C58_no_cycle.

(** And every grammar without left recursion, LL(1) or not, conflicts or not:
    if FromGrammar makes a parser of it, that parser returns on every source. *)
Theorem C58_no_left_recursion :
  forall order fuel0 g tbl names m src text,
    NoDup (heads g) -> terminals_nulfree g -> (forall n, ~ left_recursive g n) ->
    FromGrammar_order order fuel0 g = Ok (tbl, names) -> delivers src text ->
    exists fuel, result fuel tbl (Some m) src <> NoFuel.
Proof.
  intros order fuel0 g tbl names m src text Nd Nf NL E Hd.
  apply (C58_no_cycle tbl m src text).
  - eapply FromGrammar_public, E.
  - eapply FromGrammar_nulfree; eassumption.
  - eapply FromGrammar_row0, E.
  - exact Hd.
  - intros c n H. destruct (row_left_recursive g tbl (FromGrammar_table _ _ _ _ _ Nd Nf E) c n H) as (a & Ha).
    exact (NL a Ha).
Qed.
Print Assumptions C58_no_left_recursion.

(** S ::= "a" S | "a":  not LL(1), yet its parser returns on every source. *)
Definition prefixes : grammar := [ru "S" [[tm "a"; nt "S"]; [tm "a"]]].
Example C58_case :
  NoDup (heads prefixes) /\ terminals_nulfree prefixes /\ (forall n, ~ left_recursive prefixes n) /\
  ~ first_disjoint prefixes /\
  exists x, FromGrammar (256 * length prefixes + 1) prefixes = Ok x.
Proof.
  split; [repeat constructor; intros []|]. split.
  { apply wf_nulfree, wfb_spec. vm_compute. reflexivity. }
  split.
  - intros n (s & v & Ha & Y).
    assert (G : forall u w, yields prefixes u w -> (exists c u', u = Ch c :: u') -> exists c w', w = Ch c :: w').
    { intros u w H. induction H as [u|u v' w S _ IH]; [auto|]. intros (c & u' & ->). apply IH.
      inversion S as [a m s' b Hm E1 E2]. destruct a as [|x a]; [discriminate|].
      injection E1 as -> _. cbn. eauto. }
    destruct (G _ _ Y) as (c & w & E); [|discriminate].
    destruct Ha as (r & [<-|[]] & _ & [<-|[<-|[]]]); cbn; eauto.
  - split.
    + intros D. apply (D (s2b "S") [tm "a"; nt "S"] [tm "a"] "a"%char).
      * exists (ru "S" [[tm "a"; nt "S"]; [tm "a"]]), [], [], []. cbn. auto.
      * exists [NT (s2b "S")]. apply ys_refl.
      * exists []. apply ys_refl.
    + eexists. vm_compute. reflexivity.
Qed.

(** The rows reached by left recursion do occur. *)
Example C58_cycle_case :
  left_recursive_row (fst (gen_of left_rec)) "_"%char 0.
Proof.
  apply t_step. split; [lia|]. eexists _, [], _. split; [eexists; split; vm_compute; reflexivity|].
  split; [reflexivity|constructor].
Qed.

(** With a NUL byte in a terminal Parse can also run on behind the end of the
    source for ever: the condition on terminals is needed. *)
Theorem C58_refuted_nul_terminal :
  exists tbl, table_public tbl /\ has_row0 tbl /\ (forall c n, ~ left_recursive_row tbl c n) /\
    forall fuel m, result fuel tbl (Some m) (SrcString []) = NoFuel.
Proof.
  set (tbl := [(0%Z, [(NUL, [OpTerminal [NUL]; OpNonTerminal 0])])]).
  assert (P : table_public tbl).
  { intros n r c ops [E|[]]. injection E as <- <-. intros [E|[]]. injection E as <- <-. repeat constructor. }
  assert (R0 : has_row0 tbl) by (eexists; reflexivity).
  assert (Cell : forall n c ops, cell tbl n c ops -> n = 0%Z /\ ops = [OpTerminal [NUL]; OpNonTerminal 0]).
  { intros n c ops (r & A & B). cbn in A. destruct (Z.eqb_spec n 0) as [->|N]; [|discriminate].
    injection A as <-. cbn in B. destruct (Ascii.eqb c NUL); [|discriminate]. injection B as <-. auto. }
  exists tbl. split; [exact P|]. split; [exact R0|]. split.
  - intros c n H.
    assert (X : forall a b, leads tbl c a b -> False).
    { intros a b (_ & ops & u & v & Hc & E & V). destruct (Cell _ _ _ Hc) as (_ & ->). cbn in E.
      destruct u as [|x u]; [discriminate|]. injection E as <- _. inversion V. }
    unfold left_recursive_row in H. induction H as [x y H|x y z _ IH _ _]; [exact (X _ _ H)|exact IH].
  - intros fuel m. destruct (result fuel tbl (Some m) (SrcString [])) as [r|e|q|] eqn:E; [|destruct e| |reflexivity].
    + exfalso.
      assert (H : halts tbl [] (0, [Row 0])).
      { destruct (C08_return_contract _ _ _ _ _ E) as [(t & nm & ->)|(e & ->)].
        - assert (D : exists fuel t, parses_to fuel tbl (Some m) (SrcString []) t) by (exists fuel, t, nm; exact E).
          apply (C11_parse_iff_rewriting tbl m _ [] P (dl_string [])) in D. destruct D as (q & D & _).
          exists (q, []). split; [exact D|]. intros c' X. inversion X.
        - destruct (proj1 (C19_error_diagnosis tbl m _ [] e P R0 (dl_string []))) as (k' & f & D & S); [exists fuel; exact E|].
          exists (k', f). split; [exact D|]. intros c'. eapply stuck_irreducible, S. }
      destruct H as (d & Hd & I). destruct (rws_rwn _ _ _ _ Hd) as (n & Hn).
      clear Hd. revert Hn. generalize 0 at 1. revert n.
      induction n as [n IH] using lt_wf_ind. intros k Hn.
      assert (B : byte_at [] k = NUL) by (unfold byte_at; destruct k; reflexivity).
      assert (S1 : rewrites tbl [] (k, [Row 0]) (k, [Byte NUL; Row 0])).
      { apply (rw_row tbl [] 0 [OpTerminal [NUL]; OpNonTerminal 0]); [lia|]. rewrite B. eexists. split; reflexivity. }
      assert (S2 : rewrites tbl [] (k, [Byte NUL; Row 0]) (S k, [Row 0])) by (apply rw_byte, B).
      inversion Hn as [a|n1 a b ? T1 Hn1]; subst; [exact (I _ S1)|].
      rewrite (rewrites_det _ _ _ _ _ T1 S1) in Hn1.
      inversion Hn1 as [a|n2 a b' ? T2 Hn2]; subst; [exact (I _ S2)|].
      rewrite (rewrites_det _ _ _ _ _ T2 S2) in Hn2.
      apply (IH n2 ltac:(lia) (S k) Hn2).
    + destruct (C07_parse_never_panics _ _ _ _ _ P E).
Qed.
Print Assumptions C58_refuted_nul_terminal.
