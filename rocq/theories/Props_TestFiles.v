(** * Props_TestFiles: properties C110 and C111, the tests with reference files. *)
From Verif Require Import Base ByteSet Ast Cst Parser TableGen FromCst TestTools TestToolsProofs GoFmt GoFmtProofs GoFmtProofs2
  TestFiles RefTables RefTexts ExamplesModel Spec_Parse Spec_Tree Spec_Grammar Spec_Messages MessagesProofs Spec_TestTools
  Spec_TestFiles Spec_Lookup ParseApi ParserProofs TGFirsts TGClosed SelfGrammar Props_TestTools Props_Parser Props_TableGen Props_Lookup.
From Coq Require Import Permutation.

Lemma buffer_blocks s : exists l, read_in_blocks bufsize s l /\ buffer s = plain l.
Proof.
  unfold buffer. enough (X : forall n s, length s <= n -> exists l, read_in_blocks bufsize s l /\ reads n s = plain l)
    by (apply X; lia). clear s.
  induction n as [|n IH]; intros [|c s] L; cbn [length] in L; try lia; try (exists []; split; [constructor|reflexivity]).
  destruct (IH (skipn bufsize (c :: s))) as (l & R & E).
  { rewrite skipn_length. pose proof bufsize_pos. cbn [length]. lia. }
  exists (firstn bufsize (c :: s) :: l). split; [constructor; [discriminate|exact R]|].
  cbn [reads]. rewrite E. reflexivity.
Qed.

(** The comparison of a file with a printed text. *)
Lemma compare_file s s' l : read_in_blocks bufsize s l ->
  (ReaderContentMustBeEqual (plain l) (buffer s') = true <->
   stale_extension bufsize s s' \/ stale_extension bufsize s' s).
Proof. intros R. destruct (buffer_blocks s') as (l' & R' & ->). apply C62_passes_iff; assumption. Qed.

Lemma stale_refl s : stale_extension bufsize s s.
Proof. split; [lia|]. split; [reflexivity|]. split; [apply firstn_all|lia]. Qed.
Lemma stale_prefix s s' : stale_extension bufsize s s' -> exists x, s ++ x = s' ++ [].
Proof.
  intros (_ & _ & F & _). exists (skipn (length s) s'). rewrite app_nil_r, <- F at 1. apply firstn_skipn.
Qed.

(** ** C110: tables *)

Lemma form_public tbl : table_public tbl -> Forall TEntryP (table_form tbl).
Proof.
  intros H. unfold table_form. rewrite Forall_map, Forall_forall. intros [n r] I. unfold TEntryP, RowP. cbn [fst snd].
  rewrite Forall_forall. intros [c ops] J. unfold EntryP, CellP, public. cbn [snd].
  apply in_entries in I. apply in_row_entries in J.
  eapply H; [eapply map_get_in; [apply Z.eqb_eq|exact I]|eapply map_get_in; [apply Ascii.eqb_eq|exact J]].
Qed.

Lemma form_same t t' : table_form t = table_form t' <-> same_table t t'.
Proof.
  unfold table_form. rewrite (entries_eq row_entries t t'). unfold same_table.
  assert (X : forall a b : option row, option_map row_entries a = option_map row_entries b <->
    match a, b with
    | Some r1, Some r2 => forall c, map_get Ascii.eqb c r1 = map_get Ascii.eqb c r2
    | None, None => True
    | _, _ => False
    end).
  { intros [a|] [b|]; unfold option_map.
    - rewrite <- row_entries_eq. split; [intros E; injection E as E; exact E|intros ->; reflexivity].
    - split; [intros E; discriminate E|intros []].
    - split; [intros E; discriminate E|intros []].
    - tauto. }
  split; intros H n; apply X, H.
Qed.

(** The text of a table is the same exactly for tables with the same cells. *)
Theorem C110_text :
  forall isprint del_u t t',
    table_public t -> table_public t' ->
    (GoTable isprint del_u t = GoTable isprint del_u t' <-> same_table t t').
Proof.
  intros isprint del_u t t' P P'. rewrite <- form_same. split.
  - intros E. apply (f_equal (fun s => s ++ [])) in E. apply table_read in E as [E _]; [exact E| |]; apply form_public; assumption.
  - intros E. rewrite !GoTable_form, E. reflexivity.
Qed.
Print Assumptions C110_text.

(** The table tests pass on the text of a table exactly if FromGrammar returns
    that table, in spite of C62. *)
Theorem C110_table_test :
  forall isprint del_u order fuel ref g l,
    table_public ref -> read_in_blocks bufsize (GoTable isprint del_u ref) l ->
    (table_test isprint del_u order fuel (Some (plain l)) g = Ok true <->
     exists tbl names, FromGrammar_order order fuel g = Ok (tbl, names) /\ same_table ref tbl).
Proof.
  intros isprint del_u order fuel ref g l P R. unfold table_test.
  destruct (FromGrammar_order order fuel g) as [[tbl names]|e|p|] eqn:E;
    try (split; [discriminate|intros (t & n & X & _); discriminate X]).
  assert (P' : table_public tbl) by (eapply FromGrammar_public; exact E).
  pose proof (compare_file _ (GoTable isprint del_u tbl) _ R) as C.
  assert (X : ReaderContentMustBeEqual (plain l) (buffer (GoTable isprint del_u tbl)) = true <-> same_table ref tbl).
  { rewrite C. rewrite <- form_same. pose proof (form_public _ P) as F. pose proof (form_public _ P') as F'. split.
    - intros [[x Ex]%stale_prefix|[x Ex]%stale_prefix].
      + eapply table_read; [exact F|exact F'|exact Ex].
      + symmetry. eapply table_read; [exact F'|exact F|exact Ex].
    - intros Ef. assert (Et : GoTable isprint del_u tbl = GoTable isprint del_u ref) by (rewrite !GoTable_form, Ef; reflexivity).
      rewrite Et. left. apply stale_refl. }
  split.
  - intros [= H]. exists tbl, names. split; [reflexivity|]. apply X, H.
  - intros (t & n & [= <- <-] & H). f_equal. apply X, H.
Qed.
Print Assumptions C110_table_test.

(** So a passed test says that the generated parser behaves like the recorded one. *)
Theorem C110_passed_test :
  forall isprint del_u order fuel0 ref g l,
    table_public ref -> table_get 0 ref <> None ->
    read_in_blocks bufsize (GoTable isprint del_u ref) l ->
    table_test isprint del_u order fuel0 (Some (plain l)) g = Ok true ->
    exists tbl names, FromGrammar_order order fuel0 g = Ok (tbl, names) /\
      forall m fuel src, same_outcome (Parse fuel (NewLL1Parser tbl m) src) (Parse fuel (NewLL1Parser ref m) src).
Proof.
  intros isprint del_u order fuel0 ref g l P Z0 R H. apply (C110_table_test _ _ _ _ _ _ _ P R) in H as (tbl & names & E & S).
  exists tbl, names. split; [exact E|]. intros m fuel src.
  assert (Rows : forall n, same_row (table_get n tbl) (table_get n ref)).
  { intros n. specialize (S n). unfold same_row, table_get, row_get.
    destruct (map_get Z.eqb n ref), (map_get Z.eqb n tbl); try contradiction; try exact I.
    intros c. symmetry. apply S. }
  apply C69_lookups.
  - specialize (Rows 0%Z). destruct (table_get 0 tbl); [discriminate|]. cbn in Rows. destruct (table_get 0 ref); [contradiction|congruence].
  - intros n _ _. apply Rows.
  - split; [tauto|reflexivity].
Qed.
Print Assumptions C110_passed_test.

(** TestLRecursiveGrammarToParsingTableResErr, which expects an error for the
    left-recursive test grammar, never passes. *)
Theorem C110_refuted_error_test :
  forall order fuel, (forall l, Permutation (order l) l) -> error_test order fuel LRecursive <> Ok true.
Proof.
  intros order fuel Po H. unfold error_test in H.
  assert (E : FromGrammar_order (fun l => l) (fuel + 300) LRecursive <> NoFuel) by (apply C21_terminates; cbn; lia).
  assert (N : FromGrammar_order order fuel LRecursive <> NoFuel)
    by (intros N; rewrite N in H; discriminate H).
  pose proof (C21_one_result order LRecursive fuel 300 N) as M.
  pose proof (C32_order_irrelevant order (fun l => l) (fuel + 300) LRecursive Po (fun l => Permutation_refl l)) as O.
  rewrite M in O.
  assert (K : exists t n, FromGrammar_order (fun l => l) 300 LRecursive = Ok (t, n))
    by (eexists; eexists; vm_compute; reflexivity).
  destruct K as (t & n & K).
  pose proof (C21_one_result (fun l => l) LRecursive 300 fuel) as M'. rewrite K in M'.
  rewrite Nat.add_comm in M'. rewrite M' in O by discriminate.
  destruct (FromGrammar_order order fuel LRecursive) as [[? ?]|e|p|]; try contradiction. discriminate H.
Qed.
Print Assumptions C110_refuted_error_test.

(** The reference files of the repository are such texts, and the tests pass. *)
Definition yes (_ : N) : bool := true.
Lemma file_eq a b : bytes_eqb a b = true -> a = b.
Proof. apply bytes_eqb_eq. Qed.
Example C110_files :
  GoTable yes false ref_linear = file_table_linear /\ GoTable yes false ref_or = file_table_or /\
  GoTable yes false ref_resolved = file_table_resolved /\ GoTable yes false ref_bnf = file_table_bnf.
Proof. repeat split; apply file_eq; vm_compute; reflexivity. Qed.
Example C110_case :
  table_test yes false (fun l => l) 100 (Some (buffer file_table_linear)) LinearMultiRule = Ok true /\
  table_test yes false (fun l => l) 100 (Some (buffer file_table_or)) OrGrammar = Ok true /\
  table_test yes false (fun l => l) 100 (Some (buffer file_table_resolved)) ResolvedLRecursive = Ok true /\
  table_test yes false (fun l => l) 100 (Some (buffer file_table_or)) LinearMultiRule = Ok false /\
  error_test (fun l => l) 300 LRecursive = Ok false.
Proof. repeat split; vm_compute; reflexivity. Qed.
Example C110_text_case :
  GoTable (fun n => (n <? 256)%N) false
    [(0, [("B"%char, [OpTerminal [DQ; "B"; LF; BSL; "000"; "127"; "195"; "169"; "226"; "130"; "172"; "240"; "159"; "152"; "128"; "255"]%char; OpNonTerminal (-7)]);
           ("A"%char, [])]); (-3, [])]%Z
  = s2b "map[int]map[uint8][]parser.ParserOp{-3:map[uint8][]parser.ParserOp{}, 0:map[uint8][]parser.ParserOp{0x41:[]parser.ParserOp{}, 0x42:[]parser.ParserOp{parser.terminal_t{value:""\""B\n\\\x00\x7f" ++ ["195"; "169"]%char ++ s2b "\u20ac\U0001f600\xff""}, parser.nonTerminal_t{name:-7}}}}".
Proof. vm_compute. reflexivity. Qed.

(** ** C111: trees, naming maps, errors *)

Section Perform.
  Variables (fuel : nat) (tbl : table) (m : list (Z * bytes)).

  Definition passes (c : ptest) : Prop :=
    let src := SrcString (fst c) in
    match snd c with
    | ExpError t => exists e, fails_with fuel tbl (Some m) src e /\ perror_string e = t
    | ExpFiles (Some ft) (Some fn) =>
        exists t nm, result fuel tbl (Some m) src = Ok (mkRet (Some t) (Some (Some nm)) None) /\
          ReaderContentMustBeEqual ft (buffer (GoTree t)) = true /\
          ReaderContentMustBeEqual fn (buffer (GoNames nm)) = true
    | _ => False
    end.

  Definition history_map (m' : list (Z * bytes)) : Prop := m' = m \/ m' = names_after m.

  Lemma history_result m' src : history_map m' -> result fuel tbl (Some m') src = result fuel tbl (Some m) src.
  Proof. intros [->| ->]; [reflexivity|apply result_after]. Qed.
  Lemma history_names m' src : history_map m' ->
    exists m'', po_names (Parse fuel (NewLL1Parser tbl (Some m')) src) = Some m'' /\ history_map m''.
  Proof.
    intros H. rewrite names_left.
    assert (A : history_map (names_after m')) by (destruct H as [->| ->]; right; [reflexivity|apply names_after_idem]).
    destruct (result fuel tbl (Some m') src) as [[? ? [?|]]| | |]; eexists; (split; [reflexivity|assumption]).
  Qed.

  Lemma perform_iff tests : forall m' ok, history_map m' ->
    (perform fuel tbl (Some m') ok tests = Ok true <-> ok = true /\ Forall passes tests).
  Proof.
    induction tests as [|[input exp] tests IH]; intros m' ok H.
    - cbn. split; [intros [= ->]; auto|intros [-> _]; reflexivity].
    - cbn [perform].
      destruct (history_names m' (SrcString input) H) as (m'' & En & H'').
      pose proof (history_result m' (SrcString input) H) as Er. unfold result at 1 in Er. rewrite En, Er.
      assert (F : forall P : Prop, (False <-> P) -> (ok = true /\ P /\ Forall passes tests <-> False)) by tauto.
      assert (FC : Forall passes ((input, exp) :: tests) <-> passes (input, exp) /\ Forall passes tests)
        by (split; [inversion 1; auto|intros []; constructor; assumption]).
      rewrite FC. unfold passes at 1. cbn [fst snd].
      destruct exp as [text|[ft|] [fn|]]; try (split; [discriminate|tauto]).
      + unfold fails_with. destruct (result fuel tbl (Some m) (SrcString input)) as [r|[]|p|] eqn:E;
          try (split; [discriminate|intros (_ & (e & X & _) & _); discriminate X]).
        destruct (C08_return_contract _ _ _ _ _ E) as [(t & nm & ->)|(e & ->)]; cbn [r_err r_tree r_names].
        * split; [discriminate|intros (_ & (e & X & _) & _); discriminate X].
        * destruct (bytes_eqb (perror_string e) text) eqn:B.
          -- apply bytes_eqb_eq in B. rewrite IH by exact H''. split.
             ++ intros [K L]. repeat split; try assumption. exists e. auto.
             ++ tauto.
          -- apply bytes_eqb_spec2 in B. split; [discriminate|]. intros (_ & (e' & [= <-] & X) & _). contradiction.
      + destruct (result fuel tbl (Some m) (SrcString input)) as [r|[]|p|] eqn:E;
          try (split; [discriminate|intros (_ & (t & nm & X & _) & _); discriminate X]).
        destruct (C08_return_contract _ _ _ _ _ E) as [(t & nm & ->)|(e & ->)]; cbn [r_err r_tree r_names].
        * rewrite IH by exact H''. rewrite !andb_true_iff. split.
          -- intros [[[K L] M] N]. repeat split; try assumption. exists t, nm. auto.
          -- intros (K & (t' & nm' & [= <- <-] & L & M) & N). auto.
        * split; [discriminate|intros (_ & (t & nm & X & _) & _); discriminate X].
  Qed.
End Perform.

Lemma tree_compare t t' l : read_in_blocks bufsize (GoTree t) l ->
  (ReaderContentMustBeEqual (plain l) (buffer (GoTree t')) = true <-> t = t').
Proof.
  intros R. rewrite (compare_file _ _ _ R). split.
  - intros [[x E]%stale_prefix|[x E]%stale_prefix]; apply tree_read in E as [-> _]; reflexivity.
  - intros ->. left. apply stale_refl.
Qed.

Lemma entries_same (m m' : list (Z * bytes)) : entries m = entries m' <-> same_map m m'.
Proof.
  pose proof (entries_eq (fun v : bytes => v) m m') as H.
  assert (I : forall e : list (Z * bytes), map (fun e => (fst e, snd e)) e = e).
  { intros l. rewrite <- map_id. apply map_ext. intros []. reflexivity. }
  rewrite !I in H. rewrite H. unfold same_map.
  split; intros X k; specialize (X k); destruct (map_get Z.eqb k m), (map_get Z.eqb k m'); cbn in *; congruence.
Qed.

Lemma names_compare m m' l : simple_names m -> simple_names m' -> read_in_blocks bufsize (GoNames m) l ->
  (ReaderContentMustBeEqual (plain l) (buffer (GoNames m')) = true <-> same_map m m').
Proof.
  intros S S' R. rewrite (compare_file _ _ _ R), <- entries_same.
  assert (F : forall m, simple_names m -> Forall NameP (entries m)).
  { clear. intros m S. rewrite Forall_forall. intros [k v] H. apply in_entries in H. exact (S _ _ H). }
  split.
  - intros [[x E]%stale_prefix|[x E]%stale_prefix]; apply names_read in E as [E _]; auto.
  - intros E. unfold GoNames. rewrite E. left. apply stale_refl.
Qed.

Lemma after_simple m : simple_names m -> simple_names (names_after m).
Proof.
  intros S k s. rewrite names_after_get. unfold simple_name.
  destruct (k =? -2)%Z; [intros [= <-]|destruct (k =? -1)%Z; [intros [= <-]|apply S]];
    (split; intros H; cbn in H; intuition discriminate).
Qed.

(** A test case as the repository has them: the two files hold the printed tree
    and the printed names. *)
Inductive recorded : bytes * wish -> ptest -> Prop :=
| rec_error input text : recorded (input, WishError text) (input, ExpError text)
| rec_tree input t m l l' :
    read_in_blocks bufsize (GoTree t) l -> read_in_blocks bufsize (GoNames m) l' -> simple_names m ->
    recorded (input, WishTree t m) (input, ExpFiles (Some (plain l)) (Some (plain l'))).

(** The parser tests pass exactly if a fresh parser does in each case what was
    recorded, whatever the order of the cases. *)
Theorem C111_parser_tests :
  forall fuel tbl m0 cases tests,
    simple_names m0 -> Forall2 recorded cases tests ->
    (performTestsOnParser fuel tbl (Some m0) tests = Ok true <->
     Forall (fun c => granted fuel tbl m0 (fst c) (snd c)) cases).
Proof.
  intros fuel tbl m0 cases tests S R. unfold performTestsOnParser.
  rewrite (perform_iff fuel tbl m0 tests m0 true (or_introl eq_refl)).
  assert (X : Forall (passes fuel tbl m0) tests <-> Forall (fun c => granted fuel tbl m0 (fst c) (snd c)) cases).
  { induction R as [|c t cases tests Rc R IH]; [split; constructor|].
    assert (Y : passes fuel tbl m0 t <-> granted fuel tbl m0 (fst c) (snd c)).
    { destruct Rc as [input text|input t m l l' Rt Rn Sm]; unfold passes; cbn [fst snd granted].
      - split; intros (e & He & E); exists e; (split; [exact He|]).
        + rewrite <- E. apply message_string.
        + eapply message_fun; [apply message_string|exact E].
      - split.
        + intros (t' & nm & E & T & N). apply (tree_compare _ _ _ Rt) in T as <-.
          destruct (names_returned _ _ _ _ _ _ _ E) as [[= ->] _].
          exists (names_after m0). split; [exact E|].
          apply (names_compare m (names_after m0) l' Sm (after_simple _ S) Rn), N.
        + intros (nm & E & Q). exists t, nm. split; [exact E|]. split; [apply (tree_compare _ _ _ Rt); reflexivity|].
          destruct (names_returned _ _ _ _ _ _ _ E) as [[= ->] _].
          apply (names_compare m (names_after m0) l' Sm (after_simple _ S) Rn), Q. }
    split; intros H; inversion H; subst; constructor; tauto. }
  tauto.
Qed.
Print Assumptions C111_parser_tests.

(** Names with blanks or brackets: different naming maps can print alike. *)
Theorem C111_refuted_names :
  exists m m', GoNames m = GoNames m' /\ ~ same_map m m'.
Proof.
  exists [(0%Z, s2b "a 1:b")], [(0%Z, s2b "a"); (1%Z, s2b "b")]. split; [vm_compute; reflexivity|].
  intros H. specialize (H 1%Z). discriminate H.
Qed.
Print Assumptions C111_refuted_names.

(** No test case depends on another: any order, any selection, also for names
    and files of any kind. *)
Theorem C111_independent :
  forall fuel tbl m0 tests,
    performTestsOnParser fuel tbl (Some m0) tests = Ok true <->
    Forall (fun t => performTestsOnParser fuel tbl (Some m0) [t] = Ok true) tests.
Proof.
  intros fuel tbl m0 tests. unfold performTestsOnParser.
  rewrite (perform_iff fuel tbl m0 tests m0 true (or_introl eq_refl)).
  rewrite Forall_forall, (Forall_forall _ tests). split.
  - intros [_ H] t I. apply (perform_iff fuel tbl m0 [t] m0 true (or_introl eq_refl)). split; [reflexivity|].
    constructor; [apply H, I|constructor].
  - intros H. split; [reflexivity|]. intros t I. specialize (H t I).
    apply (perform_iff fuel tbl m0 [t] m0 true (or_introl eq_refl)) in H as [_ H]. inversion H. assumption.
Qed.
Print Assumptions C111_independent.

(** The test cases with the files that updateTestsOnParser has written. *)
Definition rerun (c : bytes * (bytes + bytes * bytes)) : ptest :=
  (fst c, match snd c with
          | inl e => ExpError e
          | inr (a, b) => ExpFiles (Some (buffer a)) (Some (buffer b))
          end).
Definition error_kept (fuel : nat) (tbl : table) (m0 : list (Z * bytes)) (c : bytes * option bytes) : Prop :=
  match snd c with
  | None => True
  | Some text => exists e, fails_with fuel tbl (Some m0) (SrcString (fst c)) e /\ message e text
  end.

(** After updateTestsOnParser the tests pass, with any names, if the cases that
    expect an error get it (those are not updated). *)
Theorem C111_update :
  forall fuel tbl m0 tests written,
    updateTestsOnParser fuel tbl (Some m0) tests = Ok (Some written) ->
    (performTestsOnParser fuel tbl (Some m0) (map rerun written) = Ok true <->
     Forall (error_kept fuel tbl m0) tests).
Proof.
  intros fuel tbl m0 tests written U. unfold performTestsOnParser.
  rewrite (perform_iff fuel tbl m0 _ m0 true (or_introl eq_refl)).
  enough (X : Forall (passes fuel tbl m0) (map rerun written) <-> Forall (error_kept fuel tbl m0) tests) by tauto.
  assert (H : history_map m0 m0) by (left; reflexivity). revert U H. generalize m0 at 1 3. revert written.
  induction tests as [|[input [e|]] tests IH]; intros written m' U H; cbn [updateTestsOnParser] in U.
  - injection U as <-. split; constructor.
  - destruct (updateTestsOnParser fuel tbl (Some m') tests) as [[l|]|[]|p|] eqn:E; try discriminate U. injection U as <-.
    specialize (IH l m' E H). cbn [map].
    assert (Y : passes fuel tbl m0 (rerun (input, inl e)) <-> error_kept fuel tbl m0 (input, Some e)).
    { unfold passes, error_kept. cbn. split; intros (e' & He & E'); exists e'; (split; [exact He|]).
      - rewrite <- E'. apply message_string.
      - eapply message_fun; [apply message_string|exact E']. }
    split; intros X; inversion X; subst; constructor; tauto.
  - destruct (history_names fuel tbl m0 m' (SrcString input) H) as (m'' & En & H'').
    pose proof (history_result fuel tbl m0 m' (SrcString input) H) as Er. unfold result at 1 in Er. rewrite En, Er in U.
    destruct (result fuel tbl (Some m0) (SrcString input)) as [r|[]|p|] eqn:E; try discriminate U.
    destruct (C08_return_contract _ _ _ _ _ E) as [(t & nm & ->)|(e & ->)]; cbn [r_err r_tree r_names] in U; [|discriminate U].
    destruct (updateTestsOnParser fuel tbl (Some m'') tests) as [[l|]|[]|p|] eqn:E2; try discriminate U. injection U as <-.
    specialize (IH l m'' E2 H''). cbn [map].
    assert (Y : passes fuel tbl m0 (rerun (input, inr (GoTree t, GoNames nm)))).
    { unfold passes, rerun. cbn [fst snd]. exists t, nm. split; [exact E|].
      destruct (buffer_blocks (GoTree t)) as (a & Ra & Ea). destruct (buffer_blocks (GoNames nm)) as (b & Rb & Eb).
      rewrite Ea at 1. rewrite Eb at 1.
      split; [apply (proj2 (compare_file _ _ _ Ra))|apply (proj2 (compare_file _ _ _ Rb))]; left; apply stale_refl. }
    split; intros X; inversion X; subst; constructor; try tauto; try exact I.
Qed.
Print Assumptions C111_update.

(** TestParserParseNamingMap passes exactly if FromGrammar accepts the grammar
    and the parser accepts the source. *)
Lemma fold_names (m : list (Z * bytes)) k ks : forall acc,
  map_get Z.eqb k (fold_left (fun acc k => match map_get Z.eqb k m with
                                           | Some v => map_set Z.eqb k v acc
                                           | None => acc
                                           end) ks acc) =
  if existsb (Z.eqb k) ks then match map_get Z.eqb k m with Some v => Some v | None => map_get Z.eqb k acc end
  else map_get Z.eqb k acc.
Proof.
  induction ks as [|a ks IH]; intros acc; [reflexivity|]. cbn [fold_left existsb]. rewrite IH.
  destruct (Z.eqb_spec k a) as [<-|N]; cbn [orb].
  - destruct (map_get Z.eqb k m) as [v|] eqn:E; [|destruct (existsb (Z.eqb k) ks); reflexivity].
    destruct (existsb (Z.eqb k) ks); [reflexivity|]. rewrite map_set_get, Z.eqb_refl. reflexivity.
  - destruct (map_get Z.eqb a m) as [v|]; [|reflexivity]. rewrite map_set_get.
    destruct (Z.eqb_spec k a); [contradiction|reflexivity].
Qed.

Theorem C111_naming_test :
  forall order o0 o1 o2 o3 fuel0 fuel g src,
    (forall l, Permutation (order l) l) -> (forall l, Permutation (o0 l) l) -> (forall l, Permutation (o1 l) l) ->
    (forall l, Permutation (o2 l) l) -> (forall l, Permutation (o3 l) l) ->
    (naming_test order o0 o1 o2 o3 fuel0 fuel g src = Ok true <->
     exists tbl names t, FromGrammar_order order fuel0 g = Ok (tbl, names) /\
                         parses_to fuel tbl (Some names) (SrcString src) t).
Proof.
  intros order o0 o1 o2 o3 fuel0 fuel g src Po P0 P1 P2 P3. unfold naming_test.
  destruct (FromGrammar_order order fuel0 g) as [[tbl names]|e|p|] eqn:E;
    try (split; [discriminate|intros (a & b & c & X & _); discriminate X]).
  pose proof (C25_names _ _ _ _ _ Po E) as N.
  assert (Neg : existsb (fun e => (fst e <? 0)%Z) names = false).
  { apply not_true_is_false. intros H. apply existsb_exists in H as ([k v] & I & L). cbn in L. apply Z.ltb_lt in L.
    destruct (key_map_get k names) as [w Hw]; [apply in_map_iff; exists (k, v); auto|].
    apply N in Hw as (i & -> & _). lia. }
  rewrite Neg. fold (result fuel tbl (Some names) (SrcString src)).
  destruct (result fuel tbl (Some names) (SrcString src)) as [r|[]|p|] eqn:Er;
    try (split; [discriminate|intros (a & b & c & [= <- <-] & (nm & X)); rewrite Er in X; discriminate X]).
  destruct (C08_return_contract _ _ _ _ _ Er) as [(t & nm & ->)|(e & ->)]; cbn [r_err r_names];
    [|split; [discriminate|intros (a & b & c & [= <- <-] & (nm & X)); rewrite Er in X; discriminate X]].
  split; [intros _; exists tbl, names, t; split; [reflexivity|exists nm; exact Er]|]. intros _. f_equal.
  destruct (names_returned _ _ _ _ _ _ _ Er) as [[= ->] _].
  match goal with |- snd (IsMapsIntStringEqual _ _ _ ?ref _) = true => set (rf := ref) end.
  destruct (IsMapsIntStringEqual o1 o2 o3 rf (names_after names)) as [[[ad bd] mm] eq] eqn:Eq. cbn [snd].
  apply (C61_map_comparison _ _ _ _ _ _ _ _ _ P1 P2 P3 Eq). intros k. unfold rf. rewrite fold_names, names_after_get.
  assert (Ex : existsb (Z.eqb k) (o0 (map fst names)) = match map_get Z.eqb k names with Some _ => true | None => false end).
  { destruct (map_get Z.eqb k names) as [v|] eqn:G.
    - apply existsb_exists. exists k. split; [|apply Z.eqb_refl]. eapply Permutation_in; [symmetry; apply P0|].
      eapply map_get_key, G.
    - apply not_true_is_false. intros H. apply existsb_exists in H as (k' & I & Q). apply Z.eqb_eq in Q as <-.
      eapply Permutation_in in I; [|apply P0]. destruct (key_map_get _ _ I) as [v Hv]. congruence. }
  rewrite Ex. destruct (map_get Z.eqb k names) as [v|] eqn:G.
  - apply N in G as (i & -> & _). destruct (Z.eqb_spec (Z.of_nat i) (-2)); [lia|].
    destruct (Z.eqb_spec (Z.of_nat i) (-1)); [lia|reflexivity].
  - cbn [map_get]. destruct (Z.eqb_spec k (-2)) as [->|]; [reflexivity|].
    destruct (Z.eqb_spec k (-1)) as [->|]; reflexivity.
Qed.
Print Assumptions C111_naming_test.

(** The parser tests of the repository with its reference files. *)
Definition parser_test (g : grammar) (tests : list ptest) : gores Empty_set bool :=
  match FromGrammar 100 g with
  | Ok (tbl, names) => performTestsOnParser 1000 tbl (Some names) tests
  | _ => Ok false
  end.
Definition files (a b : bytes) : expected := ExpFiles (Some (buffer a)) (Some (buffer b)).
Example C111_case :
  parser_test LinearMultiRule                              (* parser_test.go:188-239 *)
    [(s2b "A::=C", files file_linear10 file_linear11);
     (s2b "!::=C", ExpError (s2b "no rules for '!' (33) and non terminal op <Expr>"));
     (s2b "A:!=C", ExpError (s2b "expected char ':' (58), got '!' (33)"));
     (s2b "A::=!", ExpError (s2b "no rules for '!' (33) and non terminal op <T>"));
     (s2b "A::=C!", ExpError (s2b "expected end of input got '!' (33)"))] = Ok true /\
  parser_test OrGrammar                                    (* 241-273 *)
    [([DQ; "B"; "^"]%char, files file_or10 file_or11); ([DQ; "^"]%char, files file_or20 file_or21)] = Ok true /\
  parser_test ResolvedLRecursive                           (* 275-315 *)
    [(s2b "_B", files file_resolved10 file_resolved11); (s2b "_", files file_resolved20 file_resolved21);
     (s2b "_BBBBBBB", files file_resolved30 file_resolved31)] = Ok true /\
  parser_test OrGrammar [([DQ; "B"; "^"]%char, files file_or20 file_or21)] = Ok false /\
  (exists tbl names, FromGrammar 100 OrGrammar = Ok (tbl, names) /\
     updateTestsOnParser 1000 tbl (Some names) [([DQ; "B"; "^"]%char, None); ([DQ; "^"]%char, None)] =
     Ok (Some [([DQ; "B"; "^"]%char, inr (file_or10, file_or11)); ([DQ; "^"]%char, inr (file_or20, file_or21))])).
Proof.
  repeat (match goal with |- _ /\ _ => split end; [vm_compute; reflexivity|]).
  eexists. eexists. split; [vm_compute; reflexivity|]. vm_compute. reflexivity.
Qed.
