(** * Props_Parser: properties C06 - C20 of the tree walker and of Parse.

    Reading guide: [result fuel tbl names src] is what the call
    [NewLL1Parser(tbl, names).Parse(src)] gives when its loop is allowed [fuel]
    iterations ([NoFuel]: still running); [parses_to .. t] and [fails_with .. e]
    say that it returned the tree [t] resp. the error [e]; [delivers src text]
    says which bytes a source holds (all in ParseApi.v).  The meaning of a
    table is given by Spec_Parse.v, the vocabulary about trees by Spec_Tree.v. *)
From Verif Require Import Base Cst Parser Spec_Parse Spec_Tree ParserProofs TreeProofs
  ParseApi ParseApi2 Concurrent ConcurrentProofs WalkProofs.

(** ** C06 *)

Theorem C06_walk_is_pruned_preorder :
  forall (V S : Type) (visit : V -> S -> node -> gores Empty_set (S * option V))
         (v : V) (s : S) (n : node) (s' : S),
    walk visit v s n = Ok s' <-> exists log, preorder v n log /\ replays visit s log s'.
Proof. intros V S visit. exact (walk_spec visit). Qed.
Print Assumptions C06_walk_is_pruned_preorder.

Theorem C06_unpruned_visits_every_node_once :
  forall (V : Type) (v : V) (n : node) (log : list event),
    preorder v n log -> Forall (fun e => ev_answer e <> None) log ->
    map ev_node log = nodes_of n.
Proof. intros V. exact (proj1 (preorder_all (V := V))). Qed.
Print Assumptions C06_unpruned_visits_every_node_once.

Theorem C06_walk_returns :
  forall (V S : Type) (visit : V -> S -> node -> gores Empty_set (S * option V)),
    (forall v s n, exists r, visit v s n = Ok r) ->
    forall v s n, exists s', walk visit v s n = Ok s'.
Proof. intros V S visit. exact (walk_total visit). Qed.
Print Assumptions C06_walk_returns.

(** A counting visitor that does not descend below nodes of type 7. *)
Example C06_case :
  let t := Node 1 0 9 [Node 7 0 4 [Node 2 0 4 []]; Node 3 4 9 [Node 4 4 9 []]] in
  walk (fun (v : nat) (s : list (nat * Z)) n =>
          Ok (s ++ [(v, n_type n)], if (n_type n =? 7)%Z then None else Some (S v))) 0 [] t
  = Ok [(0, 1%Z); (1, 7%Z); (1, 3%Z); (2, 4%Z)].
Proof. reflexivity. Qed.

(** ** A small table used in the examples: words (a | b "xy")* built of row 0
    and row 1, plus an end-of-line operand in row 2. *)
Definition ex_table : table :=
  [(0, [("a"%char, [OpTerminal (s2b "a"); OpNonTerminal 0]);
        ("b"%char, [OpNonTerminal 1; OpNonTerminal 0]);
        (LF, [OpNonTerminal (-2); OpNonTerminal 0]);
        (CR, [OpNonTerminal (-2); OpNonTerminal 0]);
        (NUL, [])]);
   (1, [("b"%char, [OpTerminal (s2b "bxy")])])]%Z.
Definition ex_names : list (Z * bytes) := [(0%Z, s2b "list"); (1%Z, s2b "item")].
Lemma ex_public : table_public ex_table.
Proof.
  intros n r c ops H1 H2.
  repeat (destruct H1 as [H1|H1]; [injection H1 as <- <-;
    repeat (destruct H2 as [H2|H2]; [injection H2 as <- <-; repeat constructor|]); destruct H2|]).
  destruct H1.
Qed.
Lemma ex_nulfree : table_nulfree ex_table.
Proof.
  intros n r c ops t H1 H2 H3.
  repeat (destruct H1 as [H1|H1]; [injection H1 as <- <-;
    repeat (destruct H2 as [H2|H2]; [injection H2 as <- <-;
      repeat (destruct H3 as [H3|H3]; [try discriminate; injection H3 as <-|]);
      try contradiction; cbv; intuition discriminate|]); destruct H2|]).
  destruct H1.
Qed.
Definition ex_text : bytes := s2b "abxy" ++ [CR; LF].
Definition ex_tree : node :=
  Node 0 0 6 [Node (-1) 0 1 [];
    Node 0 1 6 [Node 1 1 4 [Node (-1) 1 4 []];
      Node 0 4 6 [Node (-2) 4 6 [Node (-1) 4 5 []; Node (-1) 5 6 []];
        Node 0 6 6 [Node (-2) 6 6 []]]]].
Example ex_parses :
  parses_to 100 ex_table (Some ex_names) (SrcString ex_text) ex_tree.
Proof. eexists. vm_compute. reflexivity. Qed.
Example ex_delivers : delivers (SrcString ex_text) ex_text.
Proof. constructor. Qed.
Example ex_fails :
  fails_with 100 ex_table (Some ex_names) (SrcString (s2b "abxz"))
    (EExpectedChar "y"%char "z"%char).
Proof. vm_compute. reflexivity. Qed.

(** ** C07 *)

Theorem C07_parse_never_panics :
  forall (fuel : nat) (tbl : table) (m : list (Z * bytes)) (src : source) (p : gopanic),
    table_public tbl -> result fuel tbl (Some m) src <> Panic p.
Proof. exact no_panic. Qed.
Print Assumptions C07_parse_never_panics.

(** With a nil naming map exactly the successful calls panic. *)
Theorem C07_nil_naming_map :
  forall (tbl : table) (m : list (Z * bytes)) (src : source),
    table_public tbl ->
    (forall fuel t, parses_to fuel tbl (Some m) src t ->
                    result fuel tbl None src = Panic PanicNilMapWrite) /\
    (forall fuel p, result fuel tbl None src = Panic p ->
                    p = PanicNilMapWrite /\ exists t, parses_to fuel tbl (Some m) src t) /\
    (forall fuel t nm e, result fuel tbl None src <> Ok (mkRet (Some t) nm e)).
Proof. exact nil_names. Qed.
Print Assumptions C07_nil_naming_map.

Example C07_nil_case :
  result 100 ex_table None (SrcString ex_text) = Panic PanicNilMapWrite.
Proof. vm_compute. reflexivity. Qed.

(** ** C08 *)

Theorem C08_return_contract :
  forall (fuel : nat) (tbl : table) (names : names_map) (src : source) (r : preturn),
    result fuel tbl names src = Ok r ->
    (exists t m, r = mkRet (Some t) (Some (Some m)) None) \/
    (exists e, r = mkRet None None (Some e)).
Proof. exact return_contract. Qed.
Print Assumptions C08_return_contract.

(** ** C09 *)

Theorem C09_children_tile :
  forall fuel tbl m src text t,
    table_public tbl -> delivers src text -> parses_to fuel tbl (Some m) src t ->
    n_pos t = 0%Z /\ forall n, subnode n t -> well_placed n.
Proof. exact tree_placed. Qed.
Print Assumptions C09_children_tile.

(** ** C10 *)

Theorem C10_leaves_spell_source :
  forall fuel tbl m src text t,
    table_public tbl -> table_nulfree tbl -> delivers src text ->
    parses_to fuel tbl (Some m) src t ->
    exists terminals,
      built tbl (OpNonTerminal 0) t terminals /\
      map (fun n => text_of text (n_pos n) (n_end n)) (literals t) = terminals /\
      concat terminals = text_of text 0 (n_end t).
Proof. exact tree_spells. Qed.
Print Assumptions C10_leaves_spell_source.

Example C10_case :
  map (fun n => text_of ex_text (n_pos n) (n_end n)) (literals ex_tree)
  = [s2b "a"; s2b "bxy"; [CR]; [LF]].
Proof. reflexivity. Qed.

(** ** C11 *)

Theorem C11_parse_iff_derivation :
  forall tbl m src text t,
    table_public tbl -> delivers src text ->
    ((exists fuel, parses_to fuel tbl (Some m) src t) <-> derives_text tbl text t).
Proof. exact parse_iff_derivation. Qed.
Print Assumptions C11_parse_iff_derivation.

Theorem C11_tree_unique :
  forall tbl text t t', derives_text tbl text t -> derives_text tbl text t' -> t = t'.
Proof. exact derives_text_fun. Qed.
Print Assumptions C11_tree_unique.

(** The same without trees: acceptance is predictive rewriting to the empty form. *)
Theorem C11_parse_iff_rewriting :
  forall tbl m src text,
    table_public tbl -> delivers src text ->
    ((exists fuel t, parses_to fuel tbl (Some m) src t) <->
     (exists q, rewrites_star tbl text (0, [Row 0]) (q, []) /\ byte_at text q = NUL)).
Proof. exact parse_iff_rewriting. Qed.
Print Assumptions C11_parse_iff_rewriting.

(** ** C12, C13 *)

Theorem C12_whole_source_consumed :
  forall fuel tbl m src text t,
    table_public tbl -> table_nulfree tbl -> ~ In NUL text -> delivers src text ->
    parses_to fuel tbl (Some m) src t -> n_end t = Z.of_nat (length text).
Proof. exact whole_source. Qed.
Print Assumptions C12_whole_source_consumed.

(** In general the tree ends at the first NUL behind it, wherever the source ends. *)
Theorem C12_general :
  forall fuel tbl m src text t,
    table_public tbl -> delivers src text -> parses_to fuel tbl (Some m) src t ->
    exists q, n_end t = Z.of_nat q /\ byte_at text q = NUL.
Proof. exact end_at_nul. Qed.
Print Assumptions C12_general.

(** The unrestricted claim is false: text behind a NUL byte is ignored. *)
Theorem C12_refuted_nul_truncates :
  exists fuel t,
    parses_to fuel ex_table (Some ex_names) (SrcString (s2b "a" ++ [NUL] ++ s2b "!?!")) t /\
    n_end t = 1%Z /\ length (s2b "a" ++ [NUL] ++ s2b "!?!") = 5.
Proof.
  exists 100, (Node 0 0 1 [Node (-1) 0 1 []; Node 0 1 1 [Node (-2) 1 1 []]]).
  split; [eexists; vm_compute; reflexivity|]. split; reflexivity.
Qed.
Print Assumptions C12_refuted_nul_truncates.

Theorem C13_positions_valid :
  forall fuel tbl m src text t,
    table_public tbl -> table_nulfree tbl -> delivers src text ->
    parses_to fuel tbl (Some m) src t ->
    forall n, subnode n t -> (0 <= n_pos n <= n_end n)%Z /\ (n_end n <= Z.of_nat (length text))%Z.
Proof. exact positions_valid. Qed.
Print Assumptions C13_positions_valid.

(** With a NUL byte in a terminal positions can lie beyond the source. *)
Definition nul_table : table := [(0%Z, [(NUL, [OpTerminal [NUL]])])].
Theorem C13_refuted_nul_terminal :
  table_public nul_table /\
  exists fuel t, parses_to fuel nul_table (Some []) (SrcString []) t /\ n_end t = 1%Z.
Proof.
  split.
  - intros n r c ops [H|[]] H2. injection H as <- <-. destruct H2 as [H2|[]].
    injection H2 as <- <-. repeat constructor.
  - exists 100, (Node 0 0 1 [Node (-1) 0 1 []]). split; [eexists; vm_compute; reflexivity|reflexivity].
Qed.
Print Assumptions C13_refuted_nul_terminal.

(** ** C14 *)

(** A call: the returned map has exactly the two extra entries, and it is the
    parser's own map; a call that does not succeed leaves the map untouched. *)
Theorem C14_names_effect :
  forall fuel tbl m src,
    let after := Parse fuel (NewLL1Parser tbl (Some m)) src in
    (forall t nm e, po_result after = Ok (mkRet (Some t) nm e) ->
       exists m', nm = Some (Some m') /\ po_names after = Some m' /\
         forall k, map_get Z.eqb k m' =
           if (k =? -1)%Z then Some (s2b "_literal")
           else if (k =? -2)%Z then Some (s2b "_nothing") else map_get Z.eqb k m) /\
    ((forall t nm e, po_result after <> Ok (mkRet (Some t) nm e)) -> po_names after = Some m).
Proof. exact names_effect. Qed.
Print Assumptions C14_names_effect.

(** Any history of calls on one parser gives what fresh parsers give. *)
Theorem C14_repeatable :
  forall tbl m (calls : list (nat * source)),
    fst (parse_history tbl (Some m) calls) =
    map (fun c => result (fst c) tbl (Some m) (snd c)) calls.
Proof. exact repeatable. Qed.
Print Assumptions C14_repeatable.

Example C14_case :
  map_get Z.eqb (-1)%Z (names_after ex_names) = Some (s2b "_literal") /\
  map_get Z.eqb 1%Z (names_after ex_names) = Some (s2b "item") /\
  map succeeded (fst (parse_history ex_table (Some ex_names)
    [(100, SrcString ex_text); (100, SrcString (s2b "abxz")); (100, SrcBytes ex_text)]))
  = [true; false; true].
Proof. vm_compute. auto. Qed.

(** ** C15 *)

Theorem C15_sources_equivalent :
  forall fuel tbl names src1 src2 text,
    delivers src1 text -> delivers src2 text ->
    result fuel tbl names src1 = result fuel tbl names src2.
Proof. exact sources_equivalent. Qed.
Print Assumptions C15_sources_equivalent.

Theorem C15_bad_sources :
  forall fuel tbl names src,
    has_row0 tbl ->
    (src = SrcNil -> fails_with fuel tbl names src EEmptySource) /\
    (src = SrcBuffer None \/ src = SrcOther -> fails_with fuel tbl names src EInvalidSource) /\
    (forall chunks msg, src = SrcReader (mkReader chunks (Some msg)) ->
       fails_with fuel tbl names src (EReader msg)).
Proof. exact bad_sources. Qed.
Print Assumptions C15_bad_sources.

(** Every source is of one of these kinds. *)
Theorem C15_source_kinds :
  forall src, (exists text, delivers src text) \/
    src = SrcNil \/ src = SrcBuffer None \/ src = SrcOther \/
    exists chunks msg, src = SrcReader (mkReader chunks (Some msg)).
Proof. exact source_kinds. Qed.
Print Assumptions C15_source_kinds.

Example C15_case :
  delivers (SrcReader (mkReader [s2b "ab"; []; s2b "xy"; [CR; LF]] None)) ex_text.
Proof. exact (dl_reader [s2b "ab"; []; s2b "xy"; [CR; LF]]). Qed.

(** ** C16 *)

Theorem C16_unusable_table :
  forall fuel tbl names src,
    ~ has_row0 tbl ->
    let after := Parse fuel (NewLL1Parser tbl names) src in
    po_result after =
      Ok (mkRet None None (Some (match tbl with [] => EEmptyTable | _ => ENoBaseEntry end))) /\
    po_source after = src /\ po_names after = names.
Proof. exact unusable_table. Qed.
Print Assumptions C16_unusable_table.

Example C16_case : ~ has_row0 [(1%Z, [("a"%char, [])])].
Proof. intros (r & H). discriminate. Qed.

(** ** C17 *)

Theorem C17_deterministic :
  forall fuel fuel' tbl names src,
    result fuel tbl names src <> NoFuel -> fuel <= fuel' ->
    Parse fuel' (NewLL1Parser tbl names) src = Parse fuel (NewLL1Parser tbl names) src.
Proof. exact result_mono. Qed.
Print Assumptions C17_deterministic.

Theorem C17_one_outcome :
  forall tbl m src text,
    table_public tbl -> has_row0 tbl -> delivers src text ->
    (forall t k e, derives_text tbl text t -> refuses tbl text (Some m) k e -> False) /\
    (forall k e k' e', refuses tbl text (Some m) k e -> refuses tbl text (Some m) k' e' ->
       k = k' /\ e = e').
Proof. exact one_outcome. Qed.
Print Assumptions C17_one_outcome.

(** ** C18 *)

Theorem C18_builtin_eol_nodes :
  forall fuel tbl m src text t,
    table_public tbl -> delivers src text -> parses_to fuel tbl (Some m) src t ->
    forall n, subnode n t ->
      (-2 <= n_type n)%Z /\
      (n_type n = (-2)%Z ->
         (n_childs n = [] /\ n_pos n = n_end n) \/
         (exists p, n = mk (-2) p (p + 1) [literal_at p (p + 1)] /\ byte_at text p = LF) \/
         (exists p, n = mk (-2) p (p + 2) [literal_at p (p + 1); literal_at (p + 1) (p + 2)] /\
                    byte_at text p = CR /\ byte_at text (p + 1) = LF)).
Proof. exact eol_nodes. Qed.
Print Assumptions C18_builtin_eol_nodes.

(** [only n] (Spec_Parse.v) is the table whose row 0 hands everything to the
    built-in operand [n]. *)
Theorem C18_eol_accepts_exactly :
  forall m src text, delivers src text -> ~ In NUL text ->
    ((exists fuel t, parses_to fuel (only (-2)) (Some m) src t) <->
     text = [LF] \/ text = [CR; LF]).
Proof. exact eol_exactly. Qed.
Print Assumptions C18_eol_accepts_exactly.

Theorem C18_other_builtins_fail :
  forall n m src text, (n < 0)%Z -> n <> (-2)%Z -> delivers src text ->
    exists fuel, fails_with fuel (only n) (Some m) src (EUnknownBuiltin n).
Proof. exact other_builtins. Qed.
Print Assumptions C18_other_builtins_fail.

(** ** C19 *)

Theorem C19_error_diagnosis :
  forall tbl m src text e,
    table_public tbl -> has_row0 tbl -> delivers src text ->
    ((exists fuel, fails_with fuel tbl (Some m) src e) <->
     (exists k, refuses tbl text (Some m) k e)).
Proof. exact error_diagnosis. Qed.
Print Assumptions C19_error_diagnosis.

(** The matched part is a prefix of the source, and of some form generated by
    the table: matched bytes ++ what was still expected. *)
Theorem C19_matched_prefix :
  forall tbl text k form,
    table_nulfree tbl -> rewrites_star tbl text (0, [Row 0]) (k, form) ->
    k <= length text /\ generates tbl [Row 0] (map Byte (firstn k text) ++ form).
Proof. exact matched_prefix. Qed.
Print Assumptions C19_matched_prefix.

Example C19_case :
  perror_string (EExpectedChar "y"%char "z"%char) = s2b "expected char 'y' (121), got 'z' (122)".
Proof. reflexivity. Qed.

(** ** C20 *)

(** Whatever the interleaving, a finished call has returned what it would have
    returned alone. *)
Theorem C20_interleaving_results :
  forall tbl m texts ths nm i text th,
    has_row0 tbl -> conc_steps tbl (conc_init texts m) (ths, nm) ->
    nth_error texts i = Some text -> nth_error ths i = Some th ->
    match th with
    | TTree _ t => exists fuel, parses_to fuel tbl (Some m) (SrcString text) t
    | TErr _ e => exists fuel, fails_with fuel tbl (Some m) (SrcString text) e
    | TPanic _ p => ~ table_public tbl
    | _ => True
    end.
Proof. exact interleaving_results. Qed.
Print Assumptions C20_interleaving_results.

(** When all calls are finished the map is as after running them one by one. *)
Theorem C20_interleaving_map :
  forall tbl m texts ths nm,
    conc_steps tbl (conc_init texts m) (ths, nm) -> Forall finished ths ->
    nm = if existsb (fun th => match th with TTree _ _ => true | _ => false end) ths
         then Some (names_after m) else Some m.
Proof. exact interleaving_map. Qed.
Print Assumptions C20_interleaving_map.

(** But two successful calls do race: both can stand before an unsynchronised
    write of the same map. *)
Theorem C20_refuted_data_race :
  forall tbl m text1 text2 t1 t2 f1 f2,
    parses_to f1 tbl (Some m) (SrcString text1) t1 ->
    parses_to f2 tbl (Some m) (SrcString text2) t2 ->
    exists c, conc_steps tbl (conc_init [text1; text2] m) c /\ racy c.
Proof. exact data_race. Qed.
Print Assumptions C20_refuted_data_race.
