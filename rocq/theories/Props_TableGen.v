(** * Props_TableGen: properties C21 - C33 of FromGrammar and of the parsers it makes.

    Reading guide: [FromGrammar_order order fuel g] is the call FromGrammar(g)
    when Go iterates over its rule map in the order [order] and the two
    fix-point loops are allowed [fuel] rounds each ([NoFuel]: still running);
    [FromGrammar] is the case where [order] is the identity.  Grammars, their
    words, FIRST, FOLLOW and LL(1) are those of Spec_Grammar.v; tables and
    derivation trees those of Spec_Table.v; [result], [parses_to], [fails_with]
    and [delivers] as in Props_Parser.v. *)
From Verif Require Import Base ByteSet Cst Ast Parser TableGen Spec_Parse Spec_Grammar Spec_Table
  ParseApi ParseApi2 GrammarProofs TGFirsts TGFollows TGTable TGMain TGCells TGClosed TGParse
  TGNames TGCheck ExamplesModel.
From Coq Require Import Permutation.
Local Opaque bs_contains bs_remove bs_union bs_bytes sequenceFirsts.

(** ** Grammars used in the examples *)

Definition nt (s : String.string) : symbol := SNonTerminal (s2b s).
Definition tm (s : String.string) : symbol := STerminal (s2b s).
Arguments nt s%string_scope.
Arguments tm s%string_scope.
Definition ru (s : String.string) (alts : list sequence) : rule := mkRule (s2b s) alts.
Arguments ru s%string_scope.

(** S ::= A "b" S | ""      A ::= "a" | "" *)
Definition demo : grammar :=
  [ru "S" [[nt "A"; tm "b"; nt "S"]; [SNothing]]; ru "A" [[tm "a"]; [SNothing]]].
(** S ::= A B "c"           A ::= "a" | ""     B ::= "b" | "" *)
Definition two_empty : grammar :=
  [ru "S" [[nt "A"; nt "B"; tm "c"]]; ru "A" [[tm "a"]; [SNothing]]; ru "B" [[tm "b"]; [SNothing]]].
(** T ::= S "a", then the rules of [two_empty] *)
Definition two_empty_a : grammar := ru "T" [[nt "S"; tm "a"]] :: two_empty.

Definition gen_of (g : grammar) : table * list (Z * bytes) :=
  match FromGrammar (256 * length g + 1) g with Ok x => x | _ => ([], []) end.

Lemma passes_demo : passes demo (auto_cert demo) = true.
Proof. vm_compute. reflexivity. Qed.
Lemma gen_demo : FromGrammar (256 * length demo + 1) demo = Ok (gen_of demo).
Proof. vm_compute. reflexivity. Qed.
Lemma demo_dec : decidable_grammar demo.
Proof. exact (proj1 (passes_ok _ _ passes_demo)). Qed.
Lemma demo_wf : wf_grammar demo.
Proof. exact (dg_wf _ demo_dec). Qed.

Lemma follow_in_rules g n x : g <> [] -> follow g n x -> follow_rules g n x.
Proof. intros H. apply follow_least, follow_rules_closed, H. Qed.
Lemma rules_LL1 g : g <> [] -> LL1_wrt (follow_rules g) g -> LL1 g.
Proof. intros H. apply LL1_antitone. intros n x. apply follow_in_rules, H. Qed.
Lemma demo_LL1 : LL1 demo.
Proof. apply rules_LL1; [discriminate|exact (dg_ll1 _ demo_dec)]. Qed.

(** ** C21 *)

Theorem C21_terminates :
  forall order g fuel, 256 * length g + 1 <= fuel -> FromGrammar_order order fuel g <> NoFuel.
Proof. exact FromGrammar_fuel. Qed.
Print Assumptions C21_terminates.

Theorem C21_one_result :
  forall order g fuel more, FromGrammar_order order fuel g <> NoFuel ->
    FromGrammar_order order (fuel + more) g = FromGrammar_order order fuel g.
Proof. exact FromGrammar_more. Qed.
Print Assumptions C21_one_result.

(** ** C22, C23: the sets behind the table *)

Theorem C22_first_sets :
  forall order fuel g tbl names,
    NoDup (heads g) -> terminals_nulfree g ->
    FromGrammar_order order fuel g = Ok (tbl, names) ->
    exists firsts,
      findFirsts g (enumerate (heads g)) fuel (repeat (bs_new []) (length g)) = Ok firsts /\
      length firsts = length g /\
      forall i n set, nth_error (heads g) i = Some n -> nth_error firsts i = Some set ->
        (forall c, c <> NUL -> (bs_contains set c = true <-> first g [NT n] c)) /\
        (bs_contains set NUL = true <-> nullable g [NT n]).
Proof.
  intros order fuel g tbl names Nd Nf H.
  destruct (FromGrammar_generated _ _ _ _ _ H) as (firsts & follows & H1 & H2 & _ & _).
  exists firsts. split; [exact H1|].
  pose proof (findFirsts_exact g fuel firsts Nd Nf H1) as FE.
  split; [exact (fe_length _ _ FE)|].
  intros i n set Hn Hs.
  assert (Hi : i < length g).
  { rewrite <- (fe_length _ _ FE). apply nth_error_Some. rewrite Hs. discriminate. }
  assert (Hh : head_at g i = n) by (unfold head_at; apply nth_error_nth; exact Hn).
  pose proof (fun c => fe_rules _ _ FE i c Hi) as R. unfold set_at in R. rewrite Hs, Hh in R.
  split.
  - intros c Hc. rewrite (R c). unfold first_mark. tauto.
  - rewrite (R NUL). unfold first_mark. tauto.
Qed.
Print Assumptions C22_first_sets.

Theorem C23_follow_sets :
  forall order fuel g tbl names,
    NoDup (heads g) -> terminals_nulfree g ->
    FromGrammar_order order fuel g = Ok (tbl, names) ->
    exists firsts follows,
      findFirsts g (enumerate (heads g)) fuel (repeat (bs_new []) (length g)) = Ok firsts /\
      findFollows g (enumerate (heads g)) fuel firsts (repeat (bs_new []) (length g)) = Ok follows /\
      length follows = length g /\
      forall i n set c, nth_error (heads g) i = Some n -> nth_error follows i = Some set ->
        (bs_contains set c = true <-> follow_code g n (ahead c)).
Proof.
  intros order fuel g tbl names Nd Nf H.
  destruct (FromGrammar_generated _ _ _ _ _ H) as (firsts & follows & H1 & H2 & _ & _).
  exists firsts, follows. split; [exact H1|]. split; [exact H2|].
  pose proof (findFirsts_exact g fuel firsts Nd Nf H1) as FE.
  pose proof (findFollows_exact g fuel firsts follows Nd Nf FE H2) as FO.
  split; [exact (fo_length _ _ FO)|].
  intros i n set c Hn Hs.
  assert (Hi : i < length g).
  { rewrite <- (fo_length _ _ FO). apply nth_error_Some. rewrite Hs. discriminate. }
  assert (Hh : head_at g i = n) by (unfold head_at; apply nth_error_nth; exact Hn).
  pose proof (fo_rules _ _ FO i c Hi) as R. unfold set_at in R. rewrite Hs, Hh in R. exact R.
Qed.
Print Assumptions C23_follow_sets.

(** The rules quoted in the code give the textbook sets when a symbol that
    follows a non-terminal and can be empty is the last of its alternative. *)
Theorem C23_textbook_rules :
  forall g n x, nullable_follower_last g -> (follow_code g n x <-> follow_rules g n x).
Proof. exact follow_code_rules. Qed.
Print Assumptions C23_textbook_rules.

(** ... and FOLLOW by sentential forms, if also every rule is reachable. *)
Theorem C23_textbook :
  forall g n x, g <> [] -> nullable_follower_last g -> (forall m, defined g m -> reachable g m) ->
    (follow_code g n x <-> follow g n x).
Proof.
  intros g n x Hg Hl Hr. rewrite (follow_code_rules g n x Hl). split.
  - apply follow_rules_follow, Hr.
  - apply follow_in_rules, Hg.
Qed.
Print Assumptions C23_textbook.

(** Deciding membership in the code's sets by running it. *)
Lemma follow_code_run g fuel n x i :
  wfb g = true -> nth_error (heads g) i = Some n -> x <> Some NUL ->
  match findFirsts g (enumerate (heads g)) fuel (repeat (bs_new []) (length g)) with
  | Ok firsts =>
      match findFollows g (enumerate (heads g)) fuel firsts (repeat (bs_new []) (length g)) with
      | Ok follows => follow_code g n x <->
           set_at follows i (match x with Some c => c | None => NUL end) = true
      | _ => True
      end
  | _ => True
  end.
Proof.
  intros Hw Hn Hx. apply wfb_spec in Hw.
  destruct (findFirsts g (enumerate (heads g)) fuel (repeat (bs_new []) (length g)))
    as [firsts| | |] eqn:H1; try exact I.
  destruct (findFollows g (enumerate (heads g)) fuel firsts (repeat (bs_new []) (length g)))
    as [follows| | |] eqn:H2; try exact I.
  pose proof (findFirsts_exact g fuel firsts (wf_distinct _ Hw) (wf_nulfree _ Hw) H1) as FE.
  pose proof (findFollows_exact g fuel firsts follows (wf_distinct _ Hw) (wf_nulfree _ Hw) FE H2) as FO.
  assert (Hi : i < length g).
  { unfold heads in Hn. rewrite nth_error_map in Hn. apply nth_error_Some.
    destruct (nth_error g i); [discriminate|discriminate Hn]. }
  assert (Hh : head_at g i = n) by (unfold head_at; apply nth_error_nth; exact Hn).
  rewrite (fo_rules _ _ FO i _ Hi), Hh.
  destruct x as [c|]; [|reflexivity].
  unfold ahead. destruct (Ascii.eqb c NUL) eqn:E; [|reflexivity].
  apply Ascii.eqb_eq in E. subst c. exfalso. apply Hx. reflexivity.
Qed.

(** Words and sentential forms of concrete grammars. *)
Lemma yields_step g a n s b v :
  alternative g n s -> yields g (a ++ seq_form s ++ b) v -> yields g (a ++ NT n :: b) v.
Proof. intros H H2. eapply ys_step; [apply y1; exact H|exact H2]. Qed.
Lemma alt_intro (g : grammar) i j r s :
  nth_error g i = Some r -> nth_error (r_tail r) j = Some s -> alternative g (r_head r) s.
Proof. intros H1 H2. exists r. split; [eapply nth_error_In, H1|]. split; [reflexivity|eapply nth_error_In, H2]. Qed.

Ltac rewrite_nt pre i j :=
  match goal with
  | |- yields ?g ?u _ =>
      let r := eval vm_compute in (nth_error g i) in
      match r with
      | Some ?r' =>
          let s := eval vm_compute in (nth_error (r_tail r') j) in
          match s with
          | Some ?s' =>
              apply (yields_step g (firstn pre u) (r_head r') s' (skipn (S pre) u));
              [apply (alt_intro g i j r' s'); reflexivity|cbn]
          end
      end
  end.

Lemma two_empty_dec_parts : wfb two_empty = true /\ closed_first two_empty (auto_cert two_empty) = true /\
  closed_followb two_empty (auto_cert two_empty) = true /\ ll1b two_empty (auto_cert two_empty) = true.
Proof. vm_compute. repeat split. Qed.
Lemma two_empty_wf : wf_grammar two_empty.
Proof. apply wfb_spec. exact (proj1 two_empty_dec_parts). Qed.
Lemma two_empty_LL1 : LL1 two_empty.
Proof.
  destruct two_empty_dec_parts as (_ & A & B & C).
  apply rules_LL1; [discriminate|]. eapply check_LL1; eassumption.
Qed.
Lemma two_empty_reachable m : defined two_empty m -> reachable two_empty m.
Proof.
  intros [<-|[<-|[<-|[]]]].
  - exists [], []. apply ys_refl.
  - exists [], [NT (s2b "B"); Ch "c"%char]. rewrite_nt 0 0 0. apply ys_refl.
  - exists [NT (s2b "A")], [Ch "c"%char]. rewrite_nt 0 0 0. apply ys_refl.
Qed.

(** Without that condition they are neither contained in FOLLOW nor contain it. *)
Theorem C23_refuted_general :
  exists g n c, wf_grammar g /\ LL1 g /\ (forall m, defined g m -> reachable g m) /\
    (follow g n (Some c) /\ ~ follow_code g n (Some c)) /\
    (follow_code g n None /\ ~ follow g n None).
Proof.
  exists two_empty, (s2b "A"), "c"%char.
  split; [exact two_empty_wf|]. split; [exact two_empty_LL1|]. split; [exact two_empty_reachable|].
  pose proof (follow_code_run two_empty 1000 (s2b "A") (Some "c"%char) 1 eq_refl eq_refl) as R1.
  pose proof (follow_code_run two_empty 1000 (s2b "A") None 1 eq_refl eq_refl) as R2.
  vm_compute in R1. vm_compute in R2.
  split; split.
  - exists [], []. rewrite_nt 0 0 0. rewrite_nt 1 2 1. apply ys_refl.
  - intros H. apply R1 in H; [discriminate|discriminate].
  - apply R2; [discriminate|reflexivity].
  - intros H. apply follow_in_rules in H; [|discriminate].
    destruct two_empty_dec_parts as (_ & A & B & _).
    eapply follow_over in H; [|exact A|exact B]. vm_compute in H. discriminate.
Qed.
Print Assumptions C23_refuted_general.

(** ** C24 *)

Theorem C24_rows :
  forall order fuel g tbl names, FromGrammar_order order fuel g = Ok (tbl, names) ->
    map fst tbl = map Z.of_nat (seq 0 (length g)).
Proof. exact FromGrammar_keys. Qed.
Print Assumptions C24_rows.

Theorem C24_operands :
  forall order fuel g tbl names, FromGrammar_order order fuel g = Ok (tbl, names) ->
    forall n r c ops op, In (n, r) tbl -> In (c, ops) r -> In op ops ->
      (exists k, op = OpNonTerminal k /\ In k (map fst tbl)) \/
      (exists h s t, op = OpTerminal t /\ alternative g h s /\ In (STerminal t) s).
Proof.
  intros order fuel g tbl names H n r c ops op H1 H2 H3.
  pose proof (table_ops _ _ _ _ _ H n r c ops H1 H2) as Q. rewrite Forall_forall in Q.
  destruct (Q op H3) as [(i & -> & Hi)|(h & s & t & -> & Ha & Hs)].
  - left. exists (Z.of_nat i). split; [reflexivity|].
    rewrite (FromGrammar_keys _ _ _ _ _ H). apply in_map, in_seq. lia.
  - right. exists h, s, t. auto.
Qed.
Print Assumptions C24_operands.

Theorem C24_only_input_errors :
  forall order fuel0 g tbl names0, FromGrammar_order order fuel0 g = Ok (tbl, names0) ->
    forall fuel names src text e,
      delivers src text -> fails_with fuel tbl (Some names) src e -> input_error e.
Proof.
  intros order fuel0 g tbl names0 H fuel names src text e Hd Hf.
  assert (Hx : exists k, refuses tbl text (Some names) k e).
  { apply (error_diagnosis tbl names src text e); [|eapply FromGrammar_row0, H|exact Hd|].
    - eapply FromGrammar_public, H.
    - exists fuel. exact Hf. }
  destruct Hx as (k & Hk). eapply closed_refuses; eassumption.
Qed.
Print Assumptions C24_only_input_errors.

Theorem C24_never_panics :
  forall order fuel0 g tbl names0, FromGrammar_order order fuel0 g = Ok (tbl, names0) ->
    forall fuel names src p, result fuel tbl (Some names) src <> Panic p.
Proof.
  intros order fuel0 g tbl names0 H fuel names src p.
  apply no_panic. eapply FromGrammar_public, H.
Qed.
Print Assumptions C24_never_panics.

Example C24_case : map fst (fst (gen_of demo)) = [0; 1]%Z.
Proof. vm_compute. reflexivity. Qed.

(** ** C25 *)

Theorem C25_names :
  forall order fuel g tbl names,
    (forall l, Permutation (order l) l) -> FromGrammar_order order fuel g = Ok (tbl, names) ->
    forall k n, map_get Z.eqb k names = Some n <->
      exists i, k = Z.of_nat i /\ nth_error (heads g) i = Some n /\
        forall j, i < j -> nth_error (heads g) j <> Some n.
Proof. exact FromGrammar_names. Qed.
Print Assumptions C25_names.

Theorem C25_names_distinct_heads :
  forall order fuel g tbl names,
    (forall l, Permutation (order l) l) -> NoDup (heads g) ->
    FromGrammar_order order fuel g = Ok (tbl, names) ->
    (forall i, map_get Z.eqb (Z.of_nat i) names = nth_error (heads g) i) /\
    (forall k, (k < 0)%Z -> map_get Z.eqb k names = None).
Proof. exact FromGrammar_names_nodup. Qed.
Print Assumptions C25_names_distinct_heads.

(** A grammar with a repeated head. *)
Example C25_case :
  let g := [ru "S" [[nt "A"]]; ru "A" [[tm "a"]]; ru "A" [[tm "b"]]] in
  exists tbl names, FromGrammar 1000 g = Ok (tbl, names) /\
    map_get Z.eqb 1%Z names = None /\ map_get Z.eqb 2%Z names = Some (s2b "A").
Proof. cbv zeta. eexists _, _. vm_compute. repeat split. Qed.

(** ** C26 *)

Theorem C26_cells :
  forall order fuel g tbl names,
    NoDup (heads g) -> terminals_nulfree g ->
    FromGrammar_order order fuel g = Ok (tbl, names) ->
    forall i r b, nth_error g i = Some r ->
      exists rw, map_get Z.eqb (Z.of_nat i) tbl = Some rw /\
        match map_get Ascii.eqb b rw with
        | Some ops => exists chosen, selected g b (r_tail r) chosen /\
                        operands g (concat chosen) ops /\
                        (chosen = [] -> skippable g (follow_code g) r b)
        | None => selected g b (r_tail r) [] /\ ~ skippable g (follow_code g) r b
        end.
Proof. intros order fuel g tbl names Nd Nf H. exact (proj2 (FromGrammar_table _ _ _ _ _ Nd Nf H)). Qed.
Print Assumptions C26_cells.

(** The contents are determined by the grammar. *)
Theorem C26_cells_unique :
  forall g r b c c', NoDup (heads g) ->
    cell_spec g (follow_code g) r b c -> cell_spec g (follow_code g) r b c' -> c = c'.
Proof.
  intros g r b c c' Nd H H'. unfold cell_spec in *.
  destruct c as [ops|]; destruct c' as [ops'|].
  - destruct H as (ch & S1 & O1 & _). destruct H' as (ch' & S2 & O2 & _).
    rewrite (selected_fun _ _ _ _ _ S1 S2) in O1.
    f_equal. eapply operands_fun; eassumption.
  - destruct H as (ch & S1 & O1 & K). destruct H' as (S2 & N).
    rewrite (selected_fun _ _ _ _ _ S1 S2) in K. destruct (N (K eq_refl)).
  - destruct H' as (ch & S1 & O1 & K). destruct H as (S2 & N).
    rewrite (selected_fun _ _ _ _ _ S1 S2) in K. destruct (N (K eq_refl)).
  - reflexivity.
Qed.
Print Assumptions C26_cells_unique.

(** With disjoint alternatives: the textbook table. *)
Theorem C26_textbook :
  forall order fuel g tbl names,
    wf_grammar g -> first_disjoint g -> FromGrammar_order order fuel g = Ok (tbl, names) ->
    forall i n b, nth_error (heads g) i = Some n ->
      (forall ops, cell tbl (Z.of_nat i) b ops ->
         (exists s, alternative g n s /\ first g (seq_form s) b /\ operands g s ops /\ ops <> []) \/
         (ops = [] /\ nullable g [NT n] /\ follow_code g n (ahead b) /\
          forall s, alternative g n s -> ~ first g (seq_form s) b)) /\
      ((forall ops, ~ cell tbl (Z.of_nat i) b ops) ->
         (forall s, alternative g n s -> ~ first g (seq_form s) b) /\
         ~ (nullable g [NT n] /\ follow_code g n (ahead b))).
Proof.
  intros order fuel g tbl names W D H i n b Hn.
  pose proof (FromGrammar_table _ _ _ _ _ (wf_distinct _ W) (wf_nulfree _ W) H) as T.
  split.
  - intros ops Hc. eapply cell_alternative; eassumption.
  - intros Hno. destruct (cell_total g tbl W T i n b Hn) as [(ops & Hc)|(rw & _ & _ & A & B)].
    + destruct (Hno ops Hc).
    + split; assumption.
Qed.
Print Assumptions C26_textbook.

Example C26_case : wf_grammar demo /\ first_disjoint demo /\
  cell (fst (gen_of demo)) 0%Z "b"%char [OpNonTerminal 1; OpTerminal (s2b "b"); OpNonTerminal 0] /\
  cell (fst (gen_of demo)) 1%Z "b"%char [].
Proof.
  split; [exact demo_wf|]. split; [exact (ll1_first _ _ demo_LL1)|].
  split; eexists; split; vm_compute; reflexivity.
Qed.

(** ** C27 *)

Theorem C27_sound :
  forall order fuel0 fuel g tbl names m src text t,
    wf_grammar g -> first_disjoint g ->
    FromGrammar_order order fuel0 g = Ok (tbl, names) -> delivers src text -> ~ In NUL text ->
    parses_to fuel tbl (Some m) src t ->
    derivation_tree g text t /\ word g text.
Proof.
  intros order fuel0 fuel g tbl names m src text t W D H Hd Hn Hp.
  assert (T : derivation_tree g text t) by (eapply generated_sound; eassumption).
  split; [exact T|]. eapply derivation_tree_word; [exact (wf_nonempty _ W)|exact T].
Qed.
Print Assumptions C27_sound.

Example C27_case : exists t,
  parses_to 100 (fst (gen_of demo)) (Some (snd (gen_of demo))) (SrcString (s2b "abb")) t.
Proof. eexists. eexists. vm_compute. reflexivity. Qed.

(** ** C28 *)

Lemma LL1_not_late g F : wf_grammar g -> LL1_wrt F g ->
  (forall n x, nullable g [NT n] -> follow_code g n x -> F n x) -> ~ late_empty g (follow_code g).
Proof.
  intros W L Sub (n & s1 & s2 & b & H2 & Hn & Hf & Hs).
  destruct (two_alternatives_alt _ _ _ _ H2) as (A1 & A2).
  destruct Hs as [Hs|Hs]; [exact (ll1_empty _ _ L n s1 s2 H2 Hs Hn)|].
  assert (Hb : b <> NUL).
  { intros ->. exact (first_alt_nul g n s1 (wf_nulfree _ W) A1 Hs). }
  assert (E : ahead b = Some b).
  { unfold ahead. destruct (Ascii.eqb_spec b NUL); [contradiction|reflexivity]. }
  rewrite E in Hf.
  assert (Hnn : nullable g [NT n]) by (apply nullable_nt; exists s2; auto).
  exact (proj2 (ll1_follow _ _ L n s1 s2 b H2 (Sub _ _ Hnn Hf)) Hn Hs).
Qed.

(** If the generator's FOLLOW sets are right for the rules that can be empty. *)
Theorem C28_complete :
  forall order g,
    wf_grammar g -> LL1 g ->
    (forall n x, nullable g [NT n] -> (follow_code g n x <-> follow g n x)) ->
    exists tbl names,
      (forall fuel, 256 * length g + 1 <= fuel -> FromGrammar_order order fuel g = Ok (tbl, names)) /\
      forall m src text, delivers src text -> word g text ->
        exists fuel t, parses_to fuel tbl (Some m) src t.
Proof.
  intros order g W L FF.
  assert (NL : ~ late_empty g (follow_code g)).
  { apply (LL1_not_late g (follow g) W L). intros n x Hn Hf. apply FF; assumption. }
  destruct (FromGrammar_wf order (256 * length g + 1) g W (le_n _)) as [(_ & B)|(tbl & names & E & _)];
    [contradiction|].
  exists tbl, names. split.
  - intros fuel Hf. replace fuel with (256 * length g + 1 + (fuel - (256 * length g + 1))) by lia.
    rewrite FromGrammar_more; [exact E|]. rewrite E. discriminate.
  - intros m src text Hd Hw.
    eapply (ll1_complete order (256 * length g + 1) g tbl names (follow g)); try eassumption.
    + apply follow_closed.
    + intros n x Hn Hf. apply FF; assumption.
Qed.
Print Assumptions C28_complete.

(** In particular: LL(1) grammars without unreachable rules in which a symbol
    that follows a non-terminal and can be empty is the last of its alternative. *)
Theorem C28_complete_syntactic :
  forall order g,
    wf_grammar g -> LL1 g -> nullable_follower_last g -> (forall m, defined g m -> reachable g m) ->
    exists tbl names,
      (forall fuel, 256 * length g + 1 <= fuel -> FromGrammar_order order fuel g = Ok (tbl, names)) /\
      forall m src text, delivers src text -> ~ In NUL text ->
        ((exists fuel t, parses_to fuel tbl (Some m) src t) <-> word g text).
Proof.
  intros order g W L NL R.
  destruct (C28_complete order g W L) as (tbl & names & E & C).
  - intros n x _. apply C23_textbook; [exact (wf_nonempty _ W)|exact NL|exact R].
  - exists tbl, names. split; [exact E|]. intros m src text Hd Hn. split.
    + intros (fuel & t & Hp).
      eapply C27_sound; [exact W|exact (ll1_first _ _ L)|exact (E _ (le_n _))|exact Hd|exact Hn|exact Hp].
    + intros Hw. exact (C m src text Hd Hw).
Qed.
Print Assumptions C28_complete_syntactic.

Lemma app_cons_inv {A} (a : list A) x y b : a ++ x :: b = [y] -> a = [] /\ x = y /\ b = [].
Proof.
  destruct a as [|z a]; simpl; intros H; [injection H as -> ->; auto|].
  injection H as -> H. destruct a; discriminate.
Qed.

Example C28_case : wf_grammar demo /\ LL1 demo /\ nullable_follower_last demo /\
  (forall m, defined demo m -> reachable demo m) /\ word demo (s2b "abb").
Proof.
  split; [exact demo_wf|]. split; [exact demo_LL1|].
  split; [|split].
  - intros A a B X b (r & Hr & _ & Hs) Hn.
    destruct Hr as [<-|[<-|[]]]; cbn in Hs.
    + destruct Hs as [Hs|[Hs|[]]].
      * destruct a as [|y [|z [|w a]]]; cbn in Hs; try discriminate.
        -- injection Hs as <- <- <-. destruct (nullable_ch demo _ _ Hn).
        -- injection Hs. intros E1. destruct a; discriminate.
      * symmetry in Hs. apply app_cons_inv in Hs. destruct Hs as (_ & Hs & _). discriminate.
    + destruct Hs as [Hs|[Hs|[]]]; symmetry in Hs; apply app_cons_inv in Hs;
        destruct Hs as (_ & Hs & _); discriminate.
  - intros m [<-|[<-|[]]].
    + exists [], []. apply ys_refl.
    + exists [], [Ch "b"%char; NT (s2b "S")]. rewrite_nt 0 0 0. apply ys_refl.
  - split; [discriminate|]. cbn. rewrite_nt 0 0 0. rewrite_nt 0 1 0. rewrite_nt 2 0 0.
    rewrite_nt 2 1 1. rewrite_nt 3 0 1. apply ys_refl.
Qed.

Lemma never_parses tbl m src fuel e : fails_with fuel tbl (Some m) src e ->
  forall fuel' t, ~ parses_to fuel' tbl (Some m) src t.
Proof.
  intros Hf fuel' t (nm & Hp). unfold fails_with in Hf.
  assert (E : result fuel tbl (Some m) src = result fuel' tbl (Some m) src).
  { unfold result. destruct (Nat.le_ge_cases fuel fuel') as [L|L].
    - rewrite (result_mono fuel fuel' tbl (Some m) src); [reflexivity|rewrite Hf; discriminate|exact L].
    - rewrite (result_mono fuel' fuel tbl (Some m) src); [reflexivity|rewrite Hp; discriminate|exact L]. }
  rewrite Hf, Hp in E. discriminate.
Qed.

(** For LL(1) grammars in general it fails: a word is rejected, *)
Theorem C28_refuted_word_rejected :
  exists g text tbl names,
    wf_grammar g /\ LL1 g /\ (forall m, defined g m -> reachable g m) /\
    FromGrammar (256 * length g + 1) g = Ok (tbl, names) /\ word g text /\
    exists fuel, fails_with fuel tbl (Some names) (SrcString text)
                   (ENoRulesForByte "c"%char (s2b "A")).
Proof.
  exists two_empty, (s2b "c"), (fst (gen_of two_empty)), (snd (gen_of two_empty)).
  split; [exact two_empty_wf|]. split; [exact two_empty_LL1|]. split; [exact two_empty_reachable|].
  split; [vm_compute; reflexivity|]. split.
  - split; [discriminate|]. cbn. rewrite_nt 0 0 0. rewrite_nt 0 1 1. rewrite_nt 0 2 1. apply ys_refl.
  - exists 20. vm_compute. reflexivity.
Qed.
Print Assumptions C28_refuted_word_rejected.

(** ... or the grammar itself is refused as conflicting. *)
Theorem C28_refuted_grammar_refused :
  exists g, wf_grammar g /\ LL1 g /\ (forall m, defined g m -> reachable g m) /\
    FromGrammar (256 * length g + 1) g = Err EConflict.
Proof.
  exists two_empty_a.
  assert (K : wfb two_empty_a = true /\
    closed_first two_empty_a (auto_cert two_empty_a) = true /\
    closed_followb two_empty_a (auto_cert two_empty_a) = true /\
    ll1b two_empty_a (auto_cert two_empty_a) = true) by (vm_compute; repeat split).
  destruct K as (K0 & K1 & K2 & K3).
  split; [apply wfb_spec; exact K0|].
  split; [apply rules_LL1; [discriminate|]; eapply check_LL1; eassumption|].
  split; [|vm_compute; reflexivity].
  intros m [<-|[<-|[<-|[<-|[]]]]].
  - exists [], []. apply ys_refl.
  - exists [], [Ch "a"%char]. rewrite_nt 0 0 0. apply ys_refl.
  - exists [], [NT (s2b "B"); Ch "c"%char; Ch "a"%char]. rewrite_nt 0 0 0. rewrite_nt 0 1 0. apply ys_refl.
  - exists [NT (s2b "A")], [Ch "c"%char; Ch "a"%char]. rewrite_nt 0 0 0. rewrite_nt 0 1 0. apply ys_refl.
Qed.
Print Assumptions C28_refuted_grammar_refused.

(** ** C29 *)

(** What FromGrammar reports, exactly. *)
Theorem C29_reported :
  forall order fuel g, wf_grammar g -> 256 * length g + 1 <= fuel ->
    (FromGrammar_order order fuel g = Err EConflict <-> late_empty g (follow_code g)) /\
    ((exists tbl names, FromGrammar_order order fuel g = Ok (tbl, names)) <->
     ~ late_empty g (follow_code g)).
Proof.
  intros order fuel g W Hf.
  destruct (FromGrammar_wf order fuel g W Hf) as [(E & L)|(tbl & names & E & L)]; rewrite E.
  - split; [tauto|]. split; [intros (tbl & names & H); discriminate|contradiction].
  - split; [split; [discriminate|contradiction]|]. split; [auto|]. intros _. exists tbl, names. reflexivity.
Qed.
Print Assumptions C29_reported.

(** A FIRST/FOLLOW conflict whose empty alternative comes last is reported. *)
Theorem C29_last_empty_reported :
  forall order fuel g n s1 s2 c, wf_grammar g -> 256 * length g + 1 <= fuel ->
    two_alternatives g n s1 s2 -> nullable g (seq_form s2) -> first g (seq_form s1) c ->
    follow_code g n (Some c) -> FromGrammar_order order fuel g = Err EConflict.
Proof.
  intros order fuel g n s1 s2 c W Hf H2 Hn Hc Hfo. apply C29_reported; [exact W|exact Hf|].
  destruct (two_alternatives_alt _ _ _ _ H2) as (A1 & A2).
  exists n, s1, s2, c. split; [exact H2|]. split; [exact Hn|]. split; [|right; exact Hc].
  unfold ahead. destruct (Ascii.eqb_spec c NUL) as [->|]; [|exact Hfo].
  destruct (first_alt_nul g n s1 (wf_nulfree _ W) A1 Hc).
Qed.
Print Assumptions C29_last_empty_reported.

(** S ::= A "a"      A ::= "a" | "" *)
Example C29_case :
  let g := [ru "S" [[nt "A"; tm "a"]]; ru "A" [[tm "a"]; [SNothing]]] in
  FromGrammar (256 * length g + 1) g = Err EConflict.
Proof. vm_compute. reflexivity. Qed.

(** A ::= "a" | "a": accepted; the table wants both. *)
Definition first_first : grammar := [ru "A" [[tm "a"]; [tm "a"]]].
Theorem C29_refuted_first_first :
  exists g tbl names,
    wf_grammar g /\ ~ first_disjoint g /\ FromGrammar (256 * length g + 1) g = Ok (tbl, names) /\
    (word g (s2b "a") /\ forall fuel t, ~ parses_to fuel tbl (Some names) (SrcString (s2b "a")) t) /\
    (~ word g (s2b "aa") /\ exists fuel t, parses_to fuel tbl (Some names) (SrcString (s2b "aa")) t).
Proof.
  exists first_first, (fst (gen_of first_first)), (snd (gen_of first_first)).
  split; [apply wfb_spec; vm_compute; reflexivity|].
  split; [|split; [vm_compute; reflexivity|split; split]].
  - intros D. apply (D (s2b "A") [tm "a"] [tm "a"] "a"%char).
    + exists (ru "A" [[tm "a"]; [tm "a"]]), [], [], []. repeat split. left. reflexivity.
    + exists []. apply ys_refl.
    + exists []. apply ys_refl.
  - split; [discriminate|]. cbn. rewrite_nt 0 0 0. apply ys_refl.
  - apply (never_parses _ _ _ 20 (EExpectedChar "a"%char NUL)). vm_compute. reflexivity.
  - intros (_ & H). apply yields_gen in H. cbn in H. inversion H; subst.
    match goal with H : alternative _ _ _ |- _ => destruct H as (r & [<-|[]] & _ & [<-|[<-|[]]]) end;
      match goal with H : gen _ (seq_form _) _ |- _ => cbn in H; inversion H; subst end;
      repeat match goal with H : gen _ [] _ |- _ => inversion H; subst; clear H end;
      cbn in *; discriminate.
  - exists 20. eexists. eexists. vm_compute. reflexivity.
Qed.
Print Assumptions C29_refuted_first_first.

(** S ::= A "a"      A ::= "" | "a": accepted, and the word "a" is rejected. *)
Definition first_follow : grammar := [ru "S" [[nt "A"; tm "a"]]; ru "A" [[SNothing]; [tm "a"]]].
Theorem C29_refuted_first_follow :
  exists g tbl names,
    wf_grammar g /\ ~ LL1 g /\ FromGrammar (256 * length g + 1) g = Ok (tbl, names) /\
    word g (s2b "a") /\ forall fuel t, ~ parses_to fuel tbl (Some names) (SrcString (s2b "a")) t.
Proof.
  exists first_follow, (fst (gen_of first_follow)), (snd (gen_of first_follow)).
  split; [apply wfb_spec; vm_compute; reflexivity|].
  split; [|split; [vm_compute; reflexivity|split]].
  - intros L. refine (proj1 (ll1_follow _ _ L (s2b "A") [SNothing] [tm "a"] "a"%char _ _) _ _).
    + exists (ru "A" [[SNothing]; [tm "a"]]), [], [], []. repeat split. right. left. reflexivity.
    + exists [], []. rewrite_nt 0 0 0. apply ys_refl.
    + apply ys_refl.
    + exists []. apply ys_refl.
  - split; [discriminate|]. cbn. rewrite_nt 0 0 0. rewrite_nt 0 1 0. apply ys_refl.
  - apply (never_parses _ _ _ 20 (EExpectedChar "a"%char NUL)). vm_compute. reflexivity.
Qed.
Print Assumptions C29_refuted_first_follow.

(** ** C30 *)

Theorem C30_undefined_only_shadowed :
  forall order fuel g tbl names n s m,
    NoDup (heads g) -> terminals_nulfree g ->
    FromGrammar_order order fuel g = Ok (tbl, names) ->
    alternative g n s -> In (SNonTerminal m) s -> ~ defined g m -> shadowed g s m.
Proof. exact undefined_shadowed. Qed.
Print Assumptions C30_undefined_only_shadowed.

Lemma plain_calm (E : tgerror -> Prop) g :
  plain_grammar g -> (forall e, E e) -> grammar_calm E g.
Proof.
  intros P A n s H. destruct (P n s H) as [->|F]; [left; reflexivity|right].
  split; [|intros _; apply A]. eapply Forall_impl; [|exact F].
  intros x Hx. destruct x; cbn in *; auto.
Qed.

(** If every rule can start some terminal string or be empty: an error. *)
Theorem C30_undefined_reported :
  forall order fuel g n s m,
    NoDup (heads g) -> terminals_nulfree g -> plain_grammar g ->
    (forall B, defined g B -> nullable g [NT B] \/ exists c, first g [NT B] c) ->
    alternative g n s -> In (SNonTerminal m) s -> ~ defined g m ->
    256 * length g + 1 <= fuel -> exists e, FromGrammar_order order fuel g = Err e.
Proof.
  intros order fuel g n s m Nd Nf P Pr Ha Hm Hu Hf.
  assert (Hg : g <> []) by (destruct Ha as (r & Hr & _); destruct g; [destruct Hr|discriminate]).
  pose proof (FromGrammar_calm (fun _ => True) order fuel g Hg (plain_calm _ g P (fun _ => I)) I) as C.
  pose proof (FromGrammar_fuel order g fuel Hf) as T.
  destruct (FromGrammar_order order fuel g) as [(tbl, names)|e|p|] eqn:E; [|exists e; reflexivity|destruct C|contradiction].
  exfalso. destruct (undefined_shadowed _ _ _ _ _ _ _ _ Nd Nf E Ha Hm Hu)
    as (a & B & b & _ & _ & _ & HB & H1 & H2).
  destruct (Pr B HB) as [H|(c & H)]; [exact (H1 H)|exact (H2 c H)].
Qed.
Print Assumptions C30_undefined_reported.

Example C30_case :
  let g := [ru "S" [[tm "a"; nt "B"]]; ru "C" [[nt "S"; nt "D"]]] in
  FromGrammar (256 * length g + 1) g = Err (ENoRulesDefined (s2b "D")).
Proof. vm_compute. reflexivity. Qed.

(** In general not: A ::= B "x" <undef>     B ::= B "y" *)
Definition undef : grammar := [ru "A" [[nt "B"; tm "x"; nt "undef"]]; ru "B" [[nt "B"; tm "y"]]].
Theorem C30_refuted_general :
  exists g tbl names n s m,
    NoDup (heads g) /\ terminals_nulfree g /\ plain_grammar g /\
    alternative g n s /\ In (SNonTerminal m) s /\ ~ defined g m /\
    FromGrammar (256 * length g + 1) g = Ok (tbl, names).
Proof.
  exists undef, (fst (gen_of undef)), (snd (gen_of undef)), (s2b "A"), [nt "B"; tm "x"; nt "undef"], (s2b "undef").
  split; [apply nodupb_spec; vm_compute; reflexivity|].
  split; [|split; [|split; [|split; [|split]]]].
  - intros n s t (r & Hr & _ & Hs) Ht.
    repeat (destruct Hr as [<-|Hr]; [destruct Hs as [<-|[]]; repeat (destruct Ht as [Ht|Ht]; [inversion Ht; subst; vm_compute; intuition discriminate|]); destruct Ht|]).
    destruct Hr.
  - intros n s (r & Hr & _ & Hs). right.
    repeat (destruct Hr as [<-|Hr]; [destruct Hs as [<-|[]]; repeat constructor; discriminate|]).
    destruct Hr.
  - exists (ru "A" [[nt "B"; tm "x"; nt "undef"]]). repeat split; left; reflexivity.
  - right. right. left. reflexivity.
  - intros [H|[H|[]]]; discriminate.
  - vm_compute. reflexivity.
Qed.
Print Assumptions C30_refuted_general.

(** ** C31 *)

Theorem C31_no_panic :
  forall order fuel g p, g <> [] -> plain_grammar g -> FromGrammar_order order fuel g <> Panic p.
Proof.
  intros order fuel g p Hg P H.
  pose proof (FromGrammar_calm (fun _ => True) order fuel g Hg (plain_calm _ g P (fun _ => I)) I) as C.
  rewrite H in C. exact C.
Qed.
Print Assumptions C31_no_panic.

Theorem C31_refuted_general :
  FromGrammar 1 [] = Panic PanicIndex /\
  FromGrammar 300 [ru "A" [[STerminal []]]] = Panic PanicIndex /\
  FromGrammar 300 [ru "A" [[tm "a"; SNothing]]] = Panic PanicNothingInSequence /\
  FromGrammar 300 [ru "A" [[SUnknown (s2b "x")]]] = Panic PanicUnknownSymbol.
Proof. vm_compute. repeat split. Qed.
Print Assumptions C31_refuted_general.

(** ** C32 *)

Theorem C32_order_irrelevant :
  forall o1 o2 fuel g,
    (forall l, Permutation (o1 l) l) -> (forall l, Permutation (o2 l) l) ->
    match FromGrammar_order o1 fuel g, FromGrammar_order o2 fuel g with
    | Ok (t1, n1), Ok (t2, n2) => t1 = t2 /\ forall k, map_get Z.eqb k n1 = map_get Z.eqb k n2
    | Err e1, Err e2 => e1 = e2
    | Panic p1, Panic p2 => p1 = p2
    | NoFuel, NoFuel => True
    | _, _ => False
    end.
Proof. exact FromGrammar_any_order. Qed.
Print Assumptions C32_order_irrelevant.

Example C32_case : forall l : list (bytes * nat), Permutation (rev l) l.
Proof. intros l. symmetry. apply Permutation_rev. Qed.

(** ** C33 *)

Theorem C33_terminates :
  forall order fuel0 g tbl names m src text,
    wf_grammar g -> LL1 g -> FromGrammar_order order fuel0 g = Ok (tbl, names) ->
    delivers src text -> exists fuel, result fuel tbl (Some m) src <> NoFuel.
Proof.
  intros order fuel0 g tbl names m src text W L H Hd.
  eapply (ll1_terminates order fuel0 g tbl names (follow g)); try eassumption. apply follow_closed.
Qed.
Print Assumptions C33_terminates.

(** Parse does not return on texts that start with [c]. *)
Theorem C33_diverges :
  forall order fuel0 g tbl names c S,
    NoDup (heads g) -> terminals_nulfree g -> FromGrammar_order order fuel0 g = Ok (tbl, names) ->
    loops g c S ->
    forall fuel m src text, delivers src (c :: text) -> result fuel tbl m src = NoFuel.
Proof.
  intros order fuel0 g tbl names c S Nd Nf H L fuel m src text Hd.
  unfold result. rewrite (Parse_usable fuel tbl m src (c :: text)); [|eapply FromGrammar_row0, H|exact Hd].
  rewrite (diverges g tbl m c text fuel S); [reflexivity| | |exact L].
  - eapply FromGrammar_table; eassumption.
  - eapply FromGrammar_nonempty, H.
Qed.
Print Assumptions C33_diverges.

(** The left-recursive grammar of the repository's own tests, alternatives
    exchanged: T ::= T "B" | "_" *)
Definition left_rec : grammar := [ru "T" [[nt "T"; tm "B"]; [tm "_"]]].
Theorem C33_refuted_left_recursive :
  exists tbl names, wf_grammar left_rec /\
    FromGrammar (256 * length left_rec + 1) left_rec = Ok (tbl, names) /\
    word left_rec (s2b "_B") /\
    forall fuel, result fuel tbl (Some names) (SrcString (s2b "_B")) = NoFuel.
Proof.
  exists (fst (gen_of left_rec)), (snd (gen_of left_rec)).
  assert (W : wf_grammar left_rec) by (apply wfb_spec; vm_compute; reflexivity).
  assert (E : FromGrammar (256 * length left_rec + 1) left_rec =
              Ok (fst (gen_of left_rec), snd (gen_of left_rec))) by (vm_compute; reflexivity).
  split; [exact W|]. split; [exact E|]. split.
  - split; [discriminate|]. cbn. rewrite_nt 0 0 0. rewrite_nt 0 0 1. apply ys_refl.
  - intros fuel. eapply (C33_diverges _ _ left_rec _ _ "_"%char (fun n => n = s2b "T")).
    + exact (wf_distinct _ W).
    + exact (wf_nulfree _ W).
    + exact E.
    + split; [reflexivity|]. intros r [<-|[]] _. exists (s2b "T"), [tm "B"], [[tm "_"]].
      split; [|reflexivity]. apply sel_take.
      * exists (chars (s2b "B")). cbn. rewrite_nt 0 0 1. apply ys_refl.
      * apply sel_take; [|constructor]. exists []. apply ys_refl.
    + apply dl_string.
Qed.
Print Assumptions C33_refuted_left_recursive.
