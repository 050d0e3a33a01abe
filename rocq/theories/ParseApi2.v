(** * ParseApi2: the lemmas behind Props_Parser. *)
From Verif Require Import Base Cst Parser Spec_Parse Spec_Tree ParserProofs TreeProofs
  ParseApi Concurrent ConcurrentProofs.

(** ** C07, nil naming map *)

Definition nil_related (a b : gores Empty_set preturn) : Prop :=
  match a, b with
  | NoFuel, NoFuel => True
  | Panic p, Panic q => p = q /\ p <> PanicNilMapWrite
  | Panic p, Ok (mkRet (Some t) (Some (Some _)) None) => p = PanicNilMapWrite
  | Ok (mkRet None None (Some _)), Ok (mkRet None None (Some _)) => True
  | _, _ => False
  end.

Lemma run_nil tbl text m fuel : forall st,
  nil_related (fst (run tbl text None fuel st)) (fst (run tbl text (Some m) fuel st)).
Proof.
  induction fuel as [|fuel IH]; intros st; [exact I|]. simpl. unfold step.
  destruct (ps_ops st) as [|op ops]; [simpl; split; [reflexivity|discriminate]|].
  destruct op as [n|t|n p a| |c| |e].
  - unfold processNonTerminal, processBuiltinNonTerminal, processTableNonTerminal.
    destruct (n <? 0)%Z.
    + destruct (n =? -2)%Z; [|exact I].
      destruct (Ascii.eqb (peek text (ps_off st)) LF); [apply IH|].
      destruct (Ascii.eqb (peek text (ps_off st)) CR); [apply IH|exact I].
    + destruct (table_get n tbl); [|exact I].
      destruct (row_get (peek text (ps_off st)) r); [apply IH|exact I].
  - apply IH.
  - unfold processFunction. destruct (Nat.eqb a 0); [apply IH|].
    destruct (pop_childs (n =? builtinTerminal)%Z a (ps_prods st) []) as [[? ?]| |q|] eqn:E.
    + apply IH.
    + destruct e.
    + simpl. split; [reflexivity|]. intros ->. clear -E.
      revert E. generalize (ps_prods st) (@nil node). generalize (n =? builtinTerminal)%Z as d.
      intros d. induction a as [|a IHa]; intros l acc; simpl; [discriminate|].
      destruct l as [|x l]; [discriminate|]. destruct (negb d); [apply IHa|].
      destruct (negb (n_type x =? builtinTerminal)%Z); [discriminate|apply IHa].
    + simpl. split; [reflexivity|discriminate].
  - unfold processEOS. destruct (negb (Ascii.eqb (peek text (ps_off st)) NUL)); [exact I|].
    destruct (ps_prods st); [exact I|reflexivity].
  - unfold processChar. destruct (negb (Ascii.eqb c (peek text (ps_off st)))); [exact I|apply IH].
  - simpl. split; [reflexivity|discriminate].
  - simpl. split; [reflexivity|destruct e; discriminate].
Qed.

Lemma result_nil fuel tbl m src :
  nil_related (result fuel tbl None src) (result fuel tbl (Some m) src).
Proof.
  unfold result. destruct (has_row0_dec tbl) as [[r Hr]|Hn].
  - destruct (readSource_cases src) as [(text & Hd & _)|(e & He & _)].
    + rewrite !(Parse_usable _ _ _ _ text) by (first [assumption|exists r; exact Hr]).
      apply run_nil.
    + rewrite !(Parse_bad_source _ _ _ _ e) by (first [assumption|exists r; exact Hr]). exact I.
  - rewrite !Parse_no_row0 by exact Hn. exact I.
Qed.

Lemma nil_names tbl m src :
  table_public tbl ->
  (forall fuel t, parses_to fuel tbl (Some m) src t ->
                  result fuel tbl None src = Panic PanicNilMapWrite) /\
  (forall fuel p, result fuel tbl None src = Panic p ->
                  p = PanicNilMapWrite /\ exists t, parses_to fuel tbl (Some m) src t) /\
  (forall fuel t nm e, result fuel tbl None src <> Ok (mkRet (Some t) nm e)).
Proof.
  intros Hp. split; [|split].
  - intros fuel t (nm & H). pose proof (result_nil fuel tbl m src) as R. rewrite H in R.
    destruct (result fuel tbl None src) as [[[?|] [?|] [?|]]|[]|q|]; simpl in R; try contradiction.
    congruence.
  - intros fuel p H. pose proof (result_nil fuel tbl m src) as R. rewrite H in R.
    destruct (result fuel tbl (Some m) src) as [[[t|] [[nm|]|] [?|]]|[]|q|] eqn:E;
      simpl in R; try contradiction.
    + split; [exact R|]. exists t, nm. exact E.
    + destruct (no_panic fuel tbl m src q Hp E).
  - intros fuel t nm e H. pose proof (result_nil fuel tbl m src) as R. rewrite H in R.
    destruct nm, e; simpl in R; contradiction.
Qed.

(** ** C09, C10 *)

Lemma root_facts tbl text t :
  derives_text tbl text t ->
  exists q, derives tbl text (OpNonTerminal 0) 0 t q /\ byte_at text q = NUL /\
            n_pos t = 0%Z /\ n_end t = Z.of_nat q.
Proof.
  intros (q & D & Hq). exists q. destruct (derives_root _ _ _ _ _ _ D) as (H1 & H2 & _). auto.
Qed.

Lemma tree_placed fuel tbl m src text t :
  table_public tbl -> delivers src text -> parses_to fuel tbl (Some m) src t ->
  n_pos t = 0%Z /\ forall n, subnode n t -> well_placed n.
Proof.
  intros Hp Hd H. apply (parses_to_spec _ _ _ _ text) in H; [|assumption..].
  apply root_facts in H. destruct H as (q & D & _ & H1 & _). split; [exact H1|].
  apply (proj1 (derives_placed_both tbl text) _ _ _ _ D).
Qed.

Lemma tree_spells fuel tbl m src text t :
  table_public tbl -> table_nulfree tbl -> delivers src text ->
  parses_to fuel tbl (Some m) src t ->
  exists terminals,
    built tbl (OpNonTerminal 0) t terminals /\
    map (fun n => text_of text (n_pos n) (n_end n)) (literals t) = terminals /\
    concat terminals = text_of text 0 (n_end t).
Proof.
  intros Hp NF Hd H. apply (parses_to_spec _ _ _ _ text) in H; [|assumption..].
  apply root_facts in H. destruct H as (q & D & _ & H1 & H2).
  destruct (proj1 (derives_spell_both tbl text NF) _ _ _ _ D I ltac:(lia)) as (ts & B & T & C).
  exists ts. split; [exact B|]. split; [exact T|]. rewrite C, H2.
  symmetry. apply (text_of_nat text 0 q).
Qed.

(** ** C11 *)

Lemma parse_iff_derivation tbl m src text t :
  table_public tbl -> delivers src text ->
  ((exists fuel, parses_to fuel tbl (Some m) src t) <-> derives_text tbl text t).
Proof.
  intros Hp Hd. split.
  - intros (fuel & H). eapply parses_to_spec; eassumption.
  - intros H. destruct (spec_parses_to tbl m src text t Hd H) as (f & Hf). exists f. apply Hf. lia.
Qed.

Lemma parse_iff_rewriting tbl m src text :
  table_public tbl -> delivers src text ->
  ((exists fuel t, parses_to fuel tbl (Some m) src t) <->
   (exists q, rewrites_star tbl text (0, [Row 0]) (q, []) /\ byte_at text q = NUL)).
Proof.
  intros Hp Hd. split.
  - intros (fuel & t & H). eapply derives_text_rws. eapply parses_to_spec; eassumption.
  - intros (q & H1 & H2). destruct (rws_derives_text tbl text (Some m) Hp q H1 H2) as (t & Ht).
    destruct (spec_parses_to tbl m src text t Hd Ht) as (f & Hf). exists f, t. apply Hf. lia.
Qed.

(** ** C12, C13 *)

Lemma end_at_nul fuel tbl m src text t :
  table_public tbl -> delivers src text -> parses_to fuel tbl (Some m) src t ->
  exists q, n_end t = Z.of_nat q /\ byte_at text q = NUL.
Proof.
  intros Hp Hd H. apply (parses_to_spec _ _ _ _ text) in H; [|assumption..].
  apply root_facts in H. destruct H as (q & _ & H1 & _ & H2). exists q. auto.
Qed.

Lemma root_bound fuel tbl m src text t :
  table_public tbl -> table_nulfree tbl -> delivers src text ->
  parses_to fuel tbl (Some m) src t -> (n_end t <= Z.of_nat (length text))%Z.
Proof.
  intros Hp NF Hd H. apply (parses_to_spec _ _ _ _ text) in H; [|assumption..].
  apply root_facts in H. destruct H as (q & D & _ & _ & H2).
  pose proof (proj1 (derives_bound_both tbl text NF) _ _ _ _ D I ltac:(lia)). lia.
Qed.

Lemma whole_source fuel tbl m src text t :
  table_public tbl -> table_nulfree tbl -> ~ In NUL text -> delivers src text ->
  parses_to fuel tbl (Some m) src t -> n_end t = Z.of_nat (length text).
Proof.
  intros Hp NF Hn Hd H. pose proof (root_bound _ _ _ _ _ _ Hp NF Hd H) as B.
  destruct (end_at_nul _ _ _ _ _ _ Hp Hd H) as (q & E & Hq).
  destruct (Nat.lt_ge_cases q (length text)) as [L|L]; [|lia].
  exfalso. apply Hn. rewrite <- Hq. apply nth_In, L.
Qed.

Lemma positions_valid fuel tbl m src text t :
  table_public tbl -> table_nulfree tbl -> delivers src text ->
  parses_to fuel tbl (Some m) src t ->
  forall n, subnode n t -> (0 <= n_pos n <= n_end n)%Z /\ (n_end n <= Z.of_nat (length text))%Z.
Proof.
  intros Hp NF Hd H n Hs. pose proof (root_bound _ _ _ _ _ _ Hp NF Hd H) as B.
  destruct (tree_placed _ _ _ _ _ _ Hp Hd H) as [R W].
  destruct (placed_inside t W n Hs). pose proof (W n Hs) as (O & _). lia.
Qed.

(** ** C14 *)

Lemma names_effect fuel tbl m src :
  let after := Parse fuel (NewLL1Parser tbl (Some m)) src in
  (forall t nm e, po_result after = Ok (mkRet (Some t) nm e) ->
     exists m', nm = Some (Some m') /\ po_names after = Some m' /\
       forall k, map_get Z.eqb k m' =
         if (k =? -1)%Z then Some (s2b "_literal")
         else if (k =? -2)%Z then Some (s2b "_nothing") else map_get Z.eqb k m) /\
  ((forall t nm e, po_result after <> Ok (mkRet (Some t) nm e)) -> po_names after = Some m).
Proof.
  cbv zeta. split.
  - intros t nm e H. destruct (names_returned fuel tbl m src t nm e H) as [-> ->].
    exists (names_after m). split; [reflexivity|].
    split; [rewrite names_left; unfold result; rewrite H; reflexivity|].
    intros k. rewrite names_after_get.
    destruct (Z.eqb_spec k (-2)) as [->|N2]; [reflexivity|].
    destruct (k =? -1)%Z; reflexivity.
  - intros H. rewrite names_left. unfold result.
    destruct (po_result (Parse fuel (NewLL1Parser tbl (Some m)) src)) as [r| | |] eqn:E;
      try reflexivity.
    destruct (return_contract _ _ _ _ _ E) as [(t & nm & ->)|(e & ->)]; [|reflexivity].
    destruct (H _ _ _ eq_refl).
Qed.

Lemma repeatable tbl m (calls : list (nat * source)) :
  fst (parse_history tbl (Some m) calls) =
  map (fun c => result (fst c) tbl (Some m) (snd c)) calls.
Proof. rewrite history_results. reflexivity. Qed.

(** ** C15, C16 *)

Lemma sources_equivalent fuel tbl names src1 src2 text :
  delivers src1 text -> delivers src2 text ->
  result fuel tbl names src1 = result fuel tbl names src2.
Proof.
  intros H1 H2. unfold result. destruct (has_row0_dec tbl) as [[r Hr]|Hn].
  - rewrite !(Parse_usable _ _ _ _ text) by (first [assumption|exists r; exact Hr]). reflexivity.
  - rewrite !Parse_no_row0 by exact Hn. reflexivity.
Qed.

Lemma bad_sources fuel tbl names src :
  has_row0 tbl ->
  (src = SrcNil -> fails_with fuel tbl names src EEmptySource) /\
  (src = SrcBuffer None \/ src = SrcOther -> fails_with fuel tbl names src EInvalidSource) /\
  (forall chunks msg, src = SrcReader (mkReader chunks (Some msg)) ->
     fails_with fuel tbl names src (EReader msg)).
Proof.
  intros H0. unfold fails_with, result. split; [|split].
  - intros ->. rewrite (Parse_bad_source _ _ _ _ EEmptySource) by (assumption || reflexivity).
    reflexivity.
  - intros [-> | ->]; rewrite (Parse_bad_source _ _ _ _ EInvalidSource)
      by (assumption || reflexivity); reflexivity.
  - intros chunks msg ->. rewrite (Parse_bad_source _ _ _ _ (EReader msg))
      by (assumption || reflexivity). reflexivity.
Qed.

Lemma source_kinds src :
  (exists text, delivers src text) \/
  src = SrcNil \/ src = SrcBuffer None \/ src = SrcOther \/
  exists chunks msg, src = SrcReader (mkReader chunks (Some msg)).
Proof. destruct src as [|s|s|[s|]|[chunks [m|]]|]; eauto 8 using delivers. Qed.

Lemma unusable_table fuel tbl names src :
  ~ has_row0 tbl ->
  let after := Parse fuel (NewLL1Parser tbl names) src in
  po_result after =
    Ok (mkRet None None (Some (match tbl with [] => EEmptyTable | _ => ENoBaseEntry end))) /\
  po_source after = src /\ po_names after = names.
Proof.
  intros H. destruct (has_row0_dec tbl) as [[r Hr]|Hn]; [destruct H; exists r; exact Hr|].
  cbv zeta. rewrite Parse_no_row0 by exact Hn. auto.
Qed.

(** ** C17 *)

Lemma one_outcome tbl m src text :
  table_public tbl -> has_row0 tbl -> delivers src text ->
  (forall t k e, derives_text tbl text t -> refuses tbl text (Some m) k e -> False) /\
  (forall k e k' e', refuses tbl text (Some m) k e -> refuses tbl text (Some m) k' e' ->
     k = k' /\ e = e').
Proof.
  intros Hp H0 Hd. split.
  - intros t k e H1 H2.
    destruct (spec_parses_to tbl m src text t Hd H1) as (f1 & F1).
    destruct (spec_fails_with tbl m src text k e Hp H0 Hd H2) as (f2 & F2).
    destruct (F1 (f1 + f2) ltac:(lia)) as (nm & E). specialize (F2 (f1 + f2) ltac:(lia)).
    unfold fails_with in F2. rewrite E in F2. discriminate.
  - (* rewriting is deterministic and stuck forms are final *)
    assert (Det : forall a b c, rewrites tbl text a b -> rewrites tbl text a c -> b = c).
    { intros a b c R1 R2. inversion R1; subst; inversion R2; subst; try reflexivity; try lia;
        try congruence;
        try (match goal with H1 : byte_at _ _ = LF, H2 : byte_at _ _ = CR |- _ =>
               rewrite H1 in H2; discriminate end).
      match goal with H1 : cell _ _ _ ?o1, H2 : cell _ _ _ ?o2 |- _ =>
        rewrite (cell_fun _ _ _ _ _ H1 H2); reflexivity end. }
    intros k e k' e' (f1 & R1 & S1) (f2 & R2 & S2).
    revert R1 R2. generalize (0, [Row 0]) as a. intros a R1.
    remember (k, f1) as b eqn:Eb. revert Eb.
    induction R1 as [c|a b c St _ IH]; intros Eb R2.
    + subst c. inversion R2 as [? E1 E2|? c2 ? St2 _ E1 E2]; subst.
      * split; [reflexivity|]. eapply stuck_fun; eassumption.
      * exfalso. eapply stuck_irreducible; [exact S1|exact St2].
    + inversion R2 as [? E1 E2|? c2 ? St2 R3 E1 E2]; subst.
      * exfalso. eapply stuck_irreducible; [exact S2|exact St].
      * apply IH; [reflexivity|]. rewrite (Det _ _ _ St St2). exact R3.
Qed.

(** ** C18 *)

Lemma eol_nodes fuel tbl m src text t :
  table_public tbl -> delivers src text -> parses_to fuel tbl (Some m) src t ->
  forall n, subnode n t ->
    (-2 <= n_type n)%Z /\
    (n_type n = (-2)%Z ->
       (n_childs n = [] /\ n_pos n = n_end n) \/
       (exists p, n = mk (-2) p (p + 1) [literal_at p (p + 1)] /\ byte_at text p = LF) \/
       (exists p, n = mk (-2) p (p + 2) [literal_at p (p + 1); literal_at (p + 1) (p + 2)] /\
                  byte_at text p = CR /\ byte_at text (p + 1) = LF)).
Proof.
  intros Hp Hd H. apply (parses_to_spec _ _ _ _ text) in H; [|assumption..].
  destruct H as (q & D & _). apply (proj1 (derives_types_both tbl text) _ _ _ _ D).
Qed.

Lemma all_bytes_in c : In c all_bytes.
Proof.
  unfold all_bytes. apply in_map_iff. exists (N.to_nat (code c)).
  rewrite N2Nat.id. split; [apply ascii_N_embedding|].
  apply in_seq. pose proof (N_ascii_bounded c). unfold code. lia.
Qed.

Opaque all_bytes.

Lemma map_get_map {V} (f : ascii -> V) l c :
  In c l -> map_get Ascii.eqb c (map (fun x => (x, f x)) l) = Some (f c).
Proof.
  induction l as [|d l IH]; intros H; [destruct H|]. simpl.
  destruct (Ascii.eqb_spec c d) as [->|N]; [reflexivity|].
  apply IH. destruct H; [congruence|assumption].
Qed.

Lemma only_cell n c : cell (only n) 0 c [OpNonTerminal n].
Proof.
  exists (map (fun c => (c, [OpNonTerminal n])) all_bytes). split; [reflexivity|].
  apply (map_get_map (fun _ => [OpNonTerminal n])). apply all_bytes_in.
Qed.

Lemma only_cell_inv n k c ops : cell (only n) k c ops -> k = 0%Z /\ ops = [OpNonTerminal n].
Proof.
  intros H. assert (k = 0)%Z as ->.
  { destruct H as (r & H & _). unfold only in H. simpl in H.
    destruct (Z.eqb_spec k 0); [assumption|discriminate]. }
  split; [reflexivity|]. eapply cell_fun; [exact H|apply only_cell].
Qed.

Lemma only_public n : table_public (only n).
Proof.
  intros k r c ops [H|[]] H2. injection H as <- <-. apply in_map_iff in H2.
  destruct H2 as (x & E & _). injection E as _ <-. repeat constructor.
Qed.

Lemma only_row0 n : has_row0 (only n).
Proof. eexists. reflexivity. Qed.

Lemma eol_exactly m src text :
  delivers src text -> ~ In NUL text ->
  ((exists fuel t, parses_to fuel (only (-2)) (Some m) src t) <->
   text = [LF] \/ text = [CR; LF]).
Proof.
  intros Hd Hn. split.
  - intros (fuel & t & H). apply (parses_to_spec _ _ _ _ text) in H; [|apply only_public|exact Hd].
    destruct H as (q & D & Hq). 
    assert (L : length text <= q).
    { destruct (Nat.lt_ge_cases q (length text)) as [L|L]; [|exact L].
      destruct Hn. rewrite <- Hq. apply nth_In, L. }
    inversion D; subst; try lia.
    + match goal with H : cell _ _ _ _ |- _ => apply only_cell_inv in H; destruct H as [_ ->] end.
      match goal with H : derives_all _ _ _ _ _ _ |- _ => inversion H; subst end.
      match goal with H : derives_all _ _ [] _ _ _ |- _ => inversion H; subst end.
      match goal with H : derives _ _ _ _ _ _ |- _ => inversion H; subst end; try lia.
      * left. destruct text as [|a [|b text]]; [discriminate| |simpl in L; lia].
        match goal with H : byte_at _ _ = LF |- _ => cbv in H; rewrite H end. reflexivity.
      * right. destruct text as [|a [|b [|c text]]]; try discriminate; [|simpl in L; lia].
        match goal with H : byte_at _ 0 = CR |- _ => cbv in H; rewrite H end.
        match goal with H : byte_at _ (0 + 1) = LF |- _ => cbv in H; rewrite H end. reflexivity.
    + match goal with H : cell _ _ _ _ |- _ => apply only_cell_inv in H; destruct H as [_ H] end.
      discriminate.
  - intros Ht.
    assert (D : exists t, derives_text (only (-2)) text t).
    { destruct Ht as [-> | ->].
      - eexists. exists 1. split; [|reflexivity].
        eapply d_nonterminal; [lia|apply only_cell|discriminate|].
        econstructor; [apply d_eol_lf; reflexivity|constructor].
      - eexists. exists 2. split; [|reflexivity].
        eapply d_nonterminal; [lia|apply only_cell|discriminate|].
        econstructor; [apply d_eol_crlf; reflexivity|constructor]. }
    destruct D as (t & D). destruct (spec_parses_to (only (-2)) m src text t Hd D) as (f & Hf).
    exists f, t. apply Hf. lia.
Qed.

Lemma other_builtins n m src text :
  (n < 0)%Z -> n <> (-2)%Z -> delivers src text ->
  exists fuel, fails_with fuel (only n) (Some m) src (EUnknownBuiltin n).
Proof.
  intros H1 H2 Hd.
  assert (R : refuses (only n) text (Some m) 0 (EUnknownBuiltin n)).
  { exists [Row n]. split; [|apply st_builtin; assumption].
    econstructor; [|constructor]. apply (rw_row _ _ 0 [OpNonTerminal n] 0 []); [lia|apply only_cell]. }
  destruct (spec_fails_with _ m src text _ _ (only_public n) (only_row0 n) Hd R) as (f & Hf).
  exists f. apply Hf. lia.
Qed.

(** ** C19 *)

Lemma error_diagnosis tbl m src text e :
  table_public tbl -> has_row0 tbl -> delivers src text ->
  ((exists fuel, fails_with fuel tbl (Some m) src e) <->
   (exists k, refuses tbl text (Some m) k e)).
Proof.
  intros Hp H0 Hd. split.
  - intros (fuel & H). eapply fails_with_spec; eassumption.
  - intros (k & H). destruct (spec_fails_with tbl m src text k e Hp H0 Hd H) as (f & Hf).
    exists f. apply Hf. lia.
Qed.

Lemma matched_prefix tbl text k form :
  table_nulfree tbl -> rewrites_star tbl text (0, [Row 0]) (k, form) ->
  k <= length text /\ generates tbl [Row 0] (map Byte (firstn k text) ++ form).
Proof.
  intros NF H.
  destruct (rewrites_matched tbl text (0, [Row 0]) (k, form) NF H) as [H1 H2].
  - repeat constructor.
  - simpl. lia.
  - split; [exact H1|]. apply H2. constructor.
Qed.

(** ** C20 *)

Lemma interleaving_results tbl m texts ths nm i text th :
  has_row0 tbl -> conc_steps tbl (conc_init texts m) (ths, nm) ->
  nth_error texts i = Some text -> nth_error ths i = Some th ->
  match th with
  | TTree _ t => exists fuel, parses_to fuel tbl (Some m) (SrcString text) t
  | TErr _ e => exists fuel, fails_with fuel tbl (Some m) (SrcString text) e
  | TPanic _ p => ~ table_public tbl
  | _ => True
  end.
Proof.
  intros H0 Hs Ht Hth. pose proof (conc_results tbl m texts ths nm i text th Hs Ht Hth) as R.
  destruct th; auto.
  - destruct R as [_ (fuel & nm' & E)]. exists fuel. unfold parses_to, result.
    rewrite (Parse_usable _ _ _ _ text) by (assumption || constructor). cbn [po_result].
    simpl in E. destruct (run tbl text (Some m) fuel init_state) as [o q] eqn:Er. simpl in *. subst o.
    destruct (run_shape _ _ _ _ _ _ _ Er) as [(t' & m' & E)|(e & E)]; [|discriminate].
    injection E as <- ->. exists m'. reflexivity.
  - destruct R as [_ (fuel & nm' & E)]. exists fuel. unfold fails_with, result.
    rewrite (Parse_usable _ _ _ _ text) by (assumption || constructor). cbn [po_result].
    simpl in E. destruct (run tbl text (Some m) fuel init_state) as [o q] eqn:Er. simpl in *. subst o.
    destruct (run_shape _ _ _ _ _ _ _ Er) as [(t' & m' & E)|(e' & E)]; [discriminate|].
    injection E as -> <-. reflexivity.
  - destruct R as [_ (fuel & E)]. intros Hp.
    destruct (run_cases tbl text (Some m) Hp fuel) as [H|[(t & _ & H)|(k & e & _ & H)]];
      rewrite H in E; discriminate.
Qed.

Lemma interleaving_map tbl m texts ths nm :
  conc_steps tbl (conc_init texts m) (ths, nm) -> Forall finished ths ->
  nm = if existsb (fun th => match th with TTree _ _ => true | _ => false end) ths
       then Some (names_after m) else Some m.
Proof.
  intros Hs Hf. destruct (conc_map tbl m texts ths nm Hs Hf) as [[(x & t & H) ->]|[H ->]].
  - assert (existsb (fun th => match th with TTree _ _ => true | _ => false end) ths = true) as ->.
    { apply existsb_exists. exists (TTree x t). auto. }
    reflexivity.
  - destruct (existsb (fun th => match th with TTree _ _ => true | _ => false end) ths) eqn:E;
      [|reflexivity].
    apply existsb_exists in E. destruct E as (th & Hin & E). destruct th; try discriminate.
    destruct H. eauto.
Qed.

Lemma data_race tbl m text1 text2 t1 t2 f1 f2 :
  parses_to f1 tbl (Some m) (SrcString text1) t1 ->
  parses_to f2 tbl (Some m) (SrcString text2) t2 ->
  exists c, conc_steps tbl (conc_init [text1; text2] m) c /\ racy c.
Proof.
  assert (G : forall f text t, parses_to f tbl (Some m) (SrcString text) t ->
     exists nm, fst (run tbl text (Some m) f init_state) = Ok (mkRet (Some t) nm None)).
  { intros f text t (nm & H). exists (Some (Some nm)). unfold result in H.
    destruct (has_row0_dec tbl) as [[r Hr]|Hn].
    - rewrite (Parse_usable _ _ _ _ text) in H by (first [exists r; exact Hr|constructor]). exact H.
    - rewrite Parse_no_row0 in H by exact Hn. discriminate. }
  intros H1 H2. apply G in H1, H2. destruct H1 as (n1 & H1), H2 as (n2 & H2).
  eapply race_reachable; eassumption.
Qed.
