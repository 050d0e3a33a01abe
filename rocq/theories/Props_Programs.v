(** * Props_Programs: properties C37 (second part), C52 and C88, the example
    programs seen from outside. *)
From Coq Require Import Sorting.Permutation.
From Verif Require Import Base ByteSet Cst Ast Parser SelfGrammar TableGen TableGenOutput FromCst ExamplesModel Examples Messages
  Spec_Parse Spec_Tree Spec_Grammar Spec_Table Spec_Bnf Spec_Json Spec_Reading Spec_Override Spec_Outcome Spec_Predict Spec_Messages
  Spec_Programs GrammarProofs ParserProofs TreeProofs ParseApi ParseApi2 TGMain TGCells TGClosed TGParse TGNames TGCheck
  Props_Parser Props_TableGen Props_Convert BnfDet BnfPrint BnfParser BnfWords BnfTrees Checked
  TGOverride TGOutcome TGOutput Props_Override Props_Outcome Props_Output NulProofs ConvertText NulText Props_Bnf
  WalkProofs JsonParser JsonWords JsonTrees JsonDet Props_Json TGPredict Props_Predict Props_Pipeline MessagesProofs Props_Messages ProgramsProofs.

(** ** Running longer *)

Lemma FromGrammar_io_more order g fuel k :
  FromGrammar_order order fuel g <> NoFuel ->
  FromGrammar_io order (fuel + k) g = FromGrammar_io order fuel g.
Proof.
  intros H. pose proof H as H'. rewrite FromGrammar_unfold in H'.
  unfold FromGrammar_io, Run_io, collectRuleHeads. change (map r_head g) with (heads g).
  assert (L : length (heads g) = length g) by apply map_length. rewrite !L.
  assert (H1 : findFirsts g (enumerate (heads g)) fuel (repeat (bs_new []) (length g)) <> NoFuel).
  { intros E. rewrite E in H'. apply H'. reflexivity. }
  rewrite findFirsts_more by exact H1.
  destruct (findFirsts g (enumerate (heads g)) fuel (repeat (bs_new []) (length g))) as [firsts| | |]; try reflexivity.
  cbn [gobind] in H'.
  assert (H2 : findFollows g (enumerate (heads g)) (fuel + k) firsts (repeat (bs_new []) (length g)) =
               findFollows g (enumerate (heads g)) fuel firsts (repeat (bs_new []) (length g))).
  { unfold findFollows in *.
    destruct (index (repeat (bs_new []) (length g)) 0); cbn [gobind] in *; try reflexivity.
    apply follows_loop_more. intros E. rewrite E in H'. apply H'. reflexivity. }
  unfold iobind, quiet. cbn [fst snd]. rewrite H2. reflexivity.
Qed.

(** [FromGrammar_io] as a pair. *)
Lemma io_pair order fuel g : FromGrammar_io order fuel g = (fst (FromGrammar_io order fuel g), FromGrammar_order order fuel g).
Proof. rewrite <- C68_result. apply surjective_pairing. Qed.
Lemma io_ok order fuel g x : FromGrammar_order order fuel g = Ok x -> FromGrammar_io order fuel g = ([], Ok x).
Proof. intros E. rewrite io_pair, C68_silent, E; [reflexivity|]. rewrite E. discriminate. Qed.

Lemma nth_error_skipn {A} n (l : list A) i : nth_error (skipn n l) i = nth_error l (n + i).
Proof. revert l. induction n as [|n IH]; intros [|x l]; cbn; [reflexivity|reflexivity|destruct i; reflexivity|apply IH]. Qed.
Lemma conflict_dec (e : tgerror) : {e = EConflict} + {e <> EConflict}.
Proof. destruct e; try (right; discriminate). left. reflexivity. Qed.

Section Program.
  Variables order order' : list (bytes * nat) -> list (bytes * nat).
  Hypothesis Po : forall l, Permutation (order l) l.
  Hypothesis Po' : forall l, Permutation (order' l) l.
  Variable typename : bytes.
  Notation json_main := (json_main order order' typename).

  (** What happens once the grammar has been read. *)
  Definition json_rest (fuel : nat) (g : grammar) (data : bytes) : process :=
    let (out, made) := FromGrammar_io order' fuel g in
    match made with
    | Err e => fatalError out [s2b "can't build parser table from JSON grammar:"; tgerror_string typename e]
    | Panic p => Crashed out p
    | NoFuel => Running
    | Ok (tbl, names) =>
        let out := println out (s2b "Created table for JSON parser") in
        match result fuel tbl (Some names) (SrcString data) with
        | Err e => match e with end
        | Panic p => Crashed out p
        | NoFuel => Running
        | Ok (mkRet _ _ (Some e)) => fatalError out [s2b "can't parse JSON text:"; perror_string e]
        | Ok (mkRet jsonCST _ None) =>
            let out := println out (s2b "Parsed successfully") in
            let out := println out (s2b "JSON key structure:") in
            match jsonCST with
            | None => Exited out [] 0
            | Some t =>
                match walk (keyVisit_io data) 0 (out, None) t with
                | Ok (out, None) => Exited out [] 0
                | Ok (out, Some p) => Crashed out p
                | Err e => match e with end
                | Panic p => Crashed out p
                | NoFuel => Running
                end
            end
        end
    end.

  (** The parser of BNF texts. *)
  Lemma bnf_parser_made : exists tbl names,
    (forall fuel, enough SelfGrammar <= fuel -> FromGrammar_io order fuel SelfGrammar = ([], Ok (tbl, names))) /\
    (forall fuel, FromGrammar_io order fuel SelfGrammar = ([], Ok (tbl, names)) \/ snd (FromGrammar_io order fuel SelfGrammar) = NoFuel) /\
    FromGrammar_order order (enough SelfGrammar) SelfGrammar = Ok (tbl, names) /\
    names_rules SelfGrammar names.
  Proof.
    destruct (C42_generated order) as (tbl & names & E). exists tbl, names.
    assert (A : forall fuel, enough SelfGrammar <= fuel -> FromGrammar_io order fuel SelfGrammar = ([], Ok (tbl, names))).
    { intros fuel Hf. apply io_ok, E, Hf. }
    split; [exact A|]. split; [|split].
    - intros fuel. destruct (FromGrammar_order order fuel SelfGrammar) as [x|e|p|] eqn:R.
      4: { right. rewrite C68_result. exact R. }
      all: left; rewrite <- (FromGrammar_io_more order SelfGrammar fuel (enough SelfGrammar)) by (rewrite R; discriminate);
        apply A, Nat.le_add_l.
    - apply E, le_n.
    - pose proof (C25_names_distinct_heads order (enough SelfGrammar) SelfGrammar tbl names Po
        (wf_distinct _ (dg_wf _ self_dec)) (E _ (le_n _))) as (N & _). intros i n Hn. rewrite N. exact Hn.
  Qed.

  Lemma json_main_at fuel bnf data : exists tbl names,
    FromGrammar_order order (enough SelfGrammar) SelfGrammar = Ok (tbl, names) /\ names_rules SelfGrammar names /\
    (json_main fuel (Contents bnf) (Contents data) = Running \/
     (exists e, fails_with fuel tbl (Some names) (SrcString bnf) e /\
        json_main fuel (Contents bnf) (Contents data) = fatalError [] [s2b "can't parse JSON BNF text:"; perror_string e]) \/
     (exists t g, parses_to fuel tbl (Some names) (SrcString bnf) t /\ ToAST SelfCSTtoASTBindings t bnf = Ok g /\
        json_main fuel (Contents bnf) (Contents data) = json_rest fuel g data)).
  Proof.
    destruct bnf_parser_made as (tbl & names & _ & A & E & N). exists tbl, names. split; [exact E|]. split; [exact N|].
    unfold Examples.json_main. destruct (A fuel) as [X|X].
    2: { left. rewrite io_pair. rewrite C68_result in X. rewrite X. reflexivity. }
    rewrite X. fold (result fuel tbl (Some names) (SrcString bnf)).
    destruct (result fuel tbl (Some names) (SrcString bnf)) as [r|e|p|] eqn:R.
    - destruct (C08_return_contract _ _ _ _ _ R) as [(t & nm & ->)|(e & ->)].
      + right. right. assert (Hp : parses_to fuel tbl (Some names) (SrcString bnf) t) by (exists nm; exact R).
        destruct (C47_conversion_never_fails _ _ _ _ _ _ _ _ _ E (dl_string bnf) Hp) as (g & T & _).
        exists t, g. split; [exact Hp|]. split; [exact T|]. rewrite T. reflexivity.
      + right. left. exists e. split; [exact R|reflexivity].
    - destruct e.
    - destruct (C07_parse_never_panics _ _ _ _ _ (FromGrammar_public _ _ _ _ _ E) R).
    - left. reflexivity.
  Qed.

  (** Names in messages. *)
  Lemma label_called g g' names :
    last_definitions g g' ->
    (forall k n, map_get Z.eqb k names = Some n <->
       exists i, k = Z.of_nat i /\ nth_error (heads g) i = Some n /\ forall j, i < j -> nth_error (heads g) j <> Some n) ->
    forall n l, called g' names n l <-> label g g' n l.
  Proof.
    intros (Sa & _) N n l. pose proof (sa_length _ _ _ Sa) as L. split.
    - intros (i & Hi & ->).
      assert (Hl : exists x, nth_error (heads g) i = Some x).
      { destruct (nth_error (heads g) i) as [x|] eqn:E; [eauto|]. exfalso. apply nth_error_None in E.
        unfold heads in E. rewrite map_length in E. assert (i < length (heads g')) by (apply nth_error_Some; congruence).
        unfold heads in *. rewrite map_length in *. lia. }
      destruct Hl as (x & Hx). destruct (map_get Z.eqb (Z.of_nat i) names) as [l|] eqn:E.
      + apply N in E. destruct E as (j & Ej & Hj & Hlast). apply Nat2Z.inj in Ej. subst j. eapply lb_name; eassumption.
      + destruct (List.in_dec (list_eq_dec Ascii.ascii_dec) x (skipn (S i) (heads g))) as [Hin|Hin].
        * apply In_nth_error in Hin. destruct Hin as (k & Hk). rewrite nth_error_skipn in Hk.
          eapply (lb_number _ _ i n x (S i + k)); [exact Hi|exact Hx|lia|exact Hk|apply dec_Z_integer].
        * exfalso. assert (X : map_get Z.eqb (Z.of_nat i) names = Some x); [|congruence].
          apply N. exists i. split; [reflexivity|]. split; [exact Hx|]. intros j Hj Ej. apply Hin.
          apply (nth_error_In _ (j - S i)). rewrite nth_error_skipn. replace (S i + (j - S i)) with j by lia. exact Ej.
    - intros [i n' l' Hi Hl Hlast|i n' l' j number Hi Hl Lj Hj Hn]; exists i; (split; [exact Hi|]).
      + assert (X : map_get Z.eqb (Z.of_nat i) names = Some l') by (apply N; exists i; auto). rewrite X. reflexivity.
      + destruct (map_get Z.eqb (Z.of_nat i) names) as [y|] eqn:E.
        * apply N in E. destruct E as (k & Ek & Hk & Hlast). apply Nat2Z.inj in Ek. subst k.
          destruct (Hlast j Lj). congruence.
        * f_equal. eapply integer_fun; [exact Hn|apply dec_Z_integer].
  Qed.
  Lemma refused_label g F (L L' : bytes -> bytes -> Prop) src k e :
    (forall n l, L n l -> L' n l) -> refused g F L src k e -> refused g F L' src k e.
  Proof.
    intros H (u & P & N). exists u. split; [exact P|]. destruct N; [constructor; assumption|econstructor; eauto|constructor; assumption].
  Qed.

  Section Grammar.
    Variables (bnf data : bytes) (g g' : grammar).
    Hypothesis Fg : file_grammar bnf g g'.

    Lemma fg_nulfree : terminals_nulfree g.
    Proof. apply printable_nulfree. eapply bnf_text_printable. apply Fg. Qed.
    Lemma fg_nonempty : g <> [].
    Proof. destruct Fg as (B & _). apply bnf_text_printable in B. apply B. Qed.

    Lemma rest_data fuel tbl names : faultless g g' -> FromGrammar_order order' fuel g = Ok (tbl, names) ->
      (result fuel tbl (Some names) (SrcString data) = NoFuel /\ json_rest fuel g data = Running) \/
      (exists k e text, refused g' (follow_last g g') (label g g') data k e /\ message e text /\
         json_rest fuel g data = Exited created (s2b "ERROR: can't parse JSON text: " ++ text ++ [LF]) 1) \/
      (exists t q keys, predicted g' (follow_last g g') data (SNonTerminal (start g')) 0 t q /\ byte_at data q = NUL /\
         (lists data 0 t keys /\ json_rest fuel g data = Exited (parsed ++ keys) [] 0 \/
          list_crashes data 0 t keys /\ json_rest fuel g data = Crashed (parsed ++ keys) PanicIndex)).
    Proof.
      intros Fl E. unfold json_rest. rewrite (io_ok _ _ _ _ E).
      pose proof (FromGrammar_public _ _ _ _ _ E) as Pu.
      destruct (result fuel tbl (Some names) (SrcString data)) as [r|e|p|] eqn:R.
      - right. destruct (C08_return_contract _ _ _ _ _ R) as [(t & nm & ->)|(e & ->)].
        + right. assert (Hp : parses_to fuel tbl (Some names) (SrcString data) t) by (exists nm; exact R).
          assert (Is : inside data t).
          { intros m Hm. eapply C13_positions_valid; [exact Pu| |apply dl_string|exact Hp|exact Hm].
            eapply FromGrammar_nulfree; [exact fg_nulfree|exact E]. }
          destruct (proj1 (C79_exact_last order' fuel g g' tbl names names _ _ t fg_nonempty (proj2 Fg) fg_nulfree E (dl_string data)))
            as (q & P & Q); [exists fuel; exact Hp|].
          destruct (listing_ends data (size t) t (le_n _) 0) as [(keys & K)|(keys & K)]; exists t, q, keys;
            (split; [exact P|]); (split; [exact Q|]).
          * left. split; [exact K|]. rewrite (proj1 (lists_walk data) _ _ _ K Is). reflexivity.
          * right. split; [exact K|]. rewrite (crashes_walk data _ _ _ K Is). reflexivity.
        + left. destruct (proj1 (C80_refused_last order' fuel g g' tbl names names _ _ e fg_nonempty (proj2 Fg) fg_nulfree E (dl_string data)))
            as (k & Hk); [exists fuel; exact R|].
          exists k, e, (perror_string e). split; [|split; [apply message_string|reflexivity]].
          eapply refused_label; [|exact Hk]. intros n l.
          apply (label_called g g' names (proj2 Fg) (C25_names _ _ _ _ _ Po' E)).
      - destruct e.
      - destruct (C07_parse_never_panics _ _ _ _ _ Pu R).
      - left. split; reflexivity.
    Qed.

    Lemma rest_does fuel : json_rest fuel g data = Running \/ json_does (Contents bnf) (Contents data) (json_rest fuel g data).
    Proof.
      destruct (FromGrammar_order order' fuel g) as [x|e|p|] eqn:E.
      4: { left. unfold json_rest. rewrite io_pair, E. reflexivity. }
      all: pose proof (FromGrammar_more order' g fuel (enough g)) as M; rewrite E in M; specialize (M ltac:(discriminate));
        pose proof (C67_outcome order' (fuel + enough g) g g' (proj2 Fg) fg_nulfree (Nat.le_add_l _ _)) as O;
        pose proof (C81_generate _ g g' order' (fuel + enough g) (proj1 Fg) (proj2 Fg) (Nat.le_add_l _ _)) as B;
        rewrite M in O, B.
      - destruct x as (tbl & names).
        assert (Fl : faultless g g').
        { unfold faultless. apply (C67_accepted order' (fuel + enough g) g g' (proj2 Fg) fg_nulfree (Nat.le_add_l _ _)). eauto. }
        destruct (rest_data fuel tbl names Fl E) as [(_ & H)|[(k & e & text & R & Ms & H)|(t & q & keys & P & Q & [(K & H)|(K & H)])]];
          [left; exact H|right; rewrite H..].
        + eapply jd_not_data; eassumption.
        + eapply jd_listed; eassumption.
        + eapply jd_list_crash; eassumption.
      - right. unfold json_rest. rewrite io_pair, E.
        destruct (conflict_dec e) as [->|Ne].
        + destruct (C68_line order' fuel g g' (proj2 Fg) fg_nulfree E) as (ops & C & L).
          eapply (jd_conflict bnf data g g' ops _ (tgerror_string [] EConflict)); [exact Fg|exact O|exact C|exact L|constructor].
        + rewrite C68_silent by (rewrite E; congruence).
          assert (T : tgerror_string typename e = tgerror_string [] e).
          { inversion B; reflexivity. }
          rewrite T. eapply (jd_refused bnf data g g' e); [exact Fg|exact O|exact Ne|]. apply C85_grammar. reflexivity.
      - right. unfold json_rest. rewrite io_pair, E. rewrite C68_silent by (rewrite E; discriminate).
        eapply jd_crash; eassumption.
    Qed.

    Lemma main_rest : exists fuel, forall f, fuel <= f ->
      json_main f (Contents bnf) (Contents data) = json_rest f g data.
    Proof.
      destruct bnf_parser_made as (tbl & names & A & _ & E & _).
      destruct (proj2 (C47_bnf_pipeline order _ tbl names names _ bnf g E (dl_string bnf)) (proj1 Fg)) as (f1 & t & (nm & Hp) & T).
      exists (enough SelfGrammar + f1). intros f Hf. unfold Examples.json_main. rewrite A by (eapply Nat.le_trans; [apply Nat.le_add_r|exact Hf]).
      fold (result f tbl (Some names) (SrcString bnf)).
      rewrite (parses_more _ f _ _ _ _ Hp) by (eapply Nat.le_trans; [apply Nat.le_add_l|exact Hf]). rewrite T. reflexivity.
    Qed.
  End Grammar.

  Lemma main_refused bnf data fuel e tbl names :
    FromGrammar_order order (enough SelfGrammar) SelfGrammar = Ok (tbl, names) ->
    fails_with fuel tbl (Some names) (SrcString bnf) e -> forall f, enough SelfGrammar + fuel <= f ->
    json_main f (Contents bnf) (Contents data) = fatalError [] [s2b "can't parse JSON BNF text:"; perror_string e].
  Proof.
    intros E H f Hf. unfold Examples.json_main.
    assert (E' : FromGrammar_order order f SelfGrammar = Ok (tbl, names)).
    { replace f with (enough SelfGrammar + (f - enough SelfGrammar)).
      - rewrite FromGrammar_more; [exact E|rewrite E; discriminate].
      - rewrite Nat.add_comm. apply Nat.sub_add. eapply Nat.le_trans; [apply Nat.le_add_r|exact Hf]. }
    rewrite (io_ok _ _ _ _ E'). fold (result f tbl (Some names) (SrcString bnf)).
    rewrite (parses_more _ f _ _ _ _ H) by (eapply Nat.le_trans; [apply Nat.le_add_l|exact Hf]). reflexivity.
  Qed.

  Lemma rest_more f f' g data : f <= f' -> json_rest f g data <> Running -> json_rest f' g data = json_rest f g data.
  Proof.
    intros L H. unfold json_rest in H |- *.
    assert (N : FromGrammar_order order' f g <> NoFuel).
    { intros N. rewrite io_pair, N in H. apply H. reflexivity. }
    replace f' with (f + (f' - f)) at 1 by lia. rewrite FromGrammar_io_more by exact N.
    destruct (FromGrammar_io order' f g) as (out & [(tbl, names)|e|p|]); try reflexivity.
    assert (R : result f tbl (Some names) (SrcString data) <> NoFuel).
    { intros R. rewrite R in H. apply H. reflexivity. }
    unfold result in *. rewrite (result_mono f f'); [reflexivity|exact R|exact L].
  Qed.

  Lemma main_more fuel fuel' f d : fuel <= fuel' -> json_main fuel f d <> Running -> json_main fuel' f d = json_main fuel f d.
  Proof.
    intros L H. destruct f as [bnf|m]; [|reflexivity]. destruct d as [data|m]; [|reflexivity].
    unfold Examples.json_main in H |- *.
    assert (N : FromGrammar_order order fuel SelfGrammar <> NoFuel).
    { intros N. rewrite io_pair, N in H. apply H. reflexivity. }
    replace (FromGrammar_io order fuel' SelfGrammar) with (FromGrammar_io order fuel SelfGrammar).
    2: { rewrite <- (FromGrammar_io_more order SelfGrammar fuel (fuel' - fuel) N). f_equal. lia. }
    destruct (FromGrammar_io order fuel SelfGrammar) as (out & [(tbl, names)|e|p|]); try reflexivity.
    assert (R : result fuel tbl (Some names) (SrcString bnf) <> NoFuel).
    { intros R. unfold result in R. rewrite R in H. apply H. reflexivity. }
    rewrite (result_mono fuel fuel') by assumption. unfold result in R.
    destruct (po_result (Parse fuel (NewLL1Parser tbl (Some names)) (SrcString bnf))) as [[[t|] nm [e|]]|e|p|]; try reflexivity.
    destruct (ToAST SelfCSTtoASTBindings t bnf) as [g|e|p|]; try reflexivity.
    assert (N2 : FromGrammar_order order' fuel g <> NoFuel).
    { intros N2. rewrite io_pair, N2 in H. apply H. reflexivity. }
    replace (FromGrammar_io order' fuel' g) with (FromGrammar_io order' fuel g).
    2: { rewrite <- (FromGrammar_io_more order' g fuel (fuel' - fuel) N2). f_equal. lia. }
    destruct (FromGrammar_io order' fuel g) as (out' & [(tbl', names')|e|p|]); try reflexivity.
    assert (R2 : result fuel tbl' (Some names') (SrcString data) <> NoFuel).
    { intros R2. unfold result in R2. rewrite R2 in H. apply H. reflexivity. }
    rewrite (result_mono fuel fuel') by assumption. reflexivity.
  Qed.
End Program.

(** ** C88 *)

(** Whatever the two files are, when the program ends it has done one of the
    things listed in Spec_Programs.v. *)
Theorem C88_json :
  forall order order' typename fuel bnfFile dataFile p,
    (forall l, Permutation (order l) l) -> (forall l, Permutation (order' l) l) ->
    json_main order order' typename fuel bnfFile dataFile = p -> p <> Running ->
    json_does bnfFile dataFile p.
Proof.
  intros order order' typename fuel f d p Po Po' <- H.
  destruct f as [bnf|msg]; [|apply jd_no_grammar]. destruct d as [data|msg]; [|apply jd_no_data].
  destruct (json_main_at order order' Po typename fuel bnf data) as (tbl & names & E & N & [X|[(e & Fw & X)|(t & g & Hp & T & X)]]).
  - contradiction.
  - rewrite X. destruct (proj1 (C80_refused order _ SelfGrammar tbl names names _ bnf e (wf_nonempty _ (dg_wf _ self_dec))
      (wf_distinct _ (dg_wf _ self_dec)) (wf_nulfree _ (dg_wf _ self_dec)) E N (dl_string bnf))) as (k & R); [exists fuel; exact Fw|].
    eapply (jd_not_bnf bnf data k e (perror_string e)); [exact R|apply message_string].
  - assert (B : bnf_text (before_nul bnf) g).
    { apply (C47_bnf_pipeline order _ tbl names names _ bnf g E (dl_string bnf)). exists fuel, t. auto. }
    destruct (C66_set_aside g) as (g' & S). rewrite X in H |- *.
    destruct (rest_does order' Po' typename bnf data g g' (conj B S) fuel) as [Y|Y]; [contradiction|exact Y].
Qed.
Print Assumptions C88_json.

(** And it does that: if there is no readable grammar, or it has no fault, the
    list names one thing only, and the program ends having done it. (With several
    faults, it is one of them that is reported.) *)
Theorem C88_json_exact :
  forall order order' typename bnfFile dataFile p,
    (forall l, Permutation (order l) l) -> (forall l, Permutation (order' l) l) ->
    (forall bnf g g', bnfFile = Contents bnf -> file_grammar bnf g g' -> faultless g g') ->
    json_does bnfFile dataFile p ->
    exists fuel, forall fuel', fuel <= fuel' -> json_main order order' typename fuel' bnfFile dataFile = p.
Proof.
  intros order order' typename f d p Po Po' Fl H.
  assert (NoErr : forall bnf g g' r, f = Contents bnf -> file_grammar bnf g g' -> outcome_of g' (follow_last g g') r ->
    (forall x, r <> Ok x) -> False).
  { intros bnf g g' r Ef Fg O Nr. pose proof (Fl _ _ _ Ef Fg) as X. destruct O as [f0 Hf|f0 _ Hf|f0 _ _ Hf|tbl names].
    - exact (proj1 (X f0) Hf).
    - exact (proj1 (proj2 (X f0)) Hf).
    - exact (proj2 (proj2 (X f0)) Hf).
    - exact (Nr _ eq_refl). }
  destruct H as [msg data|bnf msg|bnf data k e text R Ms|bnf data g g' e text Fg O _ _|bnf data g g' ops line text Fg O _ _ _
    |bnf data g g' p Fg O|bnf data g g' k e text Fg Fa R Ms|bnf data g g' t q keys Fg Fa P Q K|bnf data g g' t q keys Fg Fa P Q K].
  - exists 0. reflexivity.
  - exists 0. reflexivity.
  - destruct (json_main_at order order' Po typename 0 bnf data) as (tbl & names & E & N & _).
    destruct (proj2 (C80_refused order _ SelfGrammar tbl names names _ bnf e (wf_nonempty _ (dg_wf _ self_dec))
      (wf_distinct _ (dg_wf _ self_dec)) (wf_nulfree _ (dg_wf _ self_dec)) E N (dl_string bnf))) as (fuel & Fw); [exists k; exact R|].
    exists (enough SelfGrammar + fuel). intros f Hf.
    rewrite (main_refused order order' typename bnf data fuel e tbl names E Fw f Hf).
    apply C85_message in Ms. subst text. reflexivity.
  - destruct (NoErr _ _ _ _ eq_refl Fg O). discriminate.
  - destruct (NoErr _ _ _ _ eq_refl Fg O). discriminate.
  - destruct (NoErr _ _ _ _ eq_refl Fg O). discriminate.
  - destruct (main_rest order order' Po typename bnf data g g' Fg) as (f0 & M).
    pose proof (fg_nulfree bnf g g' Fg) as Nf. pose proof (fg_nonempty bnf g g' Fg) as Ne.
    destruct (proj2 (C67_accepted order' (enough g) g g' (proj2 Fg) Nf (le_n _)) Fa) as (tbl & names & E).
    destruct (proj2 (C80_refused_last order' _ g g' tbl names names _ data e Ne (proj2 Fg) Nf E (dl_string data))) as (f1 & Fw).
    { exists k. eapply refused_label; [|exact R]. intros n l. apply (label_called g g' names (proj2 Fg) (C25_names _ _ _ _ _ Po' E)). }
    exists (f0 + (enough g + f1)). intros f Hf. rewrite M by lia. unfold json_rest.
    assert (E' : FromGrammar_order order' f g = Ok (tbl, names)).
    { replace f with (enough g + (f - enough g)) by lia. rewrite FromGrammar_more; [exact E|rewrite E; discriminate]. }
    rewrite (io_ok _ _ _ _ E'). rewrite (parses_more _ f _ _ _ _ Fw) by lia.
    apply C85_message in Ms. subst text. reflexivity.
  - destruct (main_rest order order' Po typename bnf data g g' Fg) as (f0 & M).
    pose proof (fg_nulfree bnf g g' Fg) as Nf. pose proof (fg_nonempty bnf g g' Fg) as Ne.
    destruct (proj2 (C67_accepted order' (enough g) g g' (proj2 Fg) Nf (le_n _)) Fa) as (tbl & names & E).
    destruct (proj2 (C79_exact_last order' _ g g' tbl names names _ data t Ne (proj2 Fg) Nf E (dl_string data))) as (f1 & Hp); [exists q; auto|].
    exists (f0 + (enough g + f1)). intros f Hf. rewrite M by lia. unfold json_rest.
    assert (E' : FromGrammar_order order' f g = Ok (tbl, names)).
    { replace f with (enough g + (f - enough g)) by lia. rewrite FromGrammar_more; [exact E|rewrite E; discriminate]. }
    assert (Is : inside data t).
    { intros m Hm. eapply C13_positions_valid; [eapply FromGrammar_public, E| |apply dl_string|exact Hp|exact Hm].
      eapply FromGrammar_nulfree; [exact Nf|exact E]. }
    rewrite (io_ok _ _ _ _ E'). destruct Hp as (nm & Hp). rewrite (parses_more _ f _ _ _ _ Hp) by lia.
    rewrite (proj1 (lists_walk data) _ _ _ K Is). reflexivity.
  - destruct (main_rest order order' Po typename bnf data g g' Fg) as (f0 & M).
    pose proof (fg_nulfree bnf g g' Fg) as Nf. pose proof (fg_nonempty bnf g g' Fg) as Ne.
    destruct (proj2 (C67_accepted order' (enough g) g g' (proj2 Fg) Nf (le_n _)) Fa) as (tbl & names & E).
    destruct (proj2 (C79_exact_last order' _ g g' tbl names names _ data t Ne (proj2 Fg) Nf E (dl_string data))) as (f1 & Hp); [exists q; auto|].
    exists (f0 + (enough g + f1)). intros f Hf. rewrite M by lia. unfold json_rest.
    assert (E' : FromGrammar_order order' f g = Ok (tbl, names)).
    { replace f with (enough g + (f - enough g)) by lia. rewrite FromGrammar_more; [exact E|rewrite E; discriminate]. }
    assert (Is : inside data t).
    { intros m Hm. eapply C13_positions_valid; [eapply FromGrammar_public, E| |apply dl_string|exact Hp|exact Hm].
      eapply FromGrammar_nulfree; [exact Nf|exact E]. }
    rewrite (io_ok _ _ _ _ E'). destruct Hp as (nm & Hp). rewrite (parses_more _ f _ _ _ _ Hp) by lia.
    rewrite (crashes_walk data _ _ _ K Is). reflexivity.
Qed.
Print Assumptions C88_json_exact.

(** When it never ends. *)
Theorem C88_json_forever :
  forall order order' typename bnfFile dataFile,
    (forall l, Permutation (order l) l) -> (forall l, Permutation (order' l) l) ->
    ((forall fuel, json_main order order' typename fuel bnfFile dataFile = Running) <->
     json_runs_forever bnfFile dataFile).
Proof.
  intros order order' typename f d Po Po'. split.
  - intros H. destruct f as [bnf|msg]; [|discriminate (H 0)]. destruct d as [data|msg]; [|discriminate (H 0)].
    destruct (C42_generated order) as (tbl & names & E0). pose proof (E0 _ (le_n _)) as E.
    destruct (decides _ _ _ _ _ names _ _ self_dec E (dl_string bnf)) as ((f1 & Te) & _).
    destruct (result f1 tbl (Some names) (SrcString bnf)) as [r|e|p|] eqn:R; [|destruct e| |contradiction].
    2: { destruct (C07_parse_never_panics _ _ _ _ _ (FromGrammar_public _ _ _ _ _ E) R). }
    destruct (C08_return_contract _ _ _ _ _ R) as [(t & nm & ->)|(e & ->)].
    2: { specialize (H (enough SelfGrammar + f1)).
         rewrite (main_refused order order' typename bnf data f1 e tbl names E R _ (le_n _)) in H. discriminate H. }
    assert (Hp : parses_to f1 tbl (Some names) (SrcString bnf) t) by (exists nm; exact R).
    destruct (C47_conversion_never_fails _ _ _ _ _ _ _ _ _ E (dl_string bnf) Hp) as (g & T & _).
    assert (B : bnf_text (before_nul bnf) g).
    { apply (C47_bnf_pipeline order _ tbl names names _ bnf g E (dl_string bnf)). exists f1, t. auto. }
    destruct (C66_set_aside g) as (g' & S). pose proof (conj B S : file_grammar bnf g g') as Fg.
    destruct (main_rest order order' Po typename bnf data g g' Fg) as (f2 & M).
    pose proof (fg_nulfree bnf g g' Fg) as Nf. pose proof (fg_nonempty bnf g g' Fg) as Ne.
    exists bnf, data, g, g'. split; [reflexivity|]. split; [reflexivity|]. split; [exact Fg|].
    destruct (FromGrammar_order order' (enough g) g) as [(tbl2, names2)|e|p|] eqn:E2.
    + assert (Fl : faultless g g') by (unfold faultless; apply (C67_accepted order' _ g g' S Nf (le_n _)); eauto).
      split; [exact Fl|]. apply (C80_never_returns_last order' _ g g' tbl2 names2 names2 _ data Ne S Nf E2 (dl_string data)).
      intros fuel. destruct (result fuel tbl2 (Some names2) (SrcString data)) as [r|e|p|] eqn:R2; [exfalso|destruct e|exfalso|reflexivity].
      * assert (E2' : FromGrammar_order order' (enough g + (f2 + fuel)) g = Ok (tbl2, names2)).
        { rewrite FromGrammar_more; [exact E2|rewrite E2; discriminate]. }
        assert (X : json_main order order' typename (enough g + (f2 + fuel)) (Contents bnf) (Contents data) = Running) by apply H.
        rewrite M in X by lia.
        destruct (rest_data order' Po' typename bnf data g g' Fg _ tbl2 names2 Fl E2')
          as [(Y & _)|[(k & e & text & _ & _ & Y)|(t2 & q & keys & _ & _ & [(_ & Y)|(_ & Y)])]].
        -- rewrite (parses_more _ (enough g + (f2 + fuel)) _ _ _ _ R2) in Y by lia. discriminate.
        -- rewrite Y in X. discriminate.
        -- rewrite Y in X. discriminate.
        -- rewrite Y in X. discriminate.
      * exact (C07_parse_never_panics _ _ _ _ _ (FromGrammar_public _ _ _ _ _ E2) R2).
    + exfalso. pose proof (H (f2 + enough g)) as X. rewrite M in X by apply Nat.le_add_r. unfold json_rest in X.
      rewrite Nat.add_comm in X. rewrite FromGrammar_io_more in X by (rewrite E2; discriminate). rewrite io_pair, E2 in X. discriminate.
    + exfalso. pose proof (H (f2 + enough g)) as X. rewrite M in X by apply Nat.le_add_r. unfold json_rest in X.
      rewrite Nat.add_comm in X. rewrite FromGrammar_io_more in X by (rewrite E2; discriminate). rewrite io_pair, E2 in X. discriminate.
    + pose proof (C67_outcome order' (enough g) g g' S Nf (le_n _)) as O. rewrite E2 in O.
      inversion O as [f0 Hff Ef|f0 N1 Hff Ef|f0 N1 N2 Hff Ef|]; destruct f0; discriminate Ef.
  - intros (bnf & data & g & g' & -> & -> & Fg & Fl & Nv) fuel.
    pose proof (fg_nulfree bnf g g' Fg) as Nf. pose proof (fg_nonempty bnf g g' Fg) as Ne.
    destruct (main_rest order order' Po typename bnf data g g' Fg) as (f2 & M).
    destruct (proj2 (C67_accepted order' (enough g) g g' (proj2 Fg) Nf (le_n _)) Fl) as (tbl & names & E).
    destruct (json_main order order' typename fuel (Contents bnf) (Contents data)) as [out err c|out p|] eqn:X; [exfalso|exfalso|reflexivity].
    all: pose proof (main_more order order' typename fuel (fuel + (f2 + enough g)) (Contents bnf) (Contents data) ltac:(lia)) as Y;
      rewrite X in Y; specialize (Y ltac:(discriminate)); rewrite M in Y by lia.
    all: unfold json_rest in Y; replace (fuel + (f2 + enough g)) with (enough g + (fuel + f2)) in Y by lia.
    all: rewrite FromGrammar_io_more in Y by (rewrite E; discriminate); rewrite (io_ok _ _ _ _ E) in Y.
    all: rewrite (proj2 (C80_never_returns_last order' _ g g' tbl names names _ data Ne (proj2 Fg) Nf E (dl_string data)) Nv) in Y; discriminate.
Qed.
Print Assumptions C88_json_forever.

(** Once it has ended, more time changes nothing. *)
Theorem C88_json_stable :
  forall order order' typename fuel fuel' bnfFile dataFile,
    fuel <= fuel' -> json_main order order' typename fuel bnfFile dataFile <> Running ->
    json_main order order' typename fuel' bnfFile dataFile = json_main order order' typename fuel bnfFile dataFile.
Proof. intros. apply main_more; assumption. Qed.
Print Assumptions C88_json_stable.

(** Which messages and crashes are possible at all: converting the tree of the
    grammar file and generating the BNF parser never fail; a grammar file cannot
    cause the other errors of FromGrammar. *)
Theorem C88_json_messages :
  forall order order' typename fuel bnf data p,
    (forall l, Permutation (order l) l) -> (forall l, Permutation (order' l) l) ->
    json_main order order' typename fuel (Contents bnf) (Contents data) = p ->
    match p with
    | Exited out err 0 => err = [] /\ exists keys, out = parsed ++ keys
    | Exited out err _ =>
        exists text,
          out = [] /\ err = s2b "ERROR: can't parse JSON BNF text: " ++ text ++ [LF] \/
          out = [] /\ err = s2b "ERROR: can't build parser table from JSON grammar: no rules defined for non terminal <" ++ text ++ s2b ">" ++ [LF] \/
          out = [] /\ err = s2b "ERROR: can't build parser table from JSON grammar: empty string is not a single sequence symbol" ++ [LF] \/
          out <> [] /\ err = s2b "ERROR: can't build parser table from JSON grammar: grammar lead to multiple parser op sets per table cell" ++ [LF] \/
          out = created /\ err = s2b "ERROR: can't parse JSON text: " ++ text ++ [LF]
    | Crashed out p =>
        out = [] /\ p = PanicNothingInSequence \/ p = PanicIndex /\ exists keys, out = parsed ++ keys
    | Running => True
    end.
Proof.
  intros order order' typename fuel bnf data p Po Po' <-.
  destruct (json_main_at order order' Po typename fuel bnf data) as (tbl & names & E & N & [X|[(e & Fw & X)|(t & g & Hp & T & X)]]); rewrite X.
  - exact I.
  - exists (perror_string e). left. split; reflexivity.
  - assert (B : bnf_text (before_nul bnf) g).
    { apply (C47_bnf_pipeline order _ tbl names names _ bnf g E (dl_string bnf)). exists fuel, t. auto. }
    destruct (C66_set_aside g) as (g' & S). pose proof (conj B S : file_grammar bnf g g') as Fg.
    pose proof (fg_nulfree bnf g g' Fg) as Nf. clear X.
    destruct (FromGrammar_order order' fuel g) as [x|e|p|] eqn:E2.
    4: { unfold json_rest. rewrite io_pair, E2. exact I. }
    all: pose proof (FromGrammar_more order' g fuel (enough g)) as M; rewrite E2 in M; specialize (M ltac:(discriminate));
      pose proof (C81_generate _ g g' order' (fuel + enough g) (proj1 Fg) (proj2 Fg) (Nat.le_add_l _ _)) as O; rewrite M in O.
    + destruct x as (tbl2 & names2).
      assert (Fl : faultless g g').
      { unfold faultless. apply (C67_accepted order' (fuel + enough g) g g' S Nf (Nat.le_add_l _ _)). eauto. }
      destruct (rest_data order' Po' typename bnf data g g' Fg fuel tbl2 names2 Fl E2)
        as [(_ & Y)|[(k & e & text & _ & _ & Y)|(t2 & q & keys & _ & _ & [(_ & Y)|(_ & Y)])]]; rewrite Y.
      * exact I.
      * exists text. do 4 right. split; reflexivity.
      * split; [reflexivity|]. exists keys. reflexivity.
      * right. split; [reflexivity|]. exists keys. reflexivity.
    + unfold json_rest. rewrite io_pair, E2. unfold fatalError. destruct (conflict_dec e) as [->|Ne].
      * exists []. do 3 right. left. split; [|reflexivity].
        destruct (C68_line order' fuel g g' S Nf E2) as (ops & _ & L). destruct L as [o u Hu]. discriminate.
      * rewrite C68_silent by (rewrite E2; congruence). inversion O; subst.
        -- exists m. right. left. split; [reflexivity|]. unfold line_with. cbn [spaced tgerror_string].
           rewrite <- !app_assoc. reflexivity.
        -- exists []. do 2 right. left. split; reflexivity.
        -- congruence.
    + unfold json_rest. rewrite io_pair, E2. rewrite C68_silent by (rewrite E2; discriminate).
      inversion O; subst. left. split; reflexivity.
Qed.
Print Assumptions C88_json_messages.

(** ** C37 *)

(** The example program checking that SelfGrammar describes itself says so. *)
Theorem C37_example_succeeds :
  forall order typename foreign, exists fuel, forall fuel', fuel <= fuel' ->
    selfsyntax_main order typename foreign fuel' = Exited (s2b "Resulted AST equal to initial" ++ [LF]) [] 0.
Proof.
  intros order typename foreign. destruct (C42_generated order) as (tbl & names & E).
  destruct (C36_round_trip _ _ tbl names names _ (E _ (le_n _)) self_printable) as (fuel & t & (nm & Hp) & A).
  exists (256 * length SelfGrammar + 1 + fuel). intros f Hf.
  unfold selfsyntax_main. rewrite (io_ok order f SelfGrammar (tbl, names)) by (apply E; eapply Nat.le_trans; [apply Nat.le_add_r|exact Hf]).
  fold (result f tbl (Some names) (SrcString (grammar_string SelfGrammar))).
  rewrite (parses_more _ f _ _ _ _ Hp) by (eapply Nat.le_trans; [apply Nat.le_add_l|exact Hf]). rewrite A.
  assert (Q : isGrammarsEqual SelfGrammar SelfGrammar = Answer true) by (vm_compute; reflexivity).
  rewrite Q. reflexivity.
Qed.
Print Assumptions C37_example_succeeds.

(** ** C52: the JSON program with json.bnf as its grammar file *)

Lemma printKeys_io str : forall k n, size n <= k -> forall level out out',
  walk (keyVisit str) level out n = Ok out' -> walk (keyVisit_io str) level (out, None) n = Ok (out', None).
Proof.
  induction k as [|k IH]; intros n Hk level out out' H; [destruct n; cbn in Hk; lia|].
  rewrite walk_eq in H. rewrite walk_eq.
  assert (Ch : forall l, (forall c, In c l -> size c <= k) -> forall w out out',
    walk_each (keyVisit str) w out l = Ok out' -> walk_each (keyVisit_io str) w (out, None) l = Ok (out', None)).
  { induction l as [|c l IHl]; intros Hl w o o' Hw; cbn [walk_each] in Hw |- *; [injection Hw as <-; reflexivity|].
    destruct (walk (keyVisit str) w o c) as [s| | |] eqn:Hc; try discriminate.
    rewrite (IH c (Hl c (or_introl eq_refl)) _ _ _ Hc). apply IHl; [intros d Hd; apply Hl; right; exact Hd|exact Hw]. }
  assert (Hc : forall c, In c (n_childs n) -> size c <= k) by (intros c Hc; pose proof (size_child c n Hc); lia).
  unfold keyVisit in H. cbn [keyVisit_io]. destruct (10 <? n_type n)%Z; [injection H as <-; reflexivity|].
  destruct (n_type n =? 6)%Z; cbn [gobind] in H.
  - destruct (child n 0) as [c| | |]; cbn [gobind or_crash] in *; try discriminate.
    destruct (child c 1) as [s| | |]; cbn [gobind or_crash] in *; try discriminate.
    destruct (slice str (n_pos s) (n_end s)) as [key| | |]; cbn [gobind or_crash] in *; try discriminate.
    rewrite <- app_assoc. apply Ch; assumption.
  - apply Ch; assumption.
Qed.
Lemma printKeys_out str n out keys : printKeys str n = Ok keys -> walk (keyVisit_io str) 0 (out, None) n = Ok (out ++ keys, None).
Proof.
  intros H. apply (printKeys_io str (size n) n (le_n _)). revert H. unfold printKeys.
  enough (G : forall k n, size n <= k -> forall level o keys, walk (keyVisit str) level o n = Ok keys ->
    walk (keyVisit str) level (out ++ o) n = Ok (out ++ keys)).
  { intros H. rewrite <- (app_nil_r out) at 1. apply (G (size n)); [apply le_n|exact H]. }
  clear. induction k as [|k IH]; intros n Hk level o keys H; [destruct n; cbn in Hk; lia|].
  rewrite walk_eq in H. rewrite walk_eq.
  assert (Ch : forall l, (forall c, In c l -> size c <= k) -> forall w o o',
    walk_each (keyVisit str) w o l = Ok o' -> walk_each (keyVisit str) w (out ++ o) l = Ok (out ++ o')).
  { induction l as [|c l IHl]; intros Hl w o1 o2 Hw; cbn [walk_each] in Hw |- *; [injection Hw as <-; reflexivity|].
    destruct (walk (keyVisit str) w o1 c) as [s| | |] eqn:Hc; try discriminate.
    rewrite (IH c (Hl c (or_introl eq_refl)) _ _ _ Hc). apply IHl; [intros d Hd; apply Hl; right; exact Hd|exact Hw]. }
  assert (Hc : forall c, In c (n_childs n) -> size c <= k) by (intros c Hc; pose proof (size_child c n Hc); lia).
  unfold keyVisit in H |- *. destruct (10 <? n_type n)%Z; [injection H as <-; reflexivity|].
  destruct (n_type n =? 6)%Z; cbn [gobind] in H |- *.
  - destruct (child n 0) as [c| | |]; cbn [gobind] in *; try discriminate.
    destruct (child c 1) as [s| | |]; cbn [gobind] in *; try discriminate.
    destruct (slice str (n_pos s) (n_end s)) as [key| | |]; cbn [gobind] in *; try discriminate.
    rewrite <- app_assoc. apply Ch; assumption.
  - apply Ch; assumption.
Qed.

(** On JSON it prints the key listing and succeeds; on any other text it fails
    with the parser's error. It never panics and always ends. *)
Theorem C52_program :
  forall order order' typename text,
    (forall l, Permutation (order l) l) -> (forall l, Permutation (order' l) l) ->
    exists fuel, forall fuel', fuel <= fuel' ->
    (forall v, json_text (before_nul text) v ->
       json_main order order' typename fuel' (Contents json_bnf) (Contents text) = Exited (parsed ++ key_lines 0 v) [] 0) /\
    ((forall v, ~ json_text (before_nul text) v) ->
       exists k e msg, refused JsonGrammar (follow_code JsonGrammar) eq text k e /\ message e msg /\
         json_main order order' typename fuel' (Contents json_bnf) (Contents text) =
           Exited created (s2b "ERROR: can't parse JSON text: " ++ msg ++ [LF]) 1).
Proof.
  intros order order' typename text Po Po'.
  assert (B := json_bnf_text). rewrite <- (before_nul_id json_bnf) in B by (eapply bnf_nulfree, B).
  pose proof (last_self JsonGrammar (wf_distinct _ (dg_wf _ json_dec))) as S.
  destruct (main_rest order order' Po typename json_bnf text JsonGrammar JsonGrammar (conj B S)) as (f1 & H1).
  destruct (C43_generated order') as (tbl & names & E). pose proof (E _ (le_n _)) as E1.
  pose proof (FromGrammar_public _ _ _ _ _ E1) as Pu.
  destruct (C43_decides _ _ _ _ names _ _ E1 (dl_string text)) as (Te & _).
  destruct (outcome tbl names text Pu Te) as (f2 & H2).
  exists (f1 + (256 * length JsonGrammar + 1) + f2). intros f Hf.
  rewrite H1 by (eapply Nat.le_trans; [|exact Hf]; rewrite <- Nat.add_assoc; apply Nat.le_add_r).
  unfold json_rest. rewrite (io_ok order' f JsonGrammar (tbl, names)).
  2: { apply E. eapply Nat.le_trans; [|exact Hf]. rewrite (Nat.add_comm f1), <- Nat.add_assoc. apply Nat.le_add_r. }
  assert (Hf2 : f2 <= f) by (eapply Nat.le_trans; [|exact Hf]; apply Nat.le_add_l).
  clear Hf H1 B. destruct (H2 f Hf2) as [(t & Hp)|(e & Hr & Hno)].
  - destruct (C51_key_listing _ _ _ _ _ _ _ _ _ E1 (dl_string text) Hp) as (v & J & K).
    destruct Hp as (nm & Hr). rewrite Hr, (printKeys_out _ _ _ _ K). split.
    + intros v' J'. rewrite (C50_unambiguous _ _ _ J' J). reflexivity.
    + intros No. destruct (No v J).
  - rewrite Hr. split.
    + intros v J. exfalso.
      destruct (proj2 (C50_accepts_json _ _ _ _ names _ _ E1 (dl_string text))) as (f' & t & Hp); [exists v; exact J|].
      exact (Hno f' t Hp).
    + intros _. pose proof (C25_names_distinct_heads order' _ _ _ _ Po' (wf_distinct _ (dg_wf _ json_dec)) E1) as (N & _).
      destruct (proj1 (C80_refused order' _ JsonGrammar tbl names names _ text e (wf_nonempty _ (dg_wf _ json_dec))
        (wf_distinct _ (dg_wf _ json_dec)) (wf_nulfree _ (dg_wf _ json_dec)) E1
        (fun i n Hn => eq_trans (N i) Hn) (dl_string text))) as (k & R); [exists f; exact Hr|].
      exists k, e, (perror_string e). split; [exact R|]. split; [apply message_string|reflexivity].
Qed.
Print Assumptions C52_program.

(** A grammar file that is not a text of the notation is refused, with nothing
    printed; and so are missing files. *)
Theorem C52_bad_grammar_file :
  forall order order' typename bnf text,
    (forall l, Permutation (order l) l) -> (forall l, Permutation (order' l) l) ->
    (forall g, ~ bnf_text (before_nul bnf) g) ->
    exists fuel k e msg, refused SelfGrammar (follow_code SelfGrammar) eq bnf k e /\ message e msg /\
      forall fuel', fuel <= fuel' ->
        json_main order order' typename fuel' (Contents bnf) (Contents text) =
          Exited [] (s2b "ERROR: can't parse JSON BNF text: " ++ msg ++ [LF]) 1.
Proof.
  intros order order' typename bnf text Po Po' N. destruct (C42_generated order) as (tbl & names & E). pose proof (E _ (le_n _)) as E1.
  pose proof (FromGrammar_public _ _ _ _ _ E1) as Pu.
  destruct (decides _ _ _ _ _ names _ _ self_dec E1 (dl_string bnf)) as (Te & _).
  destruct (outcome tbl names bnf Pu Te) as (f2 & H2).
  destruct (H2 f2 (le_n _)) as [(t & Hp)|(e & Hr & Hno)].
  - exfalso. destruct (C47_conversion_never_fails _ _ _ _ _ _ _ _ _ E1 (dl_string bnf) Hp) as (g & A & _).
    apply (N g). apply (C47_bnf_pipeline _ _ _ _ names _ _ _ E1 (dl_string bnf)). exists f2, t. auto.
  - pose proof (C25_names_distinct_heads order _ _ _ _ Po (wf_distinct _ (dg_wf _ self_dec)) E1) as (Nm & _).
    destruct (proj1 (C80_refused order _ SelfGrammar tbl names names _ bnf e (wf_nonempty _ (dg_wf _ self_dec))
      (wf_distinct _ (dg_wf _ self_dec)) (wf_nulfree _ (dg_wf _ self_dec)) E1
      (fun i n Hn => eq_trans (Nm i) Hn) (dl_string bnf))) as (k & R); [exists f2; exact Hr|].
    exists (enough SelfGrammar + f2), k, e, (perror_string e). split; [exact R|]. split; [apply message_string|].
    intros f Hf. rewrite (main_refused order order' typename bnf text f2 e tbl names E1 Hr f Hf). reflexivity.
Qed.
Print Assumptions C52_bad_grammar_file.

Theorem C52_missing_files :
  forall order order' typename fuel bnf msg text,
    json_main order order' typename fuel (Unreadable msg) text =
      Exited [] (s2b "ERROR: can't read JSON BNF text: " ++ msg ++ [LF]) 1 /\
    json_main order order' typename fuel (Contents bnf) (Unreadable msg) =
      Exited [] (s2b "ERROR: can't read JSON file:  " ++ msg ++ [LF]) 1.
Proof. intros. split; reflexivity. Qed.
Print Assumptions C52_missing_files.

(** ** Cases *)

(** A conflict between  "a"  and the empty alternative behind it: the program
    writes the operands of the cell to standard output. *)
Definition conflict_file : grammar := [ru "S" [[nt "A"; tm "a"]]; ru "A" [[tm "a"]; [SNothing]]].
(** A seventh rule whose nodes have no second grandchild. *)
Definition crash_file : grammar :=
  [ru "S" [[nt "A"]]; ru "A" [[nt "B"]]; ru "B" [[nt "C"]]; ru "C" [[nt "D"]]; ru "D" [[nt "E"]]; ru "E" [[nt "F"]]; ru "F" [[tm "x"]]].
Example C88_case :
  json_main (fun l => l) (fun l => l) [] 3000 (Contents (grammar_string conflict_file)) (Contents (s2b "a")) =
    Exited (s2b "[{a}]" ++ [LF])
      (s2b "ERROR: can't build parser table from JSON grammar: grammar lead to multiple parser op sets per table cell" ++ [LF]) 1 /\
  json_main (fun l => l) (fun l => l) [] 3000 (Contents (grammar_string crash_file)) (Contents (s2b "x")) =
    Crashed parsed PanicIndex /\
  json_main (fun l => l) (fun l => l) [] 3000 (Contents (grammar_string crash_file)) (Contents (s2b "y")) =
    Exited created (s2b "ERROR: can't parse JSON text: no rules for 'y' (121) and non terminal op <S>" ++ [LF]) 1 /\
  (exists fuel, forall fuel', fuel <= fuel' ->
     json_main (fun l => l) (fun l => l) [] fuel' (Contents json_bnf) (Contents json_sample) =
       Exited (parsed ++ s2b "  a" ++ [LF] ++ s2b "      b" ++ [LF] ++ s2b "  c" ++ [LF]) [] 0).
Proof.
  split; [vm_compute; reflexivity|]. split; [vm_compute; reflexivity|]. split; [vm_compute; reflexivity|].
  destruct (C52_program (fun l => l) (fun l => l) [] json_sample (fun l => Permutation_refl l) (fun l => Permutation_refl l)) as (fuel & H).
  exists fuel. intros f Hf. destruct C52_case as (J & K). destruct (H f Hf) as (A & _). rewrite (A json_sample_value), K; [reflexivity|].
  rewrite before_nul_id; [exact J|]. intros Hin. vm_compute in Hin. repeat (destruct Hin as [Hin|Hin]; [discriminate|]). exact Hin.
Qed.

(** A left-recursive grammar file: the program never ends. *)
Example C88_case_forever :
  json_runs_forever (Contents (grammar_string left_rec)) (Contents (s2b "_B")) /\
  forall fuel, json_main (fun l => l) (fun l => l) [] fuel (Contents (grammar_string left_rec)) (Contents (s2b "_B")) = Running.
Proof.
  assert (H : json_runs_forever (Contents (grammar_string left_rec)) (Contents (s2b "_B"))).
  { destruct C33_refuted_left_recursive as (tbl & names & W & E & _ & N).
    assert (B : bnf_text (grammar_string left_rec) left_rec) by (apply grammar_printed, printableb_ok; vm_compute; reflexivity).
    exists (grammar_string left_rec), (s2b "_B"), left_rec, left_rec. split; [reflexivity|]. split; [reflexivity|].
    pose proof (last_self _ (wf_distinct _ W)) as S. split; [|split].
    - split; [|exact S]. rewrite before_nul_id; [exact B|eapply bnf_nulfree, B].
    - unfold faultless. apply (C67_accepted (fun l => l) (256 * length left_rec + 1) left_rec left_rec S (wf_nulfree _ W) (le_n _)). eauto.
    - apply (C80_never_returns_last (fun l => l) _ left_rec left_rec tbl names names _ _ (wf_nonempty _ W) S (wf_nulfree _ W) E (dl_string _)).
      exact N. }
  split; [exact H|]. apply C88_json_forever; [intros l; apply Permutation_refl|intros l; apply Permutation_refl|exact H].
Qed.
