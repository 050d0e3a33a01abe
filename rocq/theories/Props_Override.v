(** * Props_Override: property C66, names defined more than once. *)
From Verif Require Import Base ByteSet Ast Cst Parser TableGen Spec_Parse Spec_Tree Spec_Grammar Spec_Table Spec_Override
  GrammarProofs ParseApi ParseApi2 TGMain TGCells TGClosed TGParse TGCheck Props_Parser Props_TableGen TGOverride
  Spec_Viable TGHandled TGWords.

(** Every grammar can be written with its earlier definitions set aside. *)
Theorem C66_set_aside : forall g, exists g', last_definitions g g'.
Proof.
  intros g.
  set (names := heads g ++ flat_map (fun r => flat_map (flat_map (fun x => match x with SNonTerminal n => [n] | _ => [] end)) (r_tail r)) g).
  set (L := list_max (map (@length ascii) names)).
  assert (Small : forall n, mentioned g n -> length n <= L).
  { intros n M. assert (Hin : In n names).
    { apply in_or_app. destruct M as [D|(m & s & (r & Hr & _ & Hs) & Hx)]; [left; exact D|right].
      apply in_flat_map. exists r. split; [exact Hr|]. apply in_flat_map. exists s. split; [exact Hs|].
      apply in_flat_map. exists (SNonTerminal n). split; [exact Hx|left; reflexivity]. }
    pose proof (proj1 (list_max_le (map (@length ascii) names) L) (le_n _)) as F. rewrite Forall_forall in F.
    apply F. apply in_map, Hin. }
  assert (Hd : forall n, In n (heads g) -> length n <= L) by (intros n Hn; apply Small; left; exact Hn).
  assert (Fr : forall k, L < k -> ~ mentioned g (repeat NUL k)).
  { intros k Hk M. apply Small in M. rewrite repeat_length in M. lia. }
  assert (Build : forall h, (forall n, In n (heads h) -> length n <= L) ->
    exists h', set_aside (fun n => ~ mentioned g n) h h' /\ NoDup (heads h') /\
      forall n, In n (heads h') -> (In n (heads h) \/ L < length n <= L + length h)).
  { induction h as [|r h IH]; intros Hl.
    - exists []. split; [constructor|]. split; [constructor|]. intros n [].
    - destruct IH as (h' & A & N & B); [intros n Hn; apply Hl; right; exact Hn|].
      destruct (in_dec (list_eq_dec ascii_dec) (r_head r) (heads h)) as [I|I].
      + exists (mkRule (repeat NUL (L + S (length h))) (r_tail r) :: h').
        split; [constructor; [exact I|apply Fr; lia|exact A]|]. split.
        * cbn. constructor; [|exact N]. intros Hin. apply B in Hin. rewrite repeat_length in Hin.
          destruct Hin as [Hin|Hin]; [|lia].
          assert (X : length (repeat NUL (L + S (length h))) <= L) by (apply Hl; right; exact Hin).
          rewrite repeat_length in X. lia.
        * cbn. intros n [<-|Hn]; [right; rewrite repeat_length; lia|].
          apply B in Hn. destruct Hn as [Hn|Hn]; [left; right; exact Hn|right; lia].
      + exists (r :: h'). split; [constructor; assumption|]. split.
        * cbn. constructor; [|exact N]. intros Hin. apply B in Hin. destruct Hin as [Hin|Hin]; [contradiction|].
          assert (X : length (r_head r) <= L) by (apply Hl; left; reflexivity). lia.
        * cbn. intros n [<-|Hn]; [left; left; reflexivity|].
          apply B in Hn. destruct Hn as [Hn|Hn]; [left; right; exact Hn|right; lia]. }
  destruct (Build g Hd) as (g' & A & N & _). exists g'. split; assumption.
Qed.
Print Assumptions C66_set_aside.

(** The only possible error is still the conflict; a repeated name is none.
    The table is the one of the grammar with the earlier definitions set aside,
    except that they take part in the FOLLOW sets. *)
Theorem C66_outcome :
  forall order fuel g g', last_definitions g g' -> wf_grammar g' -> 256 * length g + 1 <= fuel ->
    (FromGrammar_order order fuel g = Err EConflict <-> late_empty g' (follow_last g g')) /\
    ((exists tbl names, FromGrammar_order order fuel g = Ok (tbl, names)) <->
     ~ late_empty g' (follow_last g g')) /\
    (forall tbl names, FromGrammar_order order fuel g = Ok (tbl, names) ->
       table_spec_wrt (follow_last g g') g' tbl).
Proof.
  intros order fuel g g' S W Hf.
  destruct (FromGrammar_last order fuel g g' S W Hf) as [(E & L)|(tbl & names & E & L & T)]; rewrite E.
  - split; [tauto|]. split; [|discriminate]. split; [intros (tbl & names & H); discriminate|contradiction].
  - split; [split; [discriminate|contradiction]|]. split.
    + split; [auto|]. intros _. exists tbl, names. reflexivity.
    + intros tbl' names' H. injection H as <- <-. exact T.
Qed.
Print Assumptions C66_outcome.

(** Accepted texts are words in which every name stands for its last
    definition: definitions are not merged. *)
Theorem C66_sound :
  forall order fuel0 fuel g g' tbl names m src text t,
    last_definitions g g' -> wf_grammar g' -> first_disjoint g' ->
    FromGrammar_order order fuel0 g = Ok (tbl, names) -> delivers src text -> ~ In NUL text ->
    parses_to fuel tbl (Some m) src t ->
    derivation_tree g' text t /\ word g' text.
Proof.
  intros order fuel0 fuel g g' tbl names m src text t S W D E Hd Hn Hp.
  destruct (FromGrammar_last_ok _ _ _ _ _ _ S W E) as (T & _).
  assert (X : derivation_tree g' text t).
  { eapply sound; [exact W|exact T|exact D|exact Hn|].
    apply (C11_parse_iff_derivation tbl m src text t (FromGrammar_public _ _ _ _ _ E) Hd). exists fuel. exact Hp. }
  split; [exact X|]. eapply derivation_tree_word; [exact (wf_nonempty _ W)|exact X].
Qed.
Print Assumptions C66_sound.

(** All of those words, under the conditions of C28 on the last definitions. *)
Theorem C66_complete :
  forall order fuel0 g g' tbl names m src text,
    last_definitions g g' -> wf_grammar g' -> LL1 g' ->
    (forall n x, nullable g' [NT n] -> follow g' n x -> follow_code g' n x) ->
    FromGrammar_order order fuel0 g = Ok (tbl, names) -> delivers src text -> word g' text ->
    exists fuel t, parses_to fuel tbl (Some m) src t.
Proof.
  intros order fuel0 g g' tbl names m src text S W L Sub E Hd Hw.
  destruct (FromGrammar_last_ok _ _ _ _ _ _ S W E) as (T & _).
  assert (Nsrc : ~ In NUL text).
  { intros Hin. assert (X : sent g' (chars text)) by (exists []; apply Hw).
    apply (sent_nulfree g' W) in X. apply X. apply in_map, Hin. }
  destruct (complete g' tbl (follow g') W T L (follow_closed g')) with (src := text) as (t & Ht).
  - intros n x Hn Hf. apply follow_code_last; [exact S| |apply Sub; assumption].
    intros k s v Ha Hv. destruct (wf_sequences _ W _ _ Ha) as [->|[_ Fa]].
    + destruct Hv as [Hv|[]]. discriminate.
    + rewrite Forall_forall in Fa. apply (Fa (SNonTerminal v)), Hv.
  - exact Nsrc.
  - exact Hw.
  - exact (FromGrammar_public _ _ _ _ _ E).
  - destruct (proj2 (C11_parse_iff_derivation tbl m src text t (FromGrammar_public _ _ _ _ _ E) Hd) Ht) as (fuel & Hf).
    exists fuel, t. exact Hf.
Qed.
Print Assumptions C66_complete.

(** It accepts all words exactly when the FOLLOW sets it finds miss nothing that
    a word needs. *)
Theorem C66_every_word :
  forall order fuel0 g g' tbl names m,
    last_definitions g g' -> wf_grammar g' -> LL1 g' ->
    FromGrammar_order order fuel0 g = Ok (tbl, names) ->
    ((forall src text, delivers src text -> word g' text ->
        exists fuel t, parses_to fuel tbl (Some m) src t) <->
     (forall n x, nullable g' [NT n] -> follows_in_word g' n x -> follow_last g g' n x)).
Proof.
  intros order fuel0 g g' tbl names m S W L E.
  destruct (FromGrammar_last_ok _ _ _ _ _ _ S W E) as (T & _).
  pose proof (FromGrammar_public _ _ _ _ _ E) as Pub.
  assert (Df : forall k s v, alternative g' k s -> In (SNonTerminal v) s -> defined g' v).
  { intros k s v Ha Hv. destruct (wf_sequences _ W _ _ Ha) as [->|[_ Fa]].
    - destruct Hv as [Hv|[]]. discriminate.
    - rewrite Forall_forall in Fa. apply (Fa (SNonTerminal v)), Hv. }
  split.
  - intros A. apply (accepts_words_needs_wrt g' (follow_last g g') tbl m W L T).
    + intros A0 a B b x. apply (follow_last_inherits g g' S Df).
    + exact Pub.
    + intros text Hw. exact (A (SrcString text) text (dl_string text) Hw).
  - intros Sub src text Hd Hw.
    exact (needs_accepts_words_wrt g' (follow_last g g') tbl m src text W L T Pub Sub Hd Hw).
Qed.
Print Assumptions C66_every_word.

(** S ::= "a" S | A      S ::= "b"      A ::= "c"      A ::= "d" *)
Definition twice : grammar :=
  [ru "S" [[tm "a"; nt "S"]; [nt "A"]]; ru "S" [[tm "b"]]; ru "A" [[tm "c"]]; ru "A" [[tm "d"]]].
Definition twice' : grammar :=
  [ru "S0" [[tm "a"; nt "S"]; [nt "A"]]; ru "S" [[tm "b"]]; ru "A0" [[tm "c"]]; ru "A" [[tm "d"]]].
Lemma twice_last : last_definitions twice twice'.
Proof.
  assert (F : forall n, In n [s2b "S0"; s2b "A0"] -> ~ mentioned twice n).
  { intros n Hn [D|(m & s & (r & Hr & _ & Hs) & Hx)].
    - destruct Hn as [<-|[<-|[]]]; cbn in D; repeat (destruct D as [D|D]; [discriminate|]); exact D.
    - destruct Hn as [<-|[<-|[]]]; cbn in Hr;
        repeat (destruct Hr as [<-|Hr]; [cbn in Hs; repeat (destruct Hs as [<-|Hs];
          [cbn in Hx; repeat (destruct Hx as [Hx|Hx]; [discriminate|]); exact Hx|]); exact Hs|]); exact Hr. }
  split.
  - unfold twice, twice'.
    change (ru "S0" [[tm "a"; nt "S"]; [nt "A"]]) with (mkRule (s2b "S0") (r_tail (ru "S" [[tm "a"; nt "S"]; [nt "A"]]))).
    apply sa_earlier; [left; reflexivity|apply F; left; reflexivity|].
    apply sa_last; [cbn; intros H; repeat (destruct H as [H|H]; [discriminate|]); exact H|].
    change (ru "A0" [[tm "c"]]) with (mkRule (s2b "A0") (r_tail (ru "A" [[tm "c"]]))).
    apply sa_earlier; [left; reflexivity|apply F; right; left; reflexivity|].
    apply sa_last; [intros []|]. constructor.
  - cbn. repeat constructor; cbn; intros H; repeat (destruct H as [H|H]; [discriminate|]); exact H.
Qed.
Example C66_case :
  last_definitions twice twice' /\ wf_grammar twice' /\ LL1 twice' /\
  (forall n x, nullable twice' [NT n] -> follow twice' n x -> follow_code twice' n x) /\
  FromGrammar (256 * length twice + 1) twice = Ok (gen_of twice) /\
  (exists t, parses_to 100 (fst (gen_of twice)) (Some (snd (gen_of twice))) (SrcString (s2b "ab")) t) /\
  (exists t, parses_to 100 (fst (gen_of twice)) (Some (snd (gen_of twice))) (SrcString (s2b "d")) t) /\
  fails_with 100 (fst (gen_of twice)) (Some (snd (gen_of twice))) (SrcString (s2b "c"))
    (ENoRulesForByte "c"%char (s2b "Unknown_0")) /\
  fails_with 100 (fst (gen_of twice)) (Some (snd (gen_of twice))) (SrcString (s2b "aab"))
    (ENoRulesForByte "a"%char (s2b "S")).
Proof.
  assert (K : wfb twice' = true /\ closed_first twice' (auto_cert twice') = true /\
    closed_followb twice' (auto_cert twice') = true /\ ll1b twice' (auto_cert twice') = true) by (vm_compute; repeat split).
  destruct K as (K0 & K1 & K2 & K3).
  split; [exact twice_last|]. split; [apply wfb_spec; exact K0|].
  split; [apply rules_LL1; [discriminate|]; eapply check_LL1; eassumption|].
  split.
  - assert (P : passes twice' (auto_cert twice') = true) by (vm_compute; reflexivity).
    destruct (proj1 (passes_ok _ _ P)) as [_ _ Sub]. intros n x Hn Hf. apply Sub; [exact Hn|].
    apply follow_in_rules; [discriminate|exact Hf].
  - split; [vm_compute; reflexivity|]. repeat split; try (eexists; eexists; vm_compute; reflexivity); vm_compute; reflexivity.
Qed.
