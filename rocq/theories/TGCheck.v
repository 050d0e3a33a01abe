(** * TGCheck: a checker for LL(1), proved sound, and what follows for a
    grammar that passes it. *)
From Coq Require Import Sorting.Permutation.
From Verif Require Import Base ByteSet Ast Cst Parser TableGen Spec_Parse Spec_Tree Spec_Grammar Spec_Table
  ByteSetProofs GrammarProofs ParserProofs TreeProofs ParseApi ParseApi2
  TGFirsts TGFollows TGTable TGMain TGCells TGClosed TGParse.

(** ** LL(1) grammars decide their language *)

Lemma LL1_antitone (F G : bytes -> option ascii -> Prop) g :
  (forall n x, G n x -> F n x) -> LL1_wrt F g -> LL1_wrt G g.
Proof.
  intros H [A B C]. constructor; [exact A|exact B|]. intros n s1 s2 c P Hg. apply (C n s1 s2 c P). apply H, Hg.
Qed.

Lemma ll1_terminates order fuel0 g tbl names F m src text :
  wf_grammar g -> LL1_wrt F g -> closed_follow g F ->
  FromGrammar_order order fuel0 g = Ok (tbl, names) -> delivers src text ->
  exists fuel, result fuel tbl (Some m) src <> NoFuel.
Proof.
  intros W L C E Hd. eapply halts_parse; [eapply FromGrammar_public; exact E|eapply FromGrammar_row0; exact E|exact Hd|].
  eapply halts_start; [exact W|eapply FromGrammar_table; [apply W|apply wf_nulfree, W|exact E]|exact L|exact C].
Qed.

Lemma ll1_complete order fuel0 g tbl names F m src text :
  wf_grammar g -> LL1_wrt F g -> closed_follow g F ->
  (forall n x, nullable g [NT n] -> F n x -> follow_code g n x) ->
  FromGrammar_order order fuel0 g = Ok (tbl, names) -> delivers src text ->
  word g text -> exists fuel t, parses_to fuel tbl (Some m) src t.
Proof.
  intros W L C S E Hd Hw.
  assert (Nsrc : ~ In NUL text).
  { intros Hin. destruct Hw as [_ Hy].
    assert (X : sent g (chars text)) by (exists []; exact Hy).
    apply (sent_nulfree g W) in X. apply X. apply in_map, Hin. }
  destruct (complete g tbl F W (FromGrammar_table _ _ _ _ _ (wf_distinct _ W) (wf_nulfree _ W) E) L C S text Nsrc Hw
    (FromGrammar_public _ _ _ _ _ E)) as (t & Ht).
  destruct (proj2 (parse_iff_derivation tbl m src text t (FromGrammar_public _ _ _ _ _ E) Hd) Ht) as (fuel & Hf).
  exists fuel, t. exact Hf.
Qed.

Lemma generated_sound order fuel0 fuel g tbl names m src text t :
  wf_grammar g -> first_disjoint g ->
  FromGrammar_order order fuel0 g = Ok (tbl, names) -> delivers src text -> ~ In NUL text ->
  parses_to fuel tbl (Some m) src t -> derivation_tree g text t.
Proof.
  intros W D E Hd Hn Hp. eapply sound; [exact W|eapply FromGrammar_table; [apply W|apply wf_nulfree, W|exact E]|exact D|exact Hn|].
  eapply (parse_iff_derivation tbl m src text t (FromGrammar_public _ _ _ _ _ E) Hd). exists fuel. exact Hp.
Qed.

(** ** The checker *)

(** Candidate sets. *)
Record cert := mkCert {
  c_nul : bytes -> bool;
  c_first : bytes -> ascii -> bool;
  c_follow : bytes -> option ascii -> bool }.

Section Check.
  Variable g : grammar.
  Variable k : cert.

  Fixpoint form_nul (u : form) : bool :=
    match u with
    | [] => true
    | NT n :: u' => c_nul k n && form_nul u'
    | Ch _ :: _ => false
    end.
  Fixpoint form_first (u : form) (b : ascii) : bool :=
    match u with
    | [] => false
    | NT n :: u' => c_first k n b || (c_nul k n && form_first u' b)
    | Ch c :: _ => Ascii.eqb c b
    end.

  Definition implb2 (a b : bool) : bool := if a then b else true.
  Definition every (p : ascii -> bool) : bool := forallb p all_bytes.
  Definition alternatives_all (p : bytes -> sequence -> bool) : bool :=
    forallb (fun r => forallb (p (r_head r)) (r_tail r)) g.

  Definition closed_first : bool :=
    alternatives_all (fun n s =>
      implb2 (form_nul (seq_form s)) (c_nul k n) &&
      every (fun b => implb2 (form_first (seq_form s) b) (c_first k n b))).

  Fixpoint closed_follow_seq (n : bytes) (s : sequence) : bool :=
    match s with
    | [] => true
    | x :: s' =>
        match x with
        | SNonTerminal B =>
            every (fun b => implb2 (form_first (seq_form s') b) (c_follow k B (Some b))) &&
            (if form_nul (seq_form s') then
               implb2 (c_follow k n None) (c_follow k B None) &&
               every (fun b => implb2 (c_follow k n (Some b)) (c_follow k B (Some b)))
             else true)
        | _ => true
        end && closed_follow_seq n s'
    end.
  Definition closed_followb : bool :=
    c_follow k (start g) None && alternatives_all closed_follow_seq.

  (** [fs]: the bytes [s1] can start with. *)
  Definition pair_ok (n : bytes) (fs : list ascii) (s1 s2 : sequence) : bool :=
    let f1 := seq_form s1 in let f2 := seq_form s2 in
    forallb (fun b => negb (form_first f2 b)) fs &&
    (if form_nul f1 then
       negb (form_nul f2) &&
       every (fun b => implb2 (form_first f2 b) (negb (c_follow k n (Some b))))
     else true) &&
    (if form_nul f2 then forallb (fun b => negb (c_follow k n (Some b))) fs else true).
  Fixpoint pairs_ok (n : bytes) (l : list sequence) : bool :=
    match l with
    | [] => true
    | s :: l' =>
        let fs := filter (form_first (seq_form s)) all_bytes in
        forallb (pair_ok n fs s) l' && pairs_ok n l'
    end.
  Definition ll1b : bool := forallb (fun r => pairs_ok (r_head r) (r_tail r)) g.

  (** ** Soundness *)
  Lemma implb2_true a b : implb2 a b = true <-> (a = true -> b = true).
  Proof. destruct a; simpl; [tauto|]. split; [intros _ X; discriminate|reflexivity]. Qed.
  Lemma every_spec p : every p = true <-> forall b, p b = true.
  Proof.
    unfold every. rewrite forallb_forall. split; [intros H b; apply H, all_bytes_in|auto].
  Qed.
  Lemma alternatives_all_spec p :
    alternatives_all p = true <-> forall n s, alternative g n s -> p n s = true.
  Proof.
    unfold alternatives_all. rewrite forallb_forall. split.
    - intros H n s (r & Hr & <- & Hs). specialize (H r Hr). rewrite forallb_forall in H. apply H, Hs.
    - intros H r Hr. apply forallb_forall. intros s Hs. apply H. exists r. auto.
  Qed.

  Hypothesis CF1 : closed_first = true.
  Lemma closed_nul n s : alternative g n s -> form_nul (seq_form s) = true -> c_nul k n = true.
  Proof.
    intros Ha. apply (proj1 (alternatives_all_spec _) CF1) in Ha. apply andb_prop in Ha. destruct Ha as [H _].
    apply implb2_true, H.
  Qed.
  Lemma closed_fst n s b : alternative g n s -> form_first (seq_form s) b = true -> c_first k n b = true.
  Proof.
    intros Ha. apply (proj1 (alternatives_all_spec _) CF1) in Ha. apply andb_prop in Ha. destruct Ha as [_ H].
    apply (proj1 (every_spec _)) with (b := b) in H. apply implb2_true, H.
  Qed.
  Lemma nul_over u : nullable g u -> form_nul u = true.
  Proof.
    intros H. apply nullr_nullable in H. induction H as [|n s rest Ha _ IH1 _ IH2]; [reflexivity|].
    simpl. rewrite IH2, (closed_nul _ _ Ha IH1). reflexivity.
  Qed.
  Lemma first_over u b : first g u b -> form_first u b = true.
  Proof.
    intros H. apply firstr_first in H. induction H as [rest|n s rest Ha _ IH|n rest Hn _ IH]; simpl.
    - apply Ascii.eqb_refl.
    - rewrite (closed_fst _ _ _ Ha IH). reflexivity.
    - apply nullr_nullable, nul_over in Hn. simpl in Hn. rewrite andb_true_r in Hn.
      rewrite Hn, IH. apply orb_true_r.
  Qed.

  Hypothesis CF2 : closed_followb = true.
  Lemma closed_follow_seq_spec n s : closed_follow_seq n s = true -> forall a B b, s = a ++ SNonTerminal B :: b ->
    (forall c, form_first (seq_form b) c = true -> c_follow k B (Some c) = true) /\
    (form_nul (seq_form b) = true -> forall x, c_follow k n x = true -> c_follow k B x = true).
  Proof.
    induction s as [|y s IH]; intros H a B b E; [destruct a; discriminate|].
    cbn [closed_follow_seq] in H. apply andb_prop in H. destruct H as [H1 H2].
    destruct a as [|z a]; cbn [app] in E; injection E as -> E; [|eapply IH; eassumption].
    subst s. apply andb_prop in H1. destruct H1 as [H0 H1]. split.
    - intros c Hc. apply (proj1 (every_spec _)) with (b := c) in H0. apply (proj1 (implb2_true _ _) H0), Hc.
    - intros Hn x Hx. rewrite Hn in H1. apply andb_prop in H1. destruct H1 as [H1 H3]. destruct x as [c|].
      + apply (proj1 (every_spec _)) with (b := c) in H3. apply (proj1 (implb2_true _ _) H3), Hx.
      + apply (proj1 (implb2_true _ _) H1), Hx.
  Qed.
  Lemma follow_over n x : follow_rules g n x -> c_follow k n x = true.
  Proof.
    apply andb_prop in CF2. destruct CF2 as [H0 H1]. rewrite alternatives_all_spec in H1.
    induction 1 as [Hg|A a B b c Ha Hf|A a B b x Ha Hn _ IH].
    - exact H0.
    - destruct (closed_follow_seq_spec _ _ (H1 _ _ Ha) _ _ _ eq_refl) as [X _]. apply X, first_over, Hf.
    - destruct (closed_follow_seq_spec _ _ (H1 _ _ Ha) _ _ _ eq_refl) as [_ X].
      apply X; [apply nul_over, Hn|exact IH].
  Qed.

  Local Opaque all_bytes.
  Hypothesis LL : ll1b = true.
  Lemma pairs_spec n l1 s1 l2 s2 l3 : pairs_ok n (l1 ++ s1 :: l2 ++ s2 :: l3) = true ->
    pair_ok n (filter (form_first (seq_form s1)) all_bytes) s1 s2 = true.
  Proof.
    induction l1 as [|x l1 IH]; cbn [app pairs_ok]; intros H; apply andb_prop in H; destruct H as [H1 H2]; [|auto].
    rewrite forallb_forall in H1. apply H1. apply in_or_app. right. left. reflexivity.
  Qed.
  Lemma two_ok n s1 s2 : two_alternatives g n s1 s2 ->
    (forall b, form_first (seq_form s1) b = true -> form_first (seq_form s2) b = true -> False) /\
    (form_nul (seq_form s1) = true ->
       form_nul (seq_form s2) = false /\
       forall b, form_first (seq_form s2) b = true -> c_follow k n (Some b) = false) /\
    (form_nul (seq_form s2) = true ->
       forall b, form_first (seq_form s1) b = true -> c_follow k n (Some b) = false).
  Proof.
    intros (r & l1 & l2 & l3 & Hr & <- & E). unfold ll1b in LL. rewrite forallb_forall in LL.
    specialize (LL r Hr). rewrite E in LL. apply pairs_spec in LL. unfold pair_ok in LL.
    apply andb_prop in LL. destruct LL as [P P3]. apply andb_prop in P. destruct P as [P1 P2].
    assert (I : forall b, form_first (seq_form s1) b = true -> In b (filter (form_first (seq_form s1)) all_bytes)).
    { intros b Hb. apply filter_In. split; [apply all_bytes_in|exact Hb]. }
    rewrite forallb_forall in P1. split; [|split].
    - intros b H1 H2. specialize (P1 b (I b H1)). rewrite H2 in P1. discriminate.
    - intros H. rewrite H in P2. apply andb_prop in P2. destruct P2 as [P2 P4].
      split; [apply negb_true_iff, P2|]. intros b Hb. rewrite every_spec in P4. specialize (P4 b).
      rewrite Hb in P4. apply negb_true_iff, P4.
    - intros H. rewrite H in P3. rewrite forallb_forall in P3. intros b Hb.
      apply negb_true_iff, (P3 b (I b Hb)).
  Qed.
  Lemma check_LL1 : LL1_wrt (follow_rules g) g.
  Proof.
    constructor.
    - intros n s1 s2 c P H1 H2. apply two_ok in P. destruct P as (P & _).
      exact (P c (first_over _ _ H1) (first_over _ _ H2)).
    - intros n s1 s2 P H1 H2. apply two_ok in P. destruct P as (_ & P & _).
      destruct (P (nul_over _ H1)) as (P1 & _). rewrite (nul_over _ H2) in P1. discriminate.
    - intros n s1 s2 c P Hf. apply two_ok in P. destruct P as (_ & P2 & P3).
      apply follow_over in Hf. split; intros H1 H2.
      + destruct (P2 (nul_over _ H1)) as (_ & P). rewrite (P c (first_over _ _ H2)) in Hf. discriminate.
      + rewrite (P3 (nul_over _ H1) c (first_over _ _ H2)) in Hf. discriminate.
  Qed.
End Check.

(** ** Boolean well-formedness *)
Definition wf_symbolb (g : grammar) (x : symbol) : bool :=
  match x with
  | STerminal t => negb (bytes_eqb t []) && negb (existsb (Ascii.eqb NUL) t)
  | SNonTerminal n => existsb (bytes_eqb n) (heads g)
  | _ => false
  end.
Definition wf_sequenceb (g : grammar) (s : sequence) : bool :=
  match s with
  | [] => false
  | [SNothing] => true
  | _ => forallb (wf_symbolb g) s
  end.
Fixpoint nodupb (l : list bytes) : bool :=
  match l with
  | [] => true
  | x :: l' => negb (existsb (bytes_eqb x) l') && nodupb l'
  end.
Definition wfb (g : grammar) : bool :=
  negb (match g with [] => true | _ => false end) && nodupb (heads g) &&
  alternatives_all g (fun _ s => wf_sequenceb g s).

Lemma existsb_in n l : existsb (bytes_eqb n) l = true <-> In n l.
Proof.
  rewrite existsb_exists. split.
  - intros (x & Hx & E). apply bytes_eqb_eq in E. subst x. exact Hx.
  - intros H. exists n. split; [exact H|]. apply bytes_eqb_eq. reflexivity.
Qed.
Lemma nodupb_spec l : nodupb l = true <-> NoDup l.
Proof.
  induction l as [|x l IH]; simpl; [split; [constructor|reflexivity]|].
  rewrite andb_true_iff, negb_true_iff, IH. split.
  - intros [H1 H2]. constructor; [|exact H2]. intros Hin. apply existsb_in in Hin. congruence.
  - intros H. inversion H; subst. split; [|assumption].
    destruct (existsb (bytes_eqb x) l) eqn:E; [|reflexivity]. apply existsb_in in E. contradiction.
Qed.
Lemma wf_symbolb_spec g x : wf_symbolb g x = true <-> wf_symbol g x.
Proof.
  destruct x as [n|t| |str]; simpl; [apply existsb_in| |split; [discriminate|intros []]|split; [discriminate|intros []]].
  rewrite andb_true_iff, !negb_true_iff. split; intros [H1 H2]; split.
  - intros ->. discriminate.
  - intros Hin. assert (X : existsb (Ascii.eqb NUL) t = true); [|congruence].
    apply existsb_exists. exists NUL. split; [exact Hin|reflexivity].
  - destruct t; [congruence|reflexivity].
  - destruct (existsb (Ascii.eqb NUL) t) eqn:E; [|reflexivity]. apply existsb_exists in E.
    destruct E as (c & Hc & E). apply Ascii.eqb_eq in E. subst c. contradiction.
Qed.
Lemma wf_sequenceb_spec g s : wf_sequenceb g s = true <-> wf_sequence g s.
Proof.
  unfold wf_sequence. assert (G : forallb (wf_symbolb g) s = true <-> Forall (wf_symbol g) s).
  { rewrite forallb_forall, Forall_forall. split; intros H x Hx; apply wf_symbolb_spec, H, Hx. }
  destruct s as [|x s]; [simpl; split; [discriminate|intros [H|[H _]]; congruence]|].
  destruct x as [n|t| |str]; try (cbn [wf_sequenceb]; rewrite G; split; [intros H; right; split; [discriminate|exact H]|
    intros [H|[_ H]]; [discriminate|exact H]]).
  destruct s as [|y s]; cbn [wf_sequenceb].
  - split; [left; reflexivity|reflexivity].
  - rewrite G. split; [intros H; right; split; [discriminate|exact H]|intros [H|[_ H]]; [discriminate|exact H]].
Qed.
Lemma wfb_spec g : wfb g = true <-> wf_grammar g.
Proof.
  unfold wfb. rewrite !andb_true_iff, nodupb_spec, alternatives_all_spec. split.
  - intros [[H1 H2] H3]. constructor; [intros ->; discriminate|exact H2|].
    intros n s Ha. apply wf_sequenceb_spec, (H3 n s Ha).
  - intros [H1 H2 H3]. split; [split; [destruct g; [congruence|reflexivity]|exact H2]|].
    intros n s Ha. apply wf_sequenceb_spec, (H3 n s Ha).
Qed.

(** ** Candidate sets from association lists, and a way to compute FOLLOW *)
Definition lookup {A} (l : list (bytes * list A)) (n : bytes) : list A :=
  match map_get bytes_eqb n l with Some x => x | None => [] end.
Definition optb (x y : option ascii) : bool :=
  match x, y with
  | None, None => true
  | Some a, Some b => Ascii.eqb a b
  | _, _ => false
  end.
Definition list_cert (nul : list bytes) (fst : list (bytes * list ascii))
    (fol : list (bytes * list (option ascii))) : cert :=
  mkCert (fun n => existsb (bytes_eqb n) nul)
         (fun n b => existsb (Ascii.eqb b) (lookup fst n))
         (fun n x => existsb (optb x) (lookup fol n)).

(** FIRST as computed by the model. *)
Definition firsts_of (g : grammar) : list ByteSet :=
  match findFirsts g (enumerate (heads g)) (256 * length g + 1) (repeat (bs_new []) (length g)) with
  | Ok f => f
  | _ => []
  end.
Definition follows_of (g : grammar) : list ByteSet :=
  match findFollows g (enumerate (heads g)) (256 * length g + 1) (firsts_of g)
          (repeat (bs_new []) (length g)) with
  | Ok f => f
  | _ => []
  end.
Definition set_list (s : ByteSet) : list ascii := filter (bs_contains s) all_bytes.
Definition nul_list (g : grammar) : list bytes :=
  flat_map (fun p => if bs_contains (snd p) NUL then [fst p] else []) (combine (heads g) (firsts_of g)).
Definition first_list (g : grammar) : list (bytes * list ascii) :=
  map (fun p => (fst p, filter (fun c => negb (Ascii.eqb c NUL)) (set_list (snd p))))
      (combine (heads g) (firsts_of g)).

Definition add_fol (n : bytes) (xs : list (option ascii)) (fol : list (bytes * list (option ascii))) :=
  let old := lookup fol n in
  map_set bytes_eqb n (old ++ filter (fun x => negb (existsb (optb x) old)) xs) fol.
Fixpoint fol_seq (k : cert) (n : bytes) (s : sequence) (fol : list (bytes * list (option ascii))) :=
  match s with
  | [] => fol
  | x :: s' =>
      let fol := match x with
                 | SNonTerminal B =>
                     let fol := add_fol B (map Some (filter (form_first k (seq_form s')) all_bytes)) fol in
                     if form_nul k (seq_form s') then add_fol B (lookup fol n) fol else fol
                 | _ => fol
                 end in
      fol_seq k n s' fol
  end.
Definition fol_round (g : grammar) (k : cert) fol :=
  fold_left (fun fol r => fold_left (fun fol s => fol_seq k (r_head r) s fol) (r_tail r) fol) g fol.
Definition fol_list (rounds : nat) (g : grammar) : list (bytes * list (option ascii)) :=
  let k := list_cert (nul_list g) (first_list g) [] in
  Nat.iter rounds (fol_round g k) [(start g, [None])].
Definition auto_cert (g : grammar) : cert :=
  list_cert (nul_list g) (first_list g) (fol_list (length g) g).

(** The generator's FOLLOW sets suffice. *)
Definition follow_found (g : grammar) (k : cert) : bool :=
  forallb (fun p => implb2 (c_nul k (fst p))
     (negb (c_follow k (fst p) (Some NUL)) &&
      forallb (fun b => implb2 (c_follow k (fst p) (ahead b)) (bs_contains (snd p) b)) all_bytes))
    (combine (heads g) (follows_of g)).

Definition is_ok {E A} (x : gores E A) : bool := match x with Ok _ => true | _ => false end.
Definition passes (g : grammar) (k : cert) : bool :=
  wfb g && closed_first g k && closed_followb g k && ll1b g k && follow_found g k &&
  is_ok (FromGrammar (256 * length g + 1) g).

Lemma passes_first g k : passes g k = true -> closed_first g k = true.
Proof. unfold passes. rewrite !andb_true_iff. intros [[[[[_ H] _] _] _] _]. exact H. Qed.

Lemma combine_nth {A B} (l : list A) (m : list B) i a b :
  nth_error l i = Some a -> nth_error m i = Some b -> In (a, b) (combine l m).
Proof.
  revert m i. induction l as [|x l IH]; intros [|y m] [|i] Ha Hb; simpl in *; try discriminate.
  - injection Ha as ->. injection Hb as ->. left. reflexivity.
  - right. eapply IH; eassumption.
Qed.

(** What holds of a grammar that passes. *)
Record decidable_grammar (g : grammar) : Prop := {
  dg_wf : wf_grammar g;
  dg_ll1 : LL1_wrt (follow_rules g) g;
  dg_follow : forall n x, nullable g [NT n] -> follow_rules g n x -> follow_code g n x }.

Lemma passes_ok g k : passes g k = true ->
  decidable_grammar g /\ exists tbl names, FromGrammar (256 * length g + 1) g = Ok (tbl, names).
Proof.
  unfold passes. rewrite !andb_true_iff. intros [[[[[H1 H2] H3] H4] H5] H6].
  apply wfb_spec in H1.
  destruct (FromGrammar (256 * length g + 1) g) as [[tbl names]| | |] eqn:E; try discriminate.
  split; [|exists tbl, names; reflexivity].
  split; [exact H1|apply (check_LL1 g k H2 H3 H4)|].
  intros n x Hn Hx. pose proof (nul_over g k H2 _ Hn) as Kn. simpl in Kn. rewrite andb_true_r in Kn.
  pose proof (follow_over g k H2 H3 _ _ Hx) as Kx.
  pose proof (wf_distinct _ H1) as Nd. pose proof (wf_nulfree _ H1) as Nf.
  destruct (FromGrammar_generated _ _ _ _ _ E) as (firsts & follows & Ef & Eo & G & _).
  pose proof (findFirsts_exact _ _ _ Nd Nf Ef) as FE.
  pose proof (findFollows_exact _ _ _ _ Nd Nf FE Eo) as FO.
  assert (Eo' : follows_of g = follows) by (unfold follows_of, firsts_of; rewrite Ef, Eo; reflexivity).
  apply nullable_nt in Hn. destruct Hn as (s & (r & Hr & <- & _) & _).
  apply In_nth_error in Hr. destruct Hr as (i & Hi).
  assert (Hlt : i < length follows) by (rewrite (gn_len2 _ _ _ _ G); apply nth_error_Some; congruence).
  destruct (nth_error follows i) as [fs|] eqn:Hf; [|apply nth_error_None in Hf; lia].
  assert (Hin : In (r_head r, fs) (combine (heads g) (follows_of g))).
  { rewrite Eo'. apply combine_nth with (i := i); [|exact Hf]. unfold heads. rewrite nth_error_map, Hi. reflexivity. }
  unfold follow_found in H5. rewrite forallb_forall in H5. specialize (H5 _ Hin). cbn [fst snd] in H5.
  rewrite Kn in H5. cbn [implb2] in H5. apply andb_prop in H5. destruct H5 as [H5 H7].
  rewrite forallb_forall in H7.
  assert (Get : forall b, x = ahead b -> follow_code g (r_head r) x).
  { intros b ->. specialize (H7 b (all_bytes_in b)). rewrite Kx in H7. cbn [implb2] in H7.
    apply (fol_follow g follows _ (fo_rules _ _ FO) i r fs b Hi Hf). exact H7. }
  destruct x as [c|]; [|apply (Get NUL); reflexivity].
  apply (Get c). unfold ahead. destruct (Ascii.eqb_spec c NUL) as [->|N]; [|reflexivity].
  rewrite Kx in H5. discriminate.
Qed.

Theorem decides order fuel0 g tbl names m src text :
  decidable_grammar g -> FromGrammar_order order fuel0 g = Ok (tbl, names) -> delivers src text ->
  (exists fuel, result fuel tbl (Some m) src <> NoFuel) /\
  (~ In NUL text -> ((exists fuel t, parses_to fuel tbl (Some m) src t) <-> word g text)).
Proof.
  intros [W L S] E Hd. pose proof (follow_rules_closed g (wf_nonempty _ W)) as C. split.
  - eapply ll1_terminates; eassumption.
  - intros Hn. split.
    + intros (fuel & t & Hp). eapply derivation_tree_word; [apply W|].
      eapply generated_sound; [exact W|exact (ll1_first _ _ L)|exact E|exact Hd|exact Hn|exact Hp].
    + intros Hw. eapply ll1_complete; eassumption.
Qed.
