(** * BnfTrees: what the converter makes of derivation trees of SelfGrammar. *)
From Verif Require Import Base Cst Ast Parser SelfGrammar FromCst Spec_Parse Spec_Tree Spec_Grammar Spec_Table
  Spec_Convert Spec_Bnf TreeProofs TGFirsts TGParse TGCheck ConvertProofs BnfDet BnfParser.

Notation SG := SelfGrammar.
Notation SB := (sort_bindings SelfCSTtoASTBindings).
Notation N x := (SNonTerminal (s2b x)).

(** Nodes of type [ty] outside line ends. *)
Definition finds (ty : Z) (t : node) : list node := outermost (fun z => z =? 25)%Z (fun z => z =? ty)%Z t.
Lemma nodes_finds t ty : nodes_with SB t ty = finds ty t.
Proof.
  apply outermost_ext; [|reflexivity]. intros z.
  change (IgnoreNodeTypes SB) with (sort_ints [25%Z]). rewrite isNodeIgnored_listed. cbn. apply orb_false_r.
Qed.

Definition alts (n : bytes) : list sequence :=
  flat_map (fun r => if bytes_eqb (r_head r) n then r_tail r else []) SG.
Lemma alternative_alts n s : alternative SG n s -> In s (alts n).
Proof.
  intros (r & Hr & <- & Hs). unfold alts. apply in_flat_map. exists r. split; [exact Hr|].
  rewrite (proj2 (bytes_eqb_eq (r_head r) (r_head r))) by reflexivity. exact Hs.
Qed.

Lemma collect_app {X} (h : node -> fcres X) l1 l2 a b :
  collect h l1 = Ok a -> collect h l2 = Ok b -> collect h (l1 ++ l2) = Ok (a ++ b).
Proof.
  revert a. induction l1 as [|n l1 IH]; intros a; cbn [collect app].
  - intros E. injection E as <-. auto.
  - intros E Hb. destruct (h n) as [x|e|pn|]; try discriminate. cbn [gobind] in *.
    destruct (collect h l1) as [xs|e|pn|]; try discriminate. cbn [gobind] in E. injection E as <-.
    rewrite (IH xs eq_refl Hb). reflexivity.
Qed.
Lemma collect_one {X} (h : node -> fcres X) n l a b :
  h n = Ok a -> collect h l = Ok b -> collect h (n :: l) = Ok (a :: b).
Proof. intros E1 E2. cbn [collect]. rewrite E1, E2. reflexivity. Qed.

Lemma tree_ind (P : node -> Prop) :
  (forall t, (forall c, In c (n_childs t) -> P c) -> P t) -> forall t, P t.
Proof.
  intros H t. induction t as [ty a b childs IH] using node_ind'. apply H. cbn [n_childs].
  rewrite Forall_forall in IH. exact IH.
Qed.

Section Trees.
  Variable src : bytes.
  Notation D := (derivation SG src).
  Notation Ds := (derivations SG src).
  Notation sl := (slice_nat src).

  Lemma D_le x p t q : D x p t q -> p <= q.
  Proof. intros H. exact (proj1 (proj1 (derivation_yields_both SG src) _ _ _ _ H)). Qed.
  Lemma Ds_le s p t q : Ds s p t q -> p <= q.
  Proof. intros H. exact (proj1 (proj2 (derivation_yields_both SG src) _ _ _ _ H)). Qed.

  Lemma cons_inv x s p l q : Ds (x :: s) p l q ->
    exists t m ts, l = t :: ts /\ D x p t m /\ Ds s m ts q /\ p <= m /\ m <= q.
  Proof.
    inversion 1; subst. eexists _, _, _. split; [reflexivity|]. split; [eassumption|]. split; [eassumption|].
    split; [eapply D_le|eapply Ds_le]; eassumption.
  Qed.
  Lemma nil_inv p l q : Ds [] p l q -> l = [] /\ q = p.
  Proof. inversion 1; auto. Qed.
  Lemma term_inv v p t q : D (STerminal v) p t q -> t = literal_at p q /\ sl p q = v.
  Proof. inversion 1; subst. split; [reflexivity|]. rewrite <- text_of_nat. assumption. Qed.

  Lemma nt_inv i n p t q : nth_error (heads SG) i = Some n -> D (SNonTerminal n) p t q ->
    (exists s childs, In s (alts n) /\ t = mk (Z.of_nat i) p q childs /\ Ds s p childs q) \/
    (c_nul self_cert n = true /\ t = mk (Z.of_nat i) p q [nothing_at p] /\ q = p).
  Proof.
    intros Hi H.
    assert (U : forall j, nth_error (heads SG) j = Some n -> j = i).
    { intros j Hj. eapply (proj1 (NoDup_nth_error (heads SG)) (wf_distinct _ (dg_wf _ self_dec))).
      - apply nth_error_Some. congruence.
      - congruence. }
    inversion H as [|j n' s p' childs q' Hj Ha Hd|j n' p' Hj Hn]; subst; rewrite (U _ Hj).
    - left. exists s, childs. split; [apply alternative_alts, Ha|]. auto.
    - right. split; [apply self_nullable, Hn|]. auto.
  Qed.

  (** ** Types below a node *)
  Definition closedset (C : list bytes) : bool :=
    forallb (fun n => forallb (forallb (fun x =>
      match x with SNonTerminal m => existsb (bytes_eqb m) C | _ => true end)) (alts n)) C.
  Definition foreign (C : list bytes) (ty : Z) : bool :=
    negb (ty =? -1)%Z && negb (ty =? -2)%Z &&
    forallb (fun i => match nth_error (heads SG) i with
                      | Some n => if existsb (bytes_eqb n) C then negb (Z.of_nat i =? ty)%Z else true
                      | None => true
                      end) (seq 0 26).
  Definition inC (C : list bytes) (x : symbol) : bool :=
    match x with SNonTerminal m => existsb (bytes_eqb m) C | _ => true end.

  Lemma finds_node ty i p q childs : (Z.of_nat i =? 25)%Z = false -> (Z.of_nat i =? ty)%Z = false ->
    finds ty (mk (Z.of_nat i) p q childs) = flat_map (finds ty) childs.
  Proof. intros H1 H2. unfold finds, mk. cbn [outermost]. rewrite H1, H2. reflexivity. Qed.

  Lemma foreign_node C ty i n p q childs : foreign C ty = true -> nth_error (heads SG) i = Some n ->
    existsb (bytes_eqb n) C = true -> flat_map (finds ty) childs = [] ->
    finds ty (mk (Z.of_nat i) p q childs) = [].
  Proof.
    intros F Hi Hn Hc. unfold finds, mk. cbn [outermost]. destruct (Z.of_nat i =? 25)%Z; [reflexivity|].
    apply andb_prop in F. destruct F as (_ & F). rewrite forallb_forall in F.
    assert (L : i < length (heads SG)) by (apply nth_error_Some; congruence).
    specialize (F i (proj2 (in_seq 26 0 i) (conj (Nat.le_0_l i) L))). rewrite Hi, Hn in F.
    apply negb_true_iff in F. rewrite F. exact Hc.
  Qed.

  Lemma types_below C ty : closedset C = true -> foreign C ty = true ->
    (forall x p t q, D x p t q -> inC C x = true -> finds ty t = []) /\
    (forall s p ts q, Ds s p ts q -> forallb (inC C) s = true -> flat_map (finds ty) ts = []).
  Proof.
    intros Cl F.
    apply (derivation_both SG src
      (fun x p t q _ => inC C x = true -> finds ty t = [])
      (fun s p ts q _ => forallb (inC C) s = true -> flat_map (finds ty) ts = [])).
    - intros v p _ _ _. unfold finds, literal_at, mk. cbn [outermost]. change (-1 =? 25)%Z with false. cbv iota. apply andb_prop in F. destruct F as (F & _).
      apply andb_prop in F. destruct F as (F & _). rewrite Z.eqb_sym. destruct (ty =? -1)%Z; [discriminate|reflexivity].
    - intros i n s p childs q Hi Ha _ IH Hx. cbn [inC] in Hx. eapply foreign_node; try eassumption.
      apply IH. unfold closedset in Cl. rewrite forallb_forall in Cl.
      apply existsb_exists in Hx. destruct Hx as (m & Hm & E). apply bytes_eqb_eq in E. subst m.
      specialize (Cl n Hm). rewrite forallb_forall in Cl. exact (Cl s (alternative_alts _ _ Ha)).
    - intros i n p Hi Hn Hx. cbn [inC] in Hx. eapply foreign_node; try eassumption.
      cbn [flat_map]. rewrite app_nil_r. apply andb_prop in F. destruct F as (F & _). apply andb_prop in F. destruct F as (_ & F).
      unfold finds, nothing_at, mk. cbn [outermost]. change (-2 =? 25)%Z with false. cbv iota.
      rewrite Z.eqb_sym. destruct (ty =? -2)%Z; [discriminate|reflexivity].
    - reflexivity.
    - intros x s p t m ts q _ IH1 _ IH2 H. cbn in H. apply andb_prop in H. destruct H as (H1 & H2).
      cbn. rewrite (IH1 H1), (IH2 H2). reflexivity.
  Qed.

  Definition Cblank : list bytes := [s2b "opt-whitespace"].
  Definition Cname : list bytes :=
    [s2b "rule-name"; s2b "rule-name-tail"; s2b "rule-char"; s2b "letter"; s2b "digit"].
  Definition Cescaped : list bytes := [s2b "escaped-char"].
  Definition Ctext2 : list bytes :=
    [s2b "text2"; s2b "character2"; s2b "character"; s2b "letter"; s2b "digit"; s2b "symbol";
     s2b "escape-sequence"; s2b "escaped-char"].

  Lemma blank_none ty p t q : D (N "opt-whitespace") p t q -> foreign Cblank ty = true -> finds ty t = [].
  Proof.
    intros H F. refine (proj1 (types_below Cblank ty _ F) _ _ _ _ H _); vm_compute; reflexivity.
  Qed.
  Lemma name_none ty p t q : D (N "rule-name") p t q -> foreign Cname ty = true -> finds ty t = [].
  Proof.
    intros H F. refine (proj1 (types_below Cname ty _ F) _ _ _ _ H _); vm_compute; reflexivity.
  Qed.
  Lemma text2_none ty p t q : D (N "text2") p t q -> foreign Ctext2 ty = true -> finds ty t = [].
  Proof.
    intros H F. refine (proj1 (types_below Ctext2 ty _ F) _ _ _ _ H _); vm_compute; reflexivity.
  Qed.
  Lemma literal_none ty p q : (ty =? -1)%Z = false -> finds ty (literal_at p q) = [].
  Proof.
    intros H. unfold finds, literal_at, mk. cbn [outermost]. change (-1 =? 25)%Z with false. cbv iota.
    rewrite Z.eqb_sym, H. reflexivity.
  Qed.

  (** ** Slices and texts *)
  Lemma sl_cat p m q : p <= m -> m <= q -> sl p q = sl p m ++ sl m q.
  Proof. apply slice_split. Qed.
  Lemma text_at i p q childs : p <= q -> q <= length src ->
    text src (mk i p q childs) = Ok (sl p q).
  Proof.
    intros H1 H2. rewrite text_eq.
    - unfold mk. cbn [n_pos n_end]. rewrite text_of_nat. reflexivity.
    - unfold inside, mk. cbn. lia.
  Qed.

  (** ** Characters and names *)
  Lemma class_inv i n (P : ascii -> bool) p t q :
    nth_error (heads SG) i = Some n -> c_nul self_cert n = false ->
    forallb (fun s => match s with [STerminal [c]] => P c | _ => false end) (alts n) = true ->
    D (SNonTerminal n) p t q ->
    exists c, P c = true /\ sl p q = [c] /\ t = mk (Z.of_nat i) p q [literal_at p q].
  Proof.
    intros Hi Hn Ha H. destruct (nt_inv i n p t q Hi H) as [(s & childs & Hs & -> & Hd)|(Hz & _)]; [|congruence].
    rewrite forallb_forall in Ha. specialize (Ha s Hs).
    destruct s as [|[|[|c [|]]| |] [|]]; try discriminate.
    apply cons_inv in Hd. destruct Hd as (t & m & ts & -> & H1 & H2 & _).
    apply nil_inv in H2. destruct H2 as (-> & ->). apply term_inv in H1. destruct H1 as (-> & E).
    exists c. auto.
  Qed.
  Lemma letter_inv p t q : D (N "letter") p t q ->
    exists c, is_letter c = true /\ sl p q = [c] /\ t = mk 21 p q [literal_at p q].
  Proof. apply (class_inv 21); vm_compute; reflexivity. Qed.
  Lemma digit_inv p t q : D (N "digit") p t q ->
    exists c, is_digit c = true /\ sl p q = [c] /\ t = mk 22 p q [literal_at p q].
  Proof. apply (class_inv 22); vm_compute; reflexivity. Qed.
  Definition plain (c : ascii) : bool :=
    is_printable c && negb (Ascii.eqb c DQ) && negb (Ascii.eqb c SQ) && negb (Ascii.eqb c BSL).
  Lemma symbol_inv p t q : D (N "symbol") p t q ->
    exists c, plain c = true /\ sl p q = [c] /\ t = mk 23 p q [literal_at p q].
  Proof. apply (class_inv 23); vm_compute; reflexivity. Qed.
  Definition escapeb (e : ascii) : bool := match unescape e with Some _ => true | None => false end.
  Lemma escaped_inv p t q : D (N "escaped-char") p t q ->
    exists c, escapeb c = true /\ sl p q = [c] /\ t = mk 17 p q [literal_at p q].
  Proof. apply (class_inv 17); vm_compute; reflexivity. Qed.

  Ltac alternatives H :=
    let s := fresh "s" in let childs := fresh "childs" in let Hs := fresh "Hs" in let Hd := fresh "Hd" in
    let Hz := fresh "Hz" in
    destruct H as [(s & childs & Hs & -> & Hd)|(Hz & -> & ->)];
    [vm_compute in Hs; repeat (destruct Hs as [<-|Hs]; [|]); try (destruct Hs)
    |try (vm_compute in Hz; discriminate Hz)].
  (** Take the first child off. *)
  Ltac child t m H1 :=
    match goal with
    | H : derivations _ _ (_ :: _) _ _ _ |- _ =>
        apply cons_inv in H;
        let L1 := fresh "L" in let L2 := fresh "L" in
        destruct H as (t & m & ?ts & -> & H1 & H & L1 & L2);
        try (apply term_inv in H1; destruct H1 as (-> & H1))
    end.
  Ltac done_childs :=
    match goal with
    | H : derivations _ _ [] _ _ _ |- _ => apply nil_inv in H; destruct H as (-> & ->)
    end.
  Ltac no_nothing :=
    match goal with
    | H : derivations _ _ [SNothing] _ _ _ |- _ =>
        apply cons_inv in H; destruct H as (? & ? & ? & _ & H & _); inversion H
    end.

  Lemma blanks_inv p t q : D (N "opt-whitespace") p t q -> blanks (sl p q).
  Proof.
    revert p q. induction t as [t IH] using tree_ind. intros p q H.
    apply (nt_inv 24) in H; [|reflexivity]. alternatives H.
    - child t1 m E. child t2 m2 D2. done_childs.
      rewrite (sl_cat p m m2), E by assumption. constructor; [reflexivity|].
      apply (IH t2); [right; left; reflexivity|assumption].
    - no_nothing.
    - rewrite slice_empty. constructor.
  Qed.

  Lemma name_char_inv p t q : D (N "rule-char") p t q -> exists c, is_name_char c = true /\ sl p q = [c].
  Proof.
    intros H. apply (nt_inv 20) in H; [|reflexivity]. alternatives H; child t1 m E; done_childs.
    - apply letter_inv in E. destruct E as (c & Hc & Es & _). exists c. split; [apply letter_name, Hc|exact Es].
    - apply digit_inv in E. destruct E as (c & Hc & Es & _). exists c. split; [|exact Es].
      unfold is_name_char. rewrite Hc, orb_true_r. reflexivity.
    - exists "-"%char. split; [reflexivity|exact E].
  Qed.
  Lemma name_tail_inv p t q : D (N "rule-name-tail") p t q -> all is_name_char (sl p q).
  Proof.
    revert p q. induction t as [t IH] using tree_ind. intros p q H.
    apply (nt_inv 19) in H; [|reflexivity]. alternatives H.
    - no_nothing.
    - child t1 m D1. child t2 m2 D2. done_childs.
      apply name_char_inv in D1. destruct D1 as (c & Hc & E).
      rewrite (sl_cat p m m2), E by assumption. constructor; [exact Hc|].
      apply (IH t2); [right; left; reflexivity|assumption].
    - rewrite slice_empty. constructor.
  Qed.
  Lemma name_inv p t q : D (N "rule-name") p t q -> name (sl p q) /\ exists childs, t = mk 18 p q childs.
  Proof.
    intros H. apply (nt_inv 18) in H; [|reflexivity]. alternatives H.
    child t1 m D1. child t2 m2 D2. done_childs.
    apply letter_inv in D1. destruct D1 as (c & Hc & E & _).
    split; [|eexists; reflexivity].
    rewrite (sl_cat p m m2), E by assumption. exists c, (sl m m2). split; [reflexivity|]. split; [exact Hc|].
    eapply name_tail_inv, D2.
  Qed.

  (** ** Literals *)
  Definition reads (t : node) (v : bytes) : Prop :=
    exists vs, collect (piece SB src) (pieces_of t) = Ok vs /\ concat vs = v.
  Lemma reads_literal p q : p <= q -> q <= length src -> reads (literal_at p q) (sl p q).
  Proof.
    intros H1 H2. exists [sl p q]. split; [|cbn; apply app_nil_r].
    apply collect_one; [|reflexivity]. apply (text_at (-1)); assumption.
  Qed.
  Lemma reads_nothing p : reads (nothing_at p) [].
  Proof. exists []. split; reflexivity. Qed.
  Lemma reads_node i p q childs vs :
    (Z.of_nat i =? 16)%Z = false -> Forall2 reads childs vs -> reads (mk (Z.of_nat i) p q childs) (concat vs).
  Proof.
    intros Hi H. unfold reads, pieces_of, mk. cbn [outermost]. rewrite Hi.
    assert (E : (Z.of_nat i =? -1)%Z = false) by (apply Z.eqb_neq; lia). rewrite E. cbn [orb]. fold pieces_of.
    clear Hi E. induction H as [|c v l vs (x & Ex & <-) _ IH].
    - exists []. split; reflexivity.
    - destruct IH as (y & Ey & Eq). exists (x ++ y). split; [|rewrite concat_app, Eq; reflexivity].
      cbn [flat_map]. apply collect_app; assumption.
  Qed.
  Lemma reads_node1 i p q c v : (Z.of_nat i =? 16)%Z = false -> reads c v -> reads (mk (Z.of_nat i) p q [c]) v.
  Proof.
    intros Hi H. rewrite <- (app_nil_r v). change (v ++ []) with (concat [v]). apply reads_node; auto.
  Qed.

  Lemma unescape_escape e : escapeb e = true -> exists c, escape e c /\
    map_get bytes_eqb [e] (EscapeMapping SB) = Some [c].
  Proof.
    intros H. destruct e as [[] [] [] [] [] [] [] []]; vm_compute in H; try discriminate H;
      eexists; (split; [constructor|reflexivity]).
  Qed.

  Lemma escape_inv p t q : q <= length src -> D (N "escape-sequence") p t q ->
    exists e c, escape e c /\ sl p q = [BSL; e] /\ reads t [c].
  Proof.
    intros Hq H. apply (nt_inv 16) in H; [|reflexivity]. alternatives H.
    child t1 m E1. child t2 m2 D2. done_childs.
    pose proof D2 as D3. apply escaped_inv in D3. destruct D3 as (e & He & E2 & ->).
    apply unescape_escape in He. destruct He as (c & Ec & Em). exists e, c. split; [exact Ec|].
    split; [rewrite (sl_cat p m m2), E1, E2 by assumption; reflexivity|].
    exists [[c]]. split; [|reflexivity].
    change (pieces_of (mk (Z.of_nat 16) p m2 [literal_at p m; mk 17 m m2 [literal_at m m2]]))
      with [mk (Z.of_nat 16) p m2 [literal_at p m; mk 17 m m2 [literal_at m m2]]].
    apply collect_one; [|reflexivity]. unfold piece.
    change (n_type (mk (Z.of_nat 16) p m2 [literal_at p m; mk 17 m m2 [literal_at m m2]]) =? -1)%Z with false.
    cbv iota.
    rewrite parseEscape_eq, nodes_finds.
    change (finds (EscapeCharacterType SB) (mk (Z.of_nat 16) p m2 [literal_at p m; mk 17 m m2 [literal_at m m2]]))
      with [mk 17 m m2 [literal_at m m2]].
    cbv iota beta. rewrite text_at, E2 by assumption. cbn [gobind]. rewrite Em. reflexivity.
  Qed.

  (** One character of a literal, either kind. *)
  Lemma character_inv p t q : q <= length src -> D (N "character") p t q ->
    (exists c, plain c = true /\ sl p q = [c] /\ reads t [c]) \/
    (exists e c, escape e c /\ sl p q = [BSL; e] /\ reads t [c]).
  Proof.
    assert (Pl : forall c, is_letter c = true \/ is_digit c = true -> plain c = true).
    { intros c H. destruct c as [[] [] [] [] [] [] [] []]; vm_compute in H |- *; try reflexivity;
        destruct H; discriminate. }
    intros Hq H. apply (nt_inv 15) in H; [|reflexivity]. alternatives H; child t1 m D1; done_childs.
    - left. apply letter_inv in D1. destruct D1 as (c & Hc & E & ->). exists c. split; [auto|]. split; [exact E|].
      rewrite <- E. apply (reads_node1 15); [reflexivity|]. apply (reads_node1 21); [reflexivity|].
      apply reads_literal; assumption.
    - left. apply digit_inv in D1. destruct D1 as (c & Hc & E & ->). exists c. split; [auto|]. split; [exact E|].
      rewrite <- E. apply (reads_node1 15); [reflexivity|]. apply (reads_node1 22); [reflexivity|].
      apply reads_literal; assumption.
    - left. apply symbol_inv in D1. destruct D1 as (c & Hc & E & ->). exists c. split; [auto|]. split; [exact E|].
      rewrite <- E. apply (reads_node1 15); [reflexivity|]. apply (reads_node1 23); [reflexivity|].
      apply reads_literal; assumption.
    - right. apply escape_inv in D1; [|assumption]. destruct D1 as (e & c & Ee & E & R).
      exists e, c. split; [exact Ee|]. split; [exact E|]. apply (reads_node1 15); [reflexivity|exact R].
  Qed.
  Lemma plain_parts c : plain c = true -> is_printable c = true /\ c <> DQ /\ c <> SQ /\ c <> BSL.
  Proof.
    unfold plain. rewrite !andb_true_iff, !negb_true_iff, !Ascii.eqb_neq. tauto.
  Qed.

  Lemma text1_inv p t q : q <= length src -> D (N "text1") p t q ->
    (exists childs, t = mk 11 p q childs) /\ exists v, quoted DQ (sl p q) v /\ reads t v.
  Proof.
    revert p q. induction t as [t IH] using tree_ind. intros p q Hq H.
    apply (nt_inv 11) in H; [|reflexivity]. alternatives H.
    - no_nothing.
    - child t1 m D1. child t2 m2 D2. done_childs. split; [eexists; reflexivity|].
      apply (IH t2) in D2; [|right; left; reflexivity|assumption]. destruct D2 as (_ & v & Q & R).
      assert (Hm : m <= length src) by lia.
      rewrite (sl_cat p m m2) by assumption.
      apply (nt_inv 13) in D1; [|reflexivity]. alternatives D1; child t1' m' D1'; done_childs.
      + assert (RL := reads_literal p m' ltac:(assumption) ltac:(assumption)).
        exists (SQ :: v). rewrite D1'. split; [apply qu_plain; [reflexivity|discriminate|discriminate|exact Q]|].
        change (SQ :: v) with ([SQ] ++ v). rewrite <- (app_nil_r ([SQ] ++ v)), <- app_assoc.
        apply (reads_node 11 _ _ _ [[SQ]; v]); [reflexivity|]. constructor; [|repeat constructor; exact R].
        apply (reads_node1 13); [reflexivity|]. rewrite D1' in RL. exact RL.
      + apply character_inv in D1'; [|assumption].
        destruct D1' as [(c & Pc & E & Rc)|(e & c & Ee & E & Rc)]; exists (c :: v); rewrite E.
        * destruct (plain_parts c Pc) as (P1 & P2 & P3 & P4).
          split; [apply qu_plain; assumption|].
          change (c :: v) with ([c] ++ v). rewrite <- (app_nil_r ([c] ++ v)), <- app_assoc.
          apply (reads_node 11 _ _ _ [[c]; v]); [reflexivity|]. constructor; [|repeat constructor; exact R].
          apply (reads_node1 13); [reflexivity|exact Rc].
        * split; [apply qu_escape; assumption|].
          change (c :: v) with ([c] ++ v). rewrite <- (app_nil_r ([c] ++ v)), <- app_assoc.
          apply (reads_node 11 _ _ _ [[c]; v]); [reflexivity|]. constructor; [|repeat constructor; exact R].
          apply (reads_node1 13); [reflexivity|exact Rc].
    - split; [eexists; reflexivity|]. exists []. rewrite slice_empty. split; [constructor|].
      apply (reads_node1 11); [reflexivity|apply reads_nothing].
  Qed.
  Lemma text2_inv p t q : q <= length src -> D (N "text2") p t q ->
    (exists childs, t = mk 12 p q childs) /\ exists v, quoted SQ (sl p q) v /\ reads t v.
  Proof.
    revert p q. induction t as [t IH] using tree_ind. intros p q Hq H.
    apply (nt_inv 12) in H; [|reflexivity]. alternatives H.
    - no_nothing.
    - child t1 m D1. child t2 m2 D2. done_childs. split; [eexists; reflexivity|].
      apply (IH t2) in D2; [|right; left; reflexivity|assumption]. destruct D2 as (_ & v & Q & R).
      assert (Hm : m <= length src) by lia.
      rewrite (sl_cat p m m2) by assumption.
      apply (nt_inv 14) in D1; [|reflexivity]. alternatives D1; child t1' m' D1'; done_childs.
      + assert (RL := reads_literal p m' ltac:(assumption) ltac:(assumption)).
        exists (DQ :: v). rewrite D1'. split; [apply qu_plain; [reflexivity|discriminate|discriminate|exact Q]|].
        change (DQ :: v) with ([DQ] ++ v). rewrite <- (app_nil_r ([DQ] ++ v)), <- app_assoc.
        apply (reads_node 12 _ _ _ [[DQ]; v]); [reflexivity|]. constructor; [|repeat constructor; exact R].
        apply (reads_node1 14); [reflexivity|]. rewrite D1' in RL. exact RL.
      + apply character_inv in D1'; [|assumption].
        destruct D1' as [(c & Pc & E & Rc)|(e & c & Ee & E & Rc)]; exists (c :: v); rewrite E.
        * destruct (plain_parts c Pc) as (P1 & P2 & P3 & P4).
          split; [apply qu_plain; assumption|].
          change (c :: v) with ([c] ++ v). rewrite <- (app_nil_r ([c] ++ v)), <- app_assoc.
          apply (reads_node 12 _ _ _ [[c]; v]); [reflexivity|]. constructor; [|repeat constructor; exact R].
          apply (reads_node1 14); [reflexivity|exact Rc].
        * split; [apply qu_escape; assumption|].
          change (c :: v) with ([c] ++ v). rewrite <- (app_nil_r ([c] ++ v)), <- app_assoc.
          apply (reads_node 12 _ _ _ [[c]; v]); [reflexivity|]. constructor; [|repeat constructor; exact R].
          apply (reads_node1 14); [reflexivity|exact Rc].
    - split; [eexists; reflexivity|]. exists []. rewrite slice_empty. split; [constructor|].
      apply (reads_node1 12); [reflexivity|apply reads_nothing].
  Qed.
  Lemma reads_terminal t v : reads t v -> parseTerminalName SB src t = Ok v.
  Proof. intros (vs & E & <-). rewrite parseTerminalName_eq, E. reflexivity. Qed.

  (** ** Symbols, sequences, alternatives *)
  Lemma first_types t :
    first_of_types SB (SymbolTerminalTypes SB) t =
    match finds 11 t with m :: _ => Some m | [] => match finds 12 t with m :: _ => Some m | [] => None end end.
  Proof.
    change (SymbolTerminalTypes SB) with [11; 12]%Z. cbn [first_of_types]. rewrite !nodes_finds. reflexivity.
  Qed.

  Lemma term_inv' p t q : q <= length src -> D (N "term") p t q ->
    (exists childs, t = mk 9 p q childs) /\
    exists s, symbol_text (sl p q) s /\ parseSymbol SB src t = Ok s.
  Proof.
    intros Hq H. apply (nt_inv 9) in H; [|reflexivity]. alternatives H.
    - child t1 m D1. done_childs. split; [eexists; reflexivity|].
      apply (nt_inv 10) in D1; [|reflexivity]. alternatives D1.
      + child t1 m1 E1. child t2 m2 D2. child t3 m3 E3. done_childs.
        assert (Hm : m2 <= length src) by lia.
        pose proof D2 as D3. apply text1_inv in D3; [|assumption]. destruct D3 as ((ch & ->) & v & Q & R).
        exists (literal_symbol v). split.
        * rewrite (sl_cat p m1 m3), (sl_cat m1 m2 m3), E1, E3 by lia.
          apply literal_text; [left; reflexivity|exact Q].
        * rewrite parseSymbol_eq, first_types.
          assert (F : finds 11 (mk (Z.of_nat 9) p m3 [mk (Z.of_nat 10) p m3 [literal_at p m1; mk 11 m1 m2 ch; literal_at m2 m3]]) = [mk 11 m1 m2 ch]).
          { rewrite finds_node by reflexivity. cbn [flat_map]. rewrite finds_node by reflexivity.
            cbn [flat_map]. rewrite !literal_none by reflexivity. reflexivity. }
          rewrite F. rewrite (reads_terminal _ _ R). reflexivity.
      + child t1 m1 E1. child t2 m2 D2. child t3 m3 E3. done_childs.
        assert (Hm : m2 <= length src) by lia.
        pose proof D2 as D3. apply text2_inv in D3; [|assumption]. destruct D3 as ((ch & ->) & v & Q & R).
        exists (literal_symbol v). split.
        * rewrite (sl_cat p m1 m3), (sl_cat m1 m2 m3), E1, E3 by lia.
          apply literal_text; [right; reflexivity|exact Q].
        * rewrite parseSymbol_eq, first_types.
          assert (F : finds 11 (mk (Z.of_nat 9) p m3 [mk (Z.of_nat 10) p m3 [literal_at p m1; mk 12 m1 m2 ch; literal_at m2 m3]]) = []).
          { rewrite finds_node by reflexivity. cbn [flat_map]. rewrite finds_node by reflexivity.
            cbn [flat_map]. rewrite !literal_none by reflexivity.
            rewrite (text2_none 11 m1 _ m2 D2) by reflexivity. reflexivity. }
          assert (F2 : finds 12 (mk (Z.of_nat 9) p m3 [mk (Z.of_nat 10) p m3 [literal_at p m1; mk 12 m1 m2 ch; literal_at m2 m3]]) = [mk 12 m1 m2 ch]).
          { rewrite finds_node by reflexivity. cbn [flat_map]. rewrite finds_node by reflexivity.
            cbn [flat_map]. rewrite !literal_none by reflexivity. reflexivity. }
          rewrite F, F2. rewrite (reads_terminal _ _ R). reflexivity.
    - child t1 m1 E1. child t2 m2 D2. child t3 m3 E3. done_childs. split; [eexists; reflexivity|].
      pose proof D2 as D3. apply name_inv in D3. destruct D3 as (Hn & ch & ->).
      exists (SNonTerminal (sl m1 m2)). split.
      + rewrite (sl_cat p m1 m3), (sl_cat m1 m2 m3), E1, E3 by lia. apply (sy_nonterminal _ Hn).
      + rewrite parseSymbol_eq, first_types.
        assert (F : forall ty, foreign Cname ty = true -> (Z.of_nat 9 =? ty)%Z = false ->
          finds ty (mk (Z.of_nat 9) p m3 [literal_at p m1; mk 18 m1 m2 ch; literal_at m2 m3]) = []).
        { intros ty F E. rewrite finds_node by (reflexivity || exact E). cbn [flat_map].
          rewrite (name_none ty _ _ _ D2) by exact F.
          assert (T : (ty =? -1)%Z = false).
          { apply andb_prop in F. destruct F as (F & _). apply andb_prop in F. destruct F as (F & _).
            apply negb_true_iff, F. }
          rewrite !literal_none by exact T. reflexivity. }
        rewrite !F by reflexivity. rewrite nodes_finds.
        assert (F2 : finds (SymbolNonTerminalType SB) (mk (Z.of_nat 9) p m3 [literal_at p m1; mk 18 m1 m2 ch; literal_at m2 m3]) = [mk 18 m1 m2 ch]).
        { rewrite finds_node by reflexivity. cbn [flat_map]. rewrite !literal_none by reflexivity. reflexivity. }
        rewrite F2, text_at by lia. reflexivity.
  Qed.

  Lemma list_tail_inv p t q : q <= length src -> D (N "list-tail") p t q ->
    (sl p q = [] /\ finds 9 t = []) \/
    exists ss, sequence_text (sl p q) ss /\ collect (parseSymbol SB src) (finds 9 t) = Ok ss.
  Proof.
    revert p q. induction t as [t IH] using tree_ind. intros p q Hq H.
    apply (nt_inv 8) in H; [|reflexivity]. alternatives H.
    - no_nothing.
    - right. child t1 m1 D1. child t2 m2 D2. child t3 m3 D3. done_childs.
      apply term_inv' in D1; [|lia]. destruct D1 as ((ch & ->) & s & St & Ps).
      rewrite finds_node by reflexivity. cbn [flat_map]. rewrite (blank_none 9 _ _ _ D2) by reflexivity.
      change (finds 9 (mk 9 p m1 ch)) with [mk 9 p m1 ch].
      rewrite (sl_cat p m1 m3), (sl_cat m1 m2 m3) by lia. apply blanks_inv in D2.
      apply (IH t3) in D3; [|right; right; left; reflexivity|assumption]. rewrite app_nil_r. cbn [app].
      destruct D3 as [(E & F)|(ss & Ss & Pss)].
      + exists [s]. rewrite E, F, app_nil_r. split; [apply sq_last; assumption|].
        apply collect_one; [exact Ps|reflexivity].
      + exists (s :: ss). split; [apply sq_more; assumption|]. apply collect_one; assumption.
    - left. rewrite slice_empty. split; reflexivity.
  Qed.
  Lemma list_inv p t q : q <= length src -> D (N "list") p t q ->
    (exists childs, t = mk 7 p q childs) /\
    exists ss, sequence_text (sl p q) ss /\ parseSequence SB src t = Ok ss.
  Proof.
    intros Hq H. apply (nt_inv 7) in H; [|reflexivity]. alternatives H.
    split; [eexists; reflexivity|]. child t1 m1 D1. child t2 m2 D2. child t3 m3 D3. done_childs.
    rewrite parseSequence_eq, nodes_finds. change (SequencesSymbolType SB) with 9%Z.
    apply term_inv' in D1; [|lia]. destruct D1 as ((ch & ->) & s & St & Ps).
    rewrite finds_node by reflexivity. cbn [flat_map]. rewrite (blank_none 9 _ _ _ D2) by reflexivity.
    change (finds 9 (mk 9 p m1 ch)) with [mk 9 p m1 ch].
    rewrite (sl_cat p m1 m3), (sl_cat m1 m2 m3) by lia. apply blanks_inv in D2.
    apply list_tail_inv in D3; [|assumption]. rewrite app_nil_r. cbn [app].
    destruct D3 as [(E & F)|(ss & Ss & Pss)].
    + exists [s]. rewrite E, F, app_nil_r. split; [apply sq_last; assumption|].
      apply collect_one; [exact Ps|reflexivity].
    + exists (s :: ss). split; [apply sq_more; assumption|]. apply collect_one; assumption.
  Qed.

  Lemma expression_tail_inv p t q : q <= length src -> D (N "expression-tail") p t q ->
    (sl p q = [] /\ finds 7 t = []) \/
    exists w ts ss, sl p q = "|"%char :: w ++ ts /\ blanks w /\ alternatives_text ts ss /\
      collect (parseSequence SB src) (finds 7 t) = Ok ss.
  Proof.
    revert p q. induction t as [t IH] using tree_ind. intros p q Hq H.
    apply (nt_inv 6) in H; [|reflexivity]. alternatives H.
    - no_nothing.
    - right. child t0 m0 E0. child t1 m1 D1. child t2 m2 D2. child t3 m3 D3. done_childs.
      apply list_inv in D2; [|lia]. destruct D2 as ((ch & ->) & s & St & Ps).
      rewrite finds_node by reflexivity. cbn [flat_map]. rewrite (blank_none 7 _ _ _ D1) by reflexivity.
      rewrite literal_none by reflexivity.
      change (finds 7 (mk 7 m1 m2 ch)) with [mk 7 m1 m2 ch].
      rewrite (sl_cat p m0 m3), (sl_cat m0 m1 m3), (sl_cat m1 m2 m3), E0 by lia. apply blanks_inv in D1.
      apply (IH t3) in D3; [|right; right; right; left; reflexivity|assumption]. rewrite app_nil_r. cbn [app].
      exists (sl m0 m1).
      destruct D3 as [(E & F)|(w & ts & ss & Es & Hw & Ss & Pss)].
      + exists (sl m1 m2), [s]. rewrite E, F, app_nil_r. split; [reflexivity|]. split; [exact D1|].
        split; [apply al_last; exact St|]. apply collect_one; [exact Ps|reflexivity].
      + exists (sl m1 m2 ++ "|"%char :: w ++ ts), (s :: ss). rewrite Es. split; [reflexivity|].
        split; [exact D1|]. split; [apply al_more; assumption|]. apply collect_one; assumption.
    - left. rewrite slice_empty. split; reflexivity.
  Qed.
  Lemma expression_inv p t q : q <= length src -> D (N "expression") p t q ->
    (exists childs, t = mk 5 p q childs) /\
    exists ss, alternatives_text (sl p q) ss /\ parseSubstitution SB src t = Ok ss.
  Proof.
    intros Hq H. apply (nt_inv 5) in H; [|reflexivity]. alternatives H.
    split; [eexists; reflexivity|]. child t2 m2 D2. child t3 m3 D3. done_childs.
    rewrite parseSubstitution_eq, nodes_finds. change (ExpressionSequencesType SB) with 7%Z.
    apply list_inv in D2; [|lia]. destruct D2 as ((ch & ->) & s & St & Ps).
    rewrite finds_node by reflexivity. cbn [flat_map].
    change (finds 7 (mk 7 p m2 ch)) with [mk 7 p m2 ch].
    rewrite (sl_cat p m2 m3) by lia.
    apply expression_tail_inv in D3; [|assumption]. rewrite app_nil_r. cbn [app].
    destruct D3 as [(E & F)|(w & ts & ss & Es & Hw & Ss & Pss)].
    + exists [s]. rewrite E, F, app_nil_r. split; [apply al_last; exact St|]. apply collect_one; [exact Ps|reflexivity].
    + exists (s :: ss). rewrite Es. split; [apply al_more; assumption|]. apply collect_one; assumption.
  Qed.

  (** ** Rules and texts *)
  Lemma content_inv p t q : q <= length src -> D (N "content") p t q ->
    (exists childs, t = mk 4 p q childs) /\
    exists r, rule_text (sl p q) r /\ parseRule SB src t = Ok r.
  Proof.
    intros Hq H. apply (nt_inv 4) in H; [|reflexivity]. alternatives H.
    split; [eexists; reflexivity|]. child t0 m0 E0. child t1 m1 D1. child t2 m2 E2. child t3 m3 D3.
    child t4 m4 E4. child t5 m5 D5. child t6 m6 D6. done_childs.
    rewrite parseRule_eq, !nodes_finds. change (RuleHeadType SB) with 18%Z. change (RuleTailType SB) with 5%Z.
    rewrite !finds_node by reflexivity. cbn [flat_map]. rewrite !literal_none by reflexivity.
    rewrite (name_none 5 _ _ _ D1), (blank_none 5 _ _ _ D3), (blank_none 5 _ _ _ D5) by reflexivity.
    apply name_inv in D1. destruct D1 as (Hn & ch & ->).
    change (finds 18 (mk 18 m0 m1 ch)) with [mk 18 m0 m1 ch].
    apply expression_inv in D6; [|assumption]. destruct D6 as ((ch' & ->) & ss & Ss & Pss).
    change (finds 5 (mk 5 m5 m6 ch')) with [mk 5 m5 m6 ch'].
    cbn [app]. rewrite text_at by lia. cbn [gobind]. rewrite Pss. cbn [gobind].
    eexists. split; [|reflexivity].
    rewrite (sl_cat p m0 m6), (sl_cat m0 m1 m6), (sl_cat m1 m2 m6), (sl_cat m2 m3 m6), (sl_cat m3 m4 m6),
      (sl_cat m4 m5 m6), E0, E2, E4 by lia.
    apply blanks_inv in D3. apply blanks_inv in D5. apply (rl _ _ _ _ _ Hn D3 D5 Ss).
  Qed.

  Lemma eol_inv p t q : D (N "EOL") p t q -> eol (sl p q) /\ exists childs, t = mk 25 p q childs.
  Proof.
    intros H. apply (nt_inv 25) in H; [|reflexivity]. alternatives H; child t1 m E; done_childs;
      (split; [rewrite E; constructor|eexists; reflexivity]).
  Qed.

  Lemma lines_inv p t q : q <= length src -> D (N "more-lines") p t q ->
    exists g, lines_text (sl p q) g /\ collect (parseRule SB src) (finds 4 t) = Ok g.
  Proof.
    revert p q. induction t as [t IH] using tree_ind. intros p q Hq H.
    apply (nt_inv 1) in H; [|reflexivity]. alternatives H.
    - no_nothing.
    - child t1 m1 D1. child t2 m2 D2. child t3 m3 D3. done_childs.
      apply eol_inv in D1. destruct D1 as (He & ch & ->).
      apply (IH t3) in D3; [|right; right; left; reflexivity|assumption]. destruct D3 as (g & Hg & Pg).
      apply (nt_inv 2) in D2; [|reflexivity]. alternatives D2.
      2:{ exists g. rewrite (sl_cat p m1 m3) by lia. split.
          - apply (li_blank _ [] _ _ He); [constructor|exact Hg].
          - rewrite !finds_node by reflexivity. cbn [flat_map]. rewrite finds_node by reflexivity.
            change (flat_map (finds 4) [nothing_at m1]) with (@nil node).
            change (finds 4 (mk 25 p m1 ch)) with (@nil node). rewrite app_nil_r. exact Pg. }
      child t4 m4 D4. child t5 m5 D5. done_childs.
      rewrite !finds_node by reflexivity. cbn [flat_map]. rewrite finds_node by reflexivity. cbn [flat_map].
      rewrite (blank_none 4 _ _ _ D4) by reflexivity. apply blanks_inv in D4.
      change (finds 4 (mk 25 p m1 ch)) with (@nil node). rewrite !app_nil_r. cbn [app].
      rewrite (sl_cat p m1 m3), (sl_cat m1 m5 m3), (sl_cat m1 m4 m5) by lia.
      apply (nt_inv 3) in D5; [|reflexivity]. alternatives D5.
      + child t6 m6 D6. done_childs. apply content_inv in D6; [|lia]. destruct D6 as ((ch' & ->) & r & Hr & Pr).
        exists (r :: g). rewrite <- app_assoc. split; [apply li_rule; assumption|].
        rewrite finds_node by reflexivity. cbn [flat_map].
        change (finds 4 (mk 4 m4 m6 ch')) with [mk 4 m4 m6 ch']. cbn [app].
        apply collect_one; assumption.
      + no_nothing.
      + exists g. rewrite (slice_empty src m4), app_nil_r. split; [apply li_blank; assumption|exact Pg].
    - exists []. rewrite slice_empty. split; [constructor|reflexivity].
  Qed.

  Theorem tree_converted t : derivation_tree SG src t ->
    exists g, bnf_text src g /\ ToAST SelfCSTtoASTBindings t src = Ok g.
  Proof.
    intros H. unfold derivation_tree in H. pose proof (le_n (length src)) as Hq.
    remember (length src) as q eqn:Eq. rewrite Eq in Hq at 2. 
    apply (nt_inv 0) in H; [|reflexivity]. alternatives H.
    child t1 m1 D1. child t2 m2 D2. child t3 m3 D3. done_childs.
    unfold ToAST. rewrite ToAST_sorted_eq, nodes_finds. change (RuleType SB) with 4%Z.
    rewrite finds_node by reflexivity. cbn [flat_map].
    rewrite (blank_none 4 _ _ _ D1) by reflexivity. apply blanks_inv in D1.
    apply content_inv in D2; [|lia]. destruct D2 as ((ch' & ->) & r & Hr & Pr).
    apply lines_inv in D3; [|lia]. destruct D3 as (g & Hg & Pg).
    change (finds 4 (mk 4 m1 m2 ch')) with [mk 4 m1 m2 ch']. rewrite app_nil_r. cbn [app].
    exists (r :: g). split; [|apply collect_one; assumption].
    assert (E : src = sl 0 m1 ++ sl m1 m2 ++ sl m2 m3).
    { rewrite <- !sl_cat by lia. subst m3. unfold slice_nat. rewrite Nat.sub_0_r. cbn [skipn].
      rewrite firstn_all. reflexivity. }
    rewrite E at 1. apply bt; assumption.
  Qed.
End Trees.
