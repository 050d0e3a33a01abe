(** * Props_Helper: properties C100 and C101: helper rules, and how to write an
    LL(1) grammar so that FromGrammar handles it. *)
From Verif Require Import Base Ast Cst Parser TableGen Spec_Parse Spec_Grammar Spec_Table Spec_ParseTree Spec_Tree Spec_Helper
  Spec_Viable
  GrammarProofs ParseApi TGFirsts TGFollows TGCheck TGMain Helper Props_TableGen Props_Trees Props_Viable.

(** ** C100: giving names to pieces of alternatives *)

(** One helper more: still well-formed, the same words, and LL(1) exactly when
    the grammar was. *)
Lemma one_helper g g' h u : wf_grammar g -> has_helper g g' h u ->
  wf_grammar g' /\ (forall w, word g' w <-> word g w) /\ (LL1 g' <-> LL1 g).
Proof.
  intros W [(g0 & -> & E) N Wu]. pose proof (wf_nonempty _ W) as Ne. split; [|split].
  - eapply h_wf; eassumption.
  - intros w. eapply h_word; eassumption.
  - eapply h_LL1; eassumption.
Qed.
Theorem C100_grammars :
  forall g g', wf_grammar g -> helpers g g' ->
    wf_grammar g' /\ (forall w, word g' w <-> word g w) /\ (LL1 g' <-> LL1 g).
Proof.
  intros g g' W H. induction H as [g|g g1 g2 h u H _ IH]; [intuition|].
  destruct (one_helper _ _ _ _ W H) as (W1 & A & B). destruct (IH W1) as (W2 & A2 & B2).
  split; [exact W2|]. split; [intros w; rewrite A2; apply A|rewrite B2; exact B].
Qed.
Print Assumptions C100_grammars.

Lemma helper_length g g' h u : has_helper g g' h u -> length g' = S (length g).
Proof. intros [(g0 & -> & ->) _ _]. rewrite app_length, map_length. cbn. lia. Qed.
Lemma helpers_length g g' : helpers g g' -> length g <= length g'.
Proof. induction 1 as [|g g1 g2 h u H _ IH]; [lia|]. apply helper_length in H. lia. Qed.

(** The parse trees of [g] are those of [g'] without the nodes of the helpers
    (whose types are the numbers behind those of the rules of [g]). *)
Theorem C100_trees :
  forall g g' text, wf_grammar g -> helpers g g' ->
    (forall t', parse_tree g' text t' -> exists t, splice (Z.of_nat (length g)) t' = [t] /\ parse_tree g text t) /\
    (forall t, parse_tree g text t -> exists t', parse_tree g' text t' /\ splice (Z.of_nat (length g)) t' = [t]).
Proof.
  intros g g' text W H. induction H as [g|g g1 g2 h u H H2 IH].
  - assert (S : forall s p l q, ptrees g text s p l q -> flat_map (splice (Z.of_nat (length g))) l = l).
    { assert (B : (forall x p t q, ptree g text x p t q -> splice (Z.of_nat (length g)) t = [t]) /\
                  (forall s p l q, ptrees g text s p l q -> flat_map (splice (Z.of_nat (length g))) l = l)).
      { apply (ptree_both g text (fun x p t q _ => splice (Z.of_nat (length g)) t = [t])
                            (fun s p l q _ => flat_map (splice (Z.of_nat (length g))) l = l)).
        - intros t p _ _. cbn. destruct (Z.of_nat (length g) <=? -1)%Z eqn:E; [apply Z.leb_le in E; lia|reflexivity].
        - intros p. cbn. destruct (Z.of_nat (length g) <=? -2)%Z eqn:E; [apply Z.leb_le in E; lia|reflexivity].
        - intros i n s p childs q Hi _ _ IH. unfold mk. cbn [splice]. rewrite IH.
          assert (L : i < length (heads g)) by (apply nth_error_Some; rewrite Hi; discriminate). unfold heads in L.
          rewrite map_length in L. destruct (Z.of_nat (length g) <=? Z.of_nat i)%Z eqn:E; [apply Z.leb_le in E; lia|reflexivity].
        - intros p. reflexivity.
        - intros x s p t m ts q _ E1 _ E2. cbn. rewrite E1, E2. reflexivity. }
      exact (proj2 B). }
    assert (T : forall t, parse_tree g text t -> splice (Z.of_nat (length g)) t = [t]).
    { intros t Ht. specialize (S [SNonTerminal (start g)] 0 [t] (length text)). cbn in S. rewrite app_nil_r in S. apply S.
      econstructor; [exact Ht|constructor]. }
    split; intros t Ht; exists t; auto.
  - destruct (one_helper _ _ _ _ W H) as (W1 & _). destruct (IH W1) as (D & U).
    pose proof (helper_length _ _ _ _ H) as Len. destruct H as [(g0 & -> & E) N Wu]. pose proof (wf_nonempty _ W) as Ne.
    assert (Sp : forall t, flat_map (splice (Z.of_nat (length g))) (splice (Z.of_nat (length (g0 ++ [mkRule h [u]]))) t) =
                           splice (Z.of_nat (length g)) t) by (intros t; apply splice_splice; lia).
    split.
    + intros t2 H. destruct (D _ H) as (t1 & E1 & H1).
      destruct (tree_down g g0 h u E N Wu Ne text t1 H1) as (t & Et & Ht). exists t. split; [|exact Ht].
      rewrite <- Sp, E1. cbn. rewrite Et. reflexivity.
    + intros t Ht. destruct (tree_up g g0 h u E N Wu Ne text t Ht) as (t1 & H1 & E1).
      destruct (U _ H1) as (t2 & H3 & E3). exists t2. split; [exact H3|]. rewrite <- Sp, E3. cbn. rewrite E1. reflexivity.
Qed.
Print Assumptions C100_trees.

(** What the parser of [g'] returns: a parse tree of [g'] (empty rules cut, C53)
    which without the helpers is the parse tree of [g]. *)
Theorem C100_parser :
  forall order fuel0 fuel g g' tbl names m src text t',
    wf_grammar g -> LL1 g -> helpers g g' ->
    FromGrammar_order order fuel0 g' = Ok (tbl, names) ->
    delivers src text -> ~ In NUL text -> parses_to fuel tbl (Some m) src t' ->
    word g text /\
    exists T T', parse_tree g text T /\ parse_tree g' text T' /\ t' = collapse T' /\ splice (Z.of_nat (length g)) T' = [T].
Proof.
  intros order fuel0 fuel g g' tbl names m src text t' W L H E Hd Nn Hp.
  destruct (C100_grammars g g' W H) as (W' & Wo & Ll). apply Ll in L.
  destruct (C53_parser_tree _ _ _ _ _ _ _ _ _ _ W' L E Hd Nn Hp) as (T' & HT' & ->).
  destruct (proj1 (C100_trees g g' text W H) T' HT') as (T & ET & HT). split.
  - apply Wo. apply (proj1 (C53_unambiguous g' text W' L)). exists T'. exact HT'.
  - exists T, T'. auto.
Qed.
Print Assumptions C100_parser.

(** Errors are about the same byte of the text (FOLLOW sets computed correctly
    for both versions, every rule derives some string). *)
Lemma seq_productive g s : productive g -> Forall (wf_symbol g) s -> exists w, yields g (seq_form s) (chars w).
Proof.
  intros P. induction s as [|x s IH]; intros W; [exists []; constructor|].
  destruct (IH (Forall_inv_tail W)) as (w & Hw). apply Forall_inv in W.
  assert (X : exists v, yields g (sym_form x) (chars v)).
  { destruct x as [n|t| |str]; [apply P, W|exists t; constructor|exists []; constructor|exists []; constructor]. }
  destruct X as (v & Hv). exists (v ++ w). cbn [seq_form flat_map]. unfold chars. rewrite map_app. apply yields_app; assumption.
Qed.
Lemma helpers_productive g g' : wf_grammar g -> helpers g g' -> productive g -> productive g'.
Proof.
  intros W H. induction H as [g|g g1 g2 h u H _ IH]; [auto|]. intros P.
  apply IH; [exact (proj1 (one_helper _ _ _ _ W H))|]. destruct H as [(g0 & -> & E) N Wu].
  assert (Up : forall v w, yields g v w -> yields (g0 ++ [mkRule h [u]]) v w) by (intros v w; eapply up; eassumption).
  intros n D. unfold defined in D. rewrite (heads_g' g g0 h u E) in D. apply in_app_or in D. destruct D as [D|[<-|[]]].
  - destruct (P n D) as (w & Hw). exists w. apply Up, Hw.
  - assert (X : exists w, yields g (seq_form u) (chars w)).
    { destruct Wu as [->|[_ F]]; [exists []; constructor|apply seq_productive; assumption]. }
    destruct X as (w & Hw). exists w. eapply yields_trans; [apply yields_alt, alt_helper|apply Up, Hw].
Qed.
Theorem C100_errors :
  forall order order' fuel0 fuel0' g g' tbl names tbl' names' m m' src text fuel fuel' e e',
    wf_grammar g -> LL1 g -> productive g -> helpers g g' ->
    (forall n x, nullable g [NT n] -> (follow_code g n x <-> follow g n x)) ->
    (forall n x, nullable g' [NT n] -> (follow_code g' n x <-> follow g' n x)) ->
    FromGrammar_order order fuel0 g = Ok (tbl, names) -> FromGrammar_order order' fuel0' g' = Ok (tbl', names') ->
    delivers src text ->
    fails_with fuel tbl (Some m) src e -> fails_with fuel' tbl' (Some m') src e' ->
    exists k, k <= length text /\ about_byte e (byte_at text k) /\ about_byte e' (byte_at text k) /\
      viable g (firstn k text) /\ (forall j, k < j <= length text -> ~ viable g (firstn j text)).
Proof.
  intros order order' fuel0 fuel0' g g' tbl names tbl' names' m m' src text fuel fuel' e e' W L P H F F' E E' Hd Hf Hf'.
  destruct (C100_grammars g g' W H) as (W' & Wo & Ll).
  assert (V : forall v, viable g' v <-> viable g v).
  { intros v. split; intros (w & Hw); exists w; apply Wo, Hw. }
  destruct (C57_error_position _ _ _ _ _ _ _ _ _ _ W L F P E Hd Hf) as (k & Lk & A & Vk & Mk & _).
  destruct (C57_error_position _ _ _ _ _ _ _ _ _ _ W' (proj2 Ll L) F' (helpers_productive _ _ W H P) E' Hd Hf')
    as (k' & Lk' & A' & Vk' & Mk' & _).
  assert (k = k').
  { destruct (Nat.lt_trichotomy k k') as [X|[X|X]]; [|exact X|].
    - destruct (Mk k'); [lia|apply V, Vk'].
    - destruct (Mk' k); [lia|apply V, Vk]. }
  subst k'. exists k. auto.
Qed.
Print Assumptions C100_errors.

(** ** C101: how to write an LL(1) grammar so that FromGrammar handles it *)

(** Helpers for everything behind the first symbol are enough: alternatives of
    at most two symbols. *)
Theorem C101_short :
  forall order g g', wf_grammar g -> LL1 g -> helpers g g' -> short_alternatives g' ->
    (forall m, defined g' m -> reachable g' m) ->
    exists tbl names,
      (forall fuel, 256 * length g' + 1 <= fuel -> FromGrammar_order order fuel g' = Ok (tbl, names)) /\
      forall m src text, delivers src text -> ~ In NUL text ->
        ((exists fuel t, parses_to fuel tbl (Some m) src t) <-> word g text).
Proof.
  intros order g g' W L H Sh R. destruct (C100_grammars g g' W H) as (W' & Wo & Ll). apply Ll in L.
  destruct (C28_complete_syntactic order g' W' L) as (tbl & names & F & P); [|exact R|].
  - intros A a B X b Ha _. apply Sh in Ha. rewrite app_length in Ha. cbn in Ha. destruct b; [reflexivity|cbn in Ha; lia].
  - exists tbl, names. split; [exact F|]. intros m src text Hd Nn. rewrite <- Wo. apply P; assumption.
Qed.
Print Assumptions C101_short.

(** Such helpers can always be found. *)
Definition all_alternatives (g : grammar) : list sequence := flat_map r_tail g.
Definition extra (l : list sequence) : nat := list_sum (map (fun s => length s - 2) l).
Definition excess (g : grammar) : nat := extra (all_alternatives g).
Lemma extra_app a b : extra (a ++ b) = extra a + extra b.
Proof. unfold extra. rewrite map_app, list_sum_app. reflexivity. Qed.
Lemma extra_cons s l : extra (s :: l) = length s - 2 + extra l.
Proof. reflexivity. Qed.
Lemma excess_app a b : excess (a ++ b) = excess a + excess b.
Proof. unfold excess, all_alternatives. rewrite flat_map_app, extra_app. reflexivity. Qed.
Lemma excess_cons r l : excess (r :: l) = extra (r_tail r) + excess l.
Proof. unfold excess, all_alternatives. cbn [flat_map]. apply extra_app. Qed.
Lemma fresh_name g : exists h, ~ defined g h.
Proof.
  exists (repeat "x"%char (S (list_max (map (@length ascii) (heads g))))). intros H.
  assert (L : Forall (fun k => k <= list_max (map (@length ascii) (heads g))) (map (@length ascii) (heads g)))
    by (apply list_max_le, le_n).
  rewrite Forall_forall in L. apply (in_map (@length ascii)) in H. apply L in H. rewrite repeat_length in H. lia.
Qed.
Lemma next_helper g : wf_grammar g -> (forall m, defined g m -> reachable g m) ->
  short_alternatives g \/
  exists g1 h u, has_helper g g1 h u /\ excess g1 < excess g /\ (forall m, defined g1 m -> reachable g1 m).
Proof.
  intros W R. destruct (Forall_Exists_dec (fun s : sequence => length s <= 2) (fun s => le_dec (length s) 2) (all_alternatives g)) as [S|S].
  - left. intros n s (r & Hr & _ & Hs). rewrite Forall_forall in S. apply S. apply in_flat_map. eauto.
  - right. apply Exists_exists in S. destruct S as (s & Hs & Ls). apply in_flat_map in Hs. destruct Hs as (r & Hr & Hs).
    pose proof Hr as Hr'. apply in_split in Hr. destruct Hr as (ga & gb & Eg). pose proof Hs as Hs'.
    apply in_split in Hs. destruct Hs as (l1 & l2 & El). destruct r as [n tail]. cbn in El, Hs'. subst tail.
    destruct s as [|x u]; [cbn in Ls; lia|]. destruct (fresh_name g) as (h & Nh).
    assert (As : alternative g n (x :: u)) by (eexists; split; [exact Hr'|]; split; [reflexivity|exact Hs']).
    assert (Ws : Forall (wf_symbol g) (x :: u)).
    { destruct (wf_sequences _ W _ _ As) as [E|[_ F]]; [rewrite E in Ls; cbn in Ls; lia|exact F]. }
    assert (Free : forall r s, In r g -> In s (r_tail r) -> inline h u s = s).
    { intros r s Hr Hs. apply inline_free. eapply wf_seq_free; [|exact Nh]. eapply (wf_sequences _ W). exists r.
      split; [exact Hr|]. split; [reflexivity|exact Hs]. }
    set (g0 := ga ++ mkRule n (l1 ++ [x; SNonTerminal h] :: l2) :: gb).
    assert (H : has_helper g (g0 ++ [mkRule h [u]]) h u).
    { split; [exists g0; split; [reflexivity|]|exact Nh|].
      - assert (Id : forall r, In r g -> inline_rule h u r = r).
        { intros [n' tl] Hr. unfold inline_rule. cbn. f_equal. rewrite <- (map_id tl) at 2. apply map_ext_in.
          intros s Hs. exact (Free _ _ Hr Hs). }
        assert (Ia : map (inline_rule h u) ga = ga).
        { rewrite <- (map_id ga) at 2. apply map_ext_in. intros r Hr. apply Id. rewrite Eg. apply in_or_app. left. exact Hr. }
        assert (Ib : map (inline_rule h u) gb = gb).
        { rewrite <- (map_id gb) at 2. apply map_ext_in. intros r Hr. apply Id. rewrite Eg. apply in_or_app. right. right. exact Hr. }
        unfold g0. rewrite map_app. cbn [map]. rewrite Ia, Ib, Eg. f_equal. f_equal. unfold inline_rule. cbn [r_head r_tail]. f_equal.
        rewrite map_app. cbn [map].
        assert (J1 : map (inline h u) l1 = l1).
        { rewrite <- (map_id l1) at 2. apply map_ext_in. intros s Hs. apply (Free _ _ Hr'). cbn. apply in_or_app. left. exact Hs. }
        assert (J2 : map (inline h u) l2 = l2).
        { rewrite <- (map_id l2) at 2. apply map_ext_in. intros s Hs. apply (Free _ _ Hr'). cbn. apply in_or_app. right. right. exact Hs. }
        rewrite J1, J2. f_equal. f_equal. change [x; SNonTerminal h] with ([x] ++ [SNonTerminal h]). rewrite inline_app.
        rewrite (inline_free h u [x]) by (intros [->|[]]; apply Nh; exact (Forall_inv Ws)).
        cbn. rewrite beq_refl, app_nil_r. reflexivity.
      - right. split; [destruct u; [cbn in Ls; lia|discriminate]|exact (Forall_inv_tail Ws)]. }
    exists (g0 ++ [mkRule h [u]]), h, u. split; [exact H|]. split.
    + rewrite Eg. unfold g0. rewrite !excess_app, !excess_cons.
      cbn [r_tail]. rewrite !extra_app, !extra_cons. cbn [length] in *. change (extra []) with 0. change (excess []) with 0. lia.
    + destruct H as [(g1 & Eq & E1) N' Wu].
      assert (E0 : g = map (inline_rule h u) g0) by (apply app_inj_tail in Eq; destruct Eq as (-> & _); exact E1).
      pose proof (wf_nonempty _ W) as Ne.
      assert (Up : forall m, reachable g m -> reachable (g0 ++ [mkRule h [u]]) m) by (intros m; eapply h_reachable; eassumption).
      intros m Dm. assert (D2 : In m (heads g ++ [h])) by (rewrite <- (heads_g' g g0 h u E0); exact Dm). clear Dm. rename D2 into Dm. apply in_app_or in Dm. destruct Dm as [Dm|[<-|[]]].
      * apply Up, R, Dm.
      * apply (reachable_alt _ n [x] h []).
        -- apply Up, R. apply (in_map r_head _ _ Hr').
        -- exists (mkRule n (l1 ++ [x; SNonTerminal h] :: l2)). split; [apply in_or_app; left; unfold g0; apply in_or_app; right; left; reflexivity|].
           split; [reflexivity|]. apply in_or_app. right. left. reflexivity.
Qed.
Theorem C101_always_possible :
  forall g, wf_grammar g -> (forall m, defined g m -> reachable g m) ->
    exists g', helpers g g' /\ short_alternatives g' /\ (forall m, defined g' m -> reachable g' m).
Proof.
  intros g. remember (excess g) as k eqn:Ek. revert g Ek. induction k as [k IH] using (well_founded_induction lt_wf).
  intros g -> W R. destruct (next_helper g W R) as [S|(g1 & h & u & H & L & R1)].
  - exists g. split; [constructor|]. auto.
  - destruct (IH _ L g1 eq_refl (proj1 (one_helper _ _ _ _ W H)) R1) as (g' & H' & S & R'). exists g'. split; [|auto].
    econstructor; eassumption.
Qed.
Print Assumptions C101_always_possible.

(** Together: every LL(1) grammar (without useless rules) has a version with
    helper rules that FromGrammar accepts and whose parser accepts exactly the
    words of the grammar, with its parse trees. *)
Theorem C101_every_ll1_grammar :
  forall order g, wf_grammar g -> LL1 g -> (forall m, defined g m -> reachable g m) ->
    exists g' fuel0 tbl names, helpers g g' /\ FromGrammar_order order fuel0 g' = Ok (tbl, names) /\
      forall m src text, delivers src text -> ~ In NUL text ->
        ((exists fuel t', parses_to fuel tbl (Some m) src t') <-> word g text) /\
        (forall fuel t', parses_to fuel tbl (Some m) src t' ->
           exists T T', parse_tree g text T /\ parse_tree g' text T' /\ t' = collapse T' /\
             splice (Z.of_nat (length g)) T' = [T]).
Proof.
  intros order g W L R. destruct (C101_always_possible g W R) as (g' & H & S & R').
  destruct (C101_short order g g' W L H S R') as (tbl & names & F & P).
  exists g', (256 * length g' + 1), tbl, names. split; [exact H|]. split; [apply F, le_n|].
  intros m src text Hd Nn. split; [apply P; assumption|]. intros fuel t' Hp.
  eapply (C100_parser order _ fuel g g'); eauto.
Qed.
Print Assumptions C101_every_ll1_grammar.

(** S ::= A B "c" with A ::= "a" | "" and B ::= "b" | "": the parser refuses the
    word "c". With H ::= B "c" and S ::= A H it is accepted. *)
Definition two_empty_helped : grammar :=
  [ru "S" [[nt "A"; nt "H"]]; ru "A" [[tm "a"]; [SNothing]]; ru "B" [[tm "b"]; [SNothing]]; ru "H" [[nt "B"; tm "c"]]].
Example C100_case :
  wf_grammar two_empty /\ LL1 two_empty /\ has_helper two_empty two_empty_helped (s2b "H") [nt "B"; tm "c"] /\
  exists t', parses_to 100 (fst (gen_of two_empty_helped)) (Some []) (SrcString (s2b "c")) t' /\
    splice 3 t' = [mk 0 0 1 [mk 1 0 0 [nothing_at 0]; mk 2 0 0 [nothing_at 0]; literal_at 0 1]].
Proof.
  split; [exact two_empty_wf|]. split; [exact two_empty_LL1|]. split.
  - split.
    + exists (firstn 3 two_empty_helped). split; vm_compute; reflexivity.
    + intros [H|[H|[H|[]]]]; discriminate.
    + right. split; [discriminate|]. constructor; [right; right; left; reflexivity|].
      constructor; [|constructor]. split; [discriminate|]. intros [H|[]]. discriminate.
  - eexists. split; [eexists; vm_compute; reflexivity|vm_compute; reflexivity].
Qed.
Example C101_case :
  wf_grammar two_empty /\ LL1 two_empty /\ (forall m, defined two_empty m -> reachable two_empty m) /\
  helpers two_empty two_empty_helped /\ short_alternatives two_empty_helped /\
  (exists e, fails_with 100 (fst (gen_of two_empty)) (Some []) (SrcString (s2b "c")) e) /\
  (exists t, parses_to 100 (fst (gen_of two_empty_helped)) (Some []) (SrcString (s2b "c")) t).
Proof.
  split; [exact two_empty_wf|]. split; [exact two_empty_LL1|]. split; [exact two_empty_reachable|].
  split; [econstructor; [apply C100_case|constructor]|]. split.
  - intros n s (r & Hr & _ & Hs). repeat (destruct Hr as [<-|Hr]; [cbn in Hs; repeat (destruct Hs as [<-|Hs]; [cbn; lia|]); destruct Hs|]). destruct Hr.
  - split; [eexists; vm_compute; reflexivity|eexists; eexists; vm_compute; reflexivity].
Qed.
