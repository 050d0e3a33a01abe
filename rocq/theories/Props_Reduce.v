(** * Props_Reduce: property C103: rules that nothing leads to. *)
From Verif Require Import Base Ast Cst Parser TableGen Spec_Parse Spec_Tree Spec_Grammar Spec_Table Spec_ParseTree Spec_Reorder Spec_Helper
  Spec_Predict Spec_Reduce GrammarProofs ParseApi TGFirsts TGCells TGMain TGNames TGTrees TGCheck Props_TableGen Props_Trees Props_Predict Props_Helper Reduce.
From Coq Require Import Permutation.

(** Every grammar can be reduced. The result has the same words, its rules are
    all reachable, and it is well-formed or LL(1) if the grammar was. *)
Theorem C103_reduced :
  forall g, g <> [] -> NoDup (heads g) ->
    (exists g0, reduced g g0) /\
    forall g0, reduced g g0 ->
      (forall w, word g0 w <-> word g w) /\ (forall n, defined g0 n -> reachable g0 n) /\
      (wf_grammar g -> wf_grammar g0) /\ (LL1 g -> LL1 g0) /\ (forall n x, follow g0 n x <-> follow g n x).
Proof.
  intros g Ne Nd. split; [apply reduced_exists; assumption|]. intros g0 R. split; [apply red_word; assumption|].
  split; [intros n D; apply (red_reachable g g0 Ne R), (red_defined g g0 R), D|].
  split; [apply red_wf; assumption|]. split; [apply red_LL1; assumption|apply red_follow; assumption].
Qed.
Print Assumptions C103_reduced.

(** The parse trees are the same when rules go by their names. *)
Theorem C103_trees :
  forall g g0 names names0 text, g <> [] -> reduced g g0 -> numbering g names -> numbering g0 names0 ->
    (forall t0, parse_tree g0 text t0 -> exists t, parse_tree g text t /\ same_tree (fun n => n) names0 names t0 t) /\
    (forall t, parse_tree g text t -> exists t0, parse_tree g0 text t0 /\ same_tree (fun n => n) names0 names t0 t).
Proof. intros g g0 names names0 text Ne R N N0. apply red_parse_trees; assumption. Qed.
Print Assumptions C103_trees.

(** FromGrammar accepts the reduced grammar if it accepts the grammar, and what
    the parser of the reduced one accepts, the other accepts with the same tree. *)
Theorem C103_parser :
  forall order order' fuel fuel' g g0 tbl names,
    (forall l, Permutation (order l) l) -> (forall l, Permutation (order' l) l) ->
    wf_grammar g -> reduced g g0 -> FromGrammar_order order fuel g = Ok (tbl, names) -> 256 * length g0 + 1 <= fuel' ->
    exists tbl0 names0, FromGrammar_order order' fuel' g0 = Ok (tbl0, names0) /\
      forall m m0 src text t0, delivers src text -> (exists f, parses_to f tbl0 (Some m0) src t0) ->
        exists f t, parses_to f tbl (Some m) src t /\ same_tree (fun n => n) names0 names t0 t.
Proof.
  intros order order' fuel fuel' g g0 tbl names O O' W R E Hf. pose proof (wf_nonempty _ W) as Ne.
  pose proof (red_wf g g0 Ne R W) as W0.
  assert (L : ~ late_empty g0 (follow_code g0)).
  { intros L. apply (red_late g g0 Ne R) in L.
    assert (E' : FromGrammar_order order (fuel + (256 * length g + 1)) g = Ok (tbl, names)).
    { rewrite FromGrammar_more; [exact E|]. rewrite E. discriminate. }
    destruct (C29_reported order (fuel + (256 * length g + 1)) g W ltac:(lia)) as ((_ & C) & _). rewrite (C L) in E'. discriminate. }
  destruct (proj2 (proj2 (C29_reported order' fuel' g0 W0 Hf)) L) as (tbl0 & names0 & E0). exists tbl0, names0. split; [exact E0|].
  intros m m0 src text t0 Hd H.
  apply (C79_exact _ _ _ _ _ m0 _ _ _ (wf_nonempty _ W0) (wf_distinct _ W0) (wf_nulfree _ W0) E0 Hd) in H.
  destruct H as (q & P & Hq). rewrite (red_start g g0 Ne R) in P.
  destruct (proj1 (red_predicted_both g g0 Ne R names names0 text (proj1 (FromGrammar_names_nodup _ _ _ _ _ O (wf_distinct _ W) E))
    (proj1 (FromGrammar_names_nodup _ _ _ _ _ O' (wf_distinct _ W0) E0))) _ _ _ _ P) as (t & Pt & S).
  destruct (proj2 (C79_exact _ _ _ _ _ m _ _ t Ne (wf_distinct _ W) (wf_nulfree _ W) E Hd)) as (f & Hp); [exists q; auto|].
  exists f, t. auto.
Qed.
Print Assumptions C103_parser.

(** C101 without conditions on unreachable rules: every well-formed grammar
    whose reachable rules are LL(1) can be written with helper rules so that
    FromGrammar handles it. *)
Theorem C103_every_ll1_grammar :
  forall order g names, wf_grammar g -> numbering g names -> (forall g0, reduced g g0 -> LL1 g0) ->
    exists g0 names0 g' fuel0 tbl names', reduced g g0 /\ numbering g0 names0 /\ helpers g0 g' /\
      FromGrammar_order order fuel0 g' = Ok (tbl, names') /\
      forall m src text, delivers src text -> ~ In NUL text ->
        ((exists fuel t', parses_to fuel tbl (Some m) src t') <-> word g text) /\
        (forall fuel t', parses_to fuel tbl (Some m) src t' ->
           exists T T0 T', parse_tree g text T /\ same_tree (fun n => n) names0 names T0 T /\
             splice (Z.of_nat (length g0)) T' = [T0] /\ parse_tree g' text T' /\ t' = collapse T').
Proof.
  intros order g names W N L. pose proof (wf_nonempty _ W) as Ne.
  destruct (C103_reduced g Ne (wf_distinct _ W)) as ((g0 & R) & P). destruct (P g0 R) as (Wd & Re & Wf & _). specialize (L g0 R).
  destruct (C101_every_ll1_grammar order g0 (Wf W) L Re) as (g' & fuel0 & tbl & names' & H & E & X).
  set (names0 := combine (map Z.of_nat (seq 0 (length (heads g0)))) (heads g0)).
  assert (N0 : numbering g0 names0).
  { unfold numbering, names0. generalize (heads g0). intros l i.
    assert (Y : forall (l : list bytes) k i, map_get Z.eqb (Z.of_nat (k + i)) (combine (map Z.of_nat (seq k (length l))) l) = nth_error l i).
    { induction l0 as [|a l0 IH]; intros k j; [destruct j; reflexivity|]. cbn [length seq map combine map_get fst snd].
      destruct j as [|j].
      - rewrite Nat.add_0_r, Z.eqb_refl. reflexivity.
      - destruct (Z.eqb_spec (Z.of_nat k) (Z.of_nat (k + S j))) as [E1|_]; [lia|].
        destruct (Z.eqb_spec (Z.of_nat (k + S j)) (Z.of_nat k)) as [E1|_]; [lia|].
        cbn [nth_error]. rewrite <- (IH (S k) j). do 2 f_equal. lia. }
    apply (Y l 0 i). }
  exists g0, names0, g', fuel0, tbl, names'. split; [exact R|]. split; [exact N0|]. split; [exact H|]. split; [exact E|].
  intros m src text Hd Nn. destruct (X m src text Hd Nn) as (X1 & X2). split; [rewrite X1; apply Wd|].
  intros fuel t' Hp. destruct (X2 _ _ Hp) as (T0 & T' & HT0 & HT' & Et & Sp).
  destruct (proj1 (C103_trees g g0 names names0 text Ne R N N0) T0 HT0) as (T & HT & S).
  exists T, T0, T'. auto.
Qed.
Print Assumptions C103_every_ll1_grammar.

(** [demo] with Z ::= "z" Y and Y ::= "z" | "z" S behind S: they are conflicting
    and unreachable, and without them [demo] is left. *)
Definition with_dead_rules : grammar :=
  match demo with
  | r :: l => r :: ru "Z" [[tm "z"; nt "Y"]] :: ru "Y" [[tm "z"]; [tm "z"; nt "S"]] :: l
  | [] => []
  end.
Example C103_case :
  wf_grammar with_dead_rules /\ reduced with_dead_rules demo /\ LL1 demo /\ ~ LL1 with_dead_rules /\
  numbering demo [(0, s2b "S"); (1, s2b "A")]%Z.
Proof.
  assert (D : forall n, n = s2b "Z" \/ n = s2b "Y" -> ~ reachable with_dead_rules n).
  { intros n Hn (a & b & Y).
    assert (X : forall u v, yields with_dead_rules u v -> (forall n, n = s2b "Z" \/ n = s2b "Y" -> ~ In (NT n) u) ->
      forall n, n = s2b "Z" \/ n = s2b "Y" -> ~ In (NT n) v).
    { clear. induction 1 as [u|u v w [a n s b Ha] _ IH]; intros Hu; [exact Hu|]. apply IH. intros m Hm I.
      apply in_app_or in I. destruct I as [I|I]; [apply (Hu m Hm), in_or_app; left; exact I|].
      apply in_app_or in I. destruct I as [I|I]; [|apply (Hu m Hm), in_or_app; right; right; exact I].
      assert (Nn : n <> s2b "Z" /\ n <> s2b "Y").
      { split; intros ->; eapply Hu; [left; reflexivity| |right; reflexivity|]; apply in_or_app; right; left; reflexivity. }
      destruct Ha as (r & Hr & <- & Hs). cbn in Hr. destruct Hr as [<-|[<-|[<-|[<-|[]]]]]; cbn in Nn, Hs, Hm.
      - destruct Hs as [<-|[<-|[]]]; cbn in I; [destruct I as [I|[I|[I|[]]]]|destruct I]; try discriminate; injection I as <-; destruct Hm as [Hm|Hm]; discriminate.
      - destruct Nn as (Nn & _). congruence.
      - destruct Nn as (_ & Nn). congruence.
      - destruct Hs as [<-|[<-|[]]]; cbn in I; [destruct I as [I|[]]|destruct I]; discriminate. }
    eapply (X _ _ Y); [|exact Hn|apply in_or_app; right; left; reflexivity].
    intros m Hm [E|[]]. cbn in E. injection E as <-. destruct Hm; discriminate. }
  assert (W : wf_grammar with_dead_rules) by (apply wfb_spec; vm_compute; reflexivity).
  split; [exact W|]. split; [|split; [exact demo_LL1|split]].
  - exists (fun r => negb (bytes_eqb (r_head r) (s2b "Z") || bytes_eqb (r_head r) (s2b "Y"))).
    split; [vm_compute; reflexivity|]. intros r Hr. cbn in Hr. destruct Hr as [<-|[<-|[<-|[<-|[]]]]]; cbn [r_head ru].
    + split; [intros _|intros _; reflexivity]. exact (reachable_start with_dead_rules).
    + split; [discriminate|]. intros H. destruct (D (s2b "Z")); [left; reflexivity|exact H].
    + split; [discriminate|]. intros H. destruct (D (s2b "Y")); [right; reflexivity|exact H].
    + split; [intros _|intros _; reflexivity].
      apply (reachable_alt with_dead_rules (s2b "S") [] (s2b "A") [tm "b"; nt "S"]); [exact (reachable_start with_dead_rules)|].
      exists (nth 0 with_dead_rules (ru "" [])). cbn. auto.
  - intros [L _ _]. apply (L (s2b "Y") [tm "z"] [tm "z"; nt "S"] "z"%char).
    + exists (nth 2 with_dead_rules (ru "" [])), [], [], []. cbn. auto.
    + exists []. constructor.
    + eexists. cbn. constructor.
  - intros [|[|i]]; [reflexivity|reflexivity|]. cbn [heads demo map]. destruct i; cbn [nth_error]; [reflexivity|].
    cbn [map_get]. destruct (Z.eqb_spec (Z.of_nat (S (S (S i)))) 0); [lia|]. destruct (Z.eqb_spec (Z.of_nat (S (S (S i)))) 1); [lia|reflexivity].
Qed.
