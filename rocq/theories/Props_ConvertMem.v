(** * Props_ConvertMem: C72, the memory of ToAST. *)
From Coq Require Import Sorted Permutation.
From Verif Require Import Base Cst Ast FromCst Spec_Convert ConvertProofs SliceMem ParserMem TableGen TableGenMem
  FromCstMem Spec_Mem Spec_GenMem ParserMemProofs TGMem ConvertMem.

(** ** Writing a whole window *)
Lemma write_all_other {T} (xs : list T) : forall h a i c, c <> a ->
  nth_error (heap_write_all h a i xs) c = nth_error h c.
Proof.
  induction xs as [|x xs IH]; intros h a i c N; [reflexivity|]. cbn. rewrite IH by exact N.
  apply heap_write_other. congruence.
Qed.

Lemma write_all_same {T} (xs : list T) : forall h a i arr, nth_error h a = Some arr ->
  i + length xs <= length arr ->
  exists arr', nth_error (heap_write_all h a i xs) a = Some arr' /\ length arr' = length arr /\
    (forall j, j < i \/ i + length xs <= j -> nth_error arr' j = nth_error arr j) /\
    (forall j, j < length xs -> nth_error arr' (i + j) = nth_error xs j).
Proof.
  induction xs as [|x xs IH]; intros h a i arr E L.
  - exists arr. cbn. repeat split; [exact E|]. intros j Lj. cbn in Lj. lia.
  - cbn [length] in L. cbn [heap_write_all].
    destruct (IH (heap_write h a i x) a (Datatypes.S i) (list_set arr i x)) as (arr' & E' & L' & O & I).
    + apply heap_write_same, E.
    + rewrite list_set_length. lia.
    + exists arr'. split; [exact E'|]. rewrite list_set_length in L'. split; [exact L'|]. split.
      * intros j Hj. cbn [length] in Hj. rewrite O by lia. rewrite list_set_nth.
        destruct (Nat.eqb_spec i j); [lia|]. reflexivity.
      * intros j Hj. cbn [length] in Hj. destruct j as [|j].
        -- rewrite Nat.add_0_r. rewrite O by lia. rewrite list_set_nth, Nat.eqb_refl.
           destruct (Nat.ltb_spec i (length arr)); [reflexivity|lia].
        -- replace (i + Datatypes.S j) with (Datatypes.S i + j) by lia. cbn [nth_error]. apply I. lia.
Qed.

(** The slice [s] is sorted in place: the same elements in ascending order, in
    the same places of the same array, and every other place is as it was. *)
Definition sorted_in_place (h h' : heap Z) (s : slice) : Prop :=
  Permutation (slice_elems h' s) (slice_elems h s) /\ Sorted Z.le (slice_elems h' s) /\
  length h' = length h /\
  (forall a, a <> sl_arr s -> nth_error h' a = nth_error h a) /\
  (forall arr, nth_error h (sl_arr s) = Some arr ->
     exists arr', nth_error h' (sl_arr s) = Some arr' /\ length arr' = length arr /\
       forall j, j < sl_off s \/ sl_off s + sl_len s <= j -> nth_error arr' j = nth_error arr j).

Lemma sort_ints_length l : length (sort_ints l) = length l.
Proof. apply Permutation_length, sort_ints_perm. Qed.

Lemma write_all_length {T} (xs : list T) : forall h a i, length (heap_write_all h a i xs) = length h.
Proof. induction xs as [|x xs IH]; intros h a i; [reflexivity|]. cbn. rewrite IH. apply heap_write_length. Qed.

Lemma sort_in_place_holds h s l : holds h s l -> holds (sort_in_place h s) s (sort_ints l).
Proof.
  intros H. pose proof (holds_elems _ _ _ H) as E. destruct H as ((Lc & V) & Ll & G).
  unfold sort_in_place. rewrite E. pose proof (sort_ints_length l) as Ls.
  destruct V as [V|(arr & Ea & Lo)].
  - assert (l = []) as -> by (destruct l; [reflexivity|cbn in Ll; lia]). cbn. split; [split; auto|]. split; [exact Ll|].
    intros [|i] x Hx; discriminate.
  - destruct (write_all_same (sort_ints l) h (sl_arr s) (sl_off s) arr Ea) as (arr' & E' & L' & _ & I); [lia|].
    split; [split; [exact Lc|right; exists arr'; split; [exact E'|lia]]|]. split; [lia|].
    intros i x Hx. unfold slice_get. assert (Li : i < length (sort_ints l)) by (apply nth_error_Some; congruence).
    destruct (Nat.ltb_spec i (sl_len s)); [|lia]. rewrite E', I by exact Li. exact Hx.
Qed.

Lemma sort_in_place_spec h s l : holds h s l -> sorted_in_place h (sort_in_place h s) s.
Proof.
  intros H. pose proof (sort_in_place_holds _ _ _ H) as H'. unfold sorted_in_place.
  rewrite (holds_elems _ _ _ H), (holds_elems _ _ _ H').
  split; [apply sort_ints_perm|]. split; [apply sort_ints_sorted|]. unfold sort_in_place.
  rewrite (holds_elems _ _ _ H). split; [apply write_all_length|]. split.
  - intros a N. apply write_all_other, N.
  - intros arr Ea. pose proof (sort_ints_length l) as Ls. destruct H as ((Lc & V) & Ll & _).
    destruct V as [V|(arr0 & Ea0 & Lo)].
    + assert (l = []) as -> by (destruct l; [reflexivity|cbn in Ll; lia]). cbn. exists arr. auto.
    + rewrite Ea0 in Ea. injection Ea as <-.
      destruct (write_all_same (sort_ints l) h (sl_arr s) (sl_off s) arr0 Ea0) as (arr' & E' & L' & O & _); [lia|].
      exists arr'. split; [exact E'|]. split; [exact L'|]. intros j Hj. apply O. lia.
Qed.

Lemma bindings_at_sorted h s l b : holds h s l ->
  bindings_at (sort_in_place h s) s b = sort_bindings (with_ignored l b).
Proof. intros H. unfold bindings_at. rewrite (holds_elems _ _ _ (sort_in_place_holds _ _ _ H)). reflexivity. Qed.

(** ** C72: ToAST builds its grammar in new memory and writes nothing else but
    the order of IgnoreNodeTypes. *)

(** How the call with memory ends, and the state of the call with values. *)
Lemma mToAST_ends grow ignore l b m root str : holds (cm_ints m) ignore l ->
  let (r, m') := mToAST grow ignore b m root str in
  cm_ints m' = sort_in_place (cm_ints m) ignore /\ all_kept (cm_gm m) (cm_gm m') /\
  match r, ToAST (with_ignored l b) root str with
  | Ok rules, Ok g => grammar_in (cm_gm m') rules g /\ own_grammar (cm_gm m) (cm_gm m') rules
  | Err e, Err e' => e = e'
  | Panic p, Panic p' => p = p'
  | NoFuel, NoFuel => True
  | _, _ => False
  end.
Proof.
  intros H. unfold mToAST, ToAST, ToAST_sorted.
  rewrite (bindings_at_sorted _ _ _ b H). set (b' := sort_bindings (with_ignored l b)).
  pose proof (mToAST_sorted_sim grow b' str (cm_gm m) root) as S. unfold related in S.
  destruct (mToAST_sorted grow b' str (cm_gm m) root) as [[gm rs] err]. cbn [fst snd cm_gm cm_ints] in *.
  split; [reflexivity|].
  destruct err as [[]|e|p|], (b_lrTraverse b' root (RuleType b') (doOnRule b' str) []) as [[g [e'|]]|[]|p'|];
    cbn [lift gobind] in *; try contradiction.
  - destruct (RR_grammar _ _ _ _ S) as (K & G). auto.
  - destruct S as [-> S]. destruct (RR_grammar _ _ _ _ S) as (K & _). auto.
  - destruct S as [-> S]. auto.
  - auto.
Qed.

(** For every tree, text and bindings, and whatever capacities the runtime
    chooses, the call ends as the model with values says, and the slice of
    rules it returns denotes that grammar; ... *)
Theorem C72_result : forall grow ignore l b m root str, holds (cm_ints m) ignore l ->
  let (r, m') := mToAST grow ignore b m root str in
  match r, ToAST (with_ignored l b) root str with
  | Ok rules, Ok g => grammar_in (cm_gm m') rules g
  | Err e, Err e' => e = e'
  | Panic p, Panic p' => p = p'
  | NoFuel, NoFuel => True
  | _, _ => False
  end.
Proof.
  intros grow ignore l b m root str H. pose proof (mToAST_ends grow ignore l b m root str H) as S.
  destruct (mToAST grow ignore b m root str) as [r m']. destruct S as (_ & _ & S).
  destruct r, (ToAST (with_ignored l b) root str); try contradiction; try exact S. apply S.
Qed.
Print Assumptions C72_result.

(** ... however the call ends, with a grammar, an error or a panic, every array
    that existed before is as it was, except that the elements of
    IgnoreNodeTypes, and only those places of its array, are now in ascending
    order; so other grammars and tables are the same as before; ... *)
Theorem C72_nothing_else_written : forall grow ignore l b m root str r m', holds (cm_ints m) ignore l ->
  mToAST grow ignore b m root str = (r, m') ->
  all_kept (cm_gm m) (cm_gm m') /\ sorted_in_place (cm_ints m) (cm_ints m') ignore /\
  (forall mg g, grammar_in (cm_gm m) mg g -> grammar_in (cm_gm m') mg g) /\
  (forall mt t, table_in (gm_mem (cm_gm m)) mt t -> table_in (gm_mem (cm_gm m')) mt t).
Proof.
  intros grow ignore l b m root str r m' H E. pose proof (mToAST_ends grow ignore l b m root str H) as S.
  rewrite E in S. destruct S as (Ei & K & _). rewrite Ei.
  split; [exact K|]. split; [eapply sort_in_place_spec, H|]. split.
  - intros mg g'. apply grammar_in_kept, K.
  - intros mt t. apply table_in_untouched, K.
Qed.
Print Assumptions C72_nothing_else_written.

(** ... the grammar owns its parts: the list of rules, each rule's list of
    alternatives and each alternative's list of symbols lie in arrays made by
    this call, one each; ... *)
Theorem C72_grammar_own : forall grow ignore l b m root str m' rules, holds (cm_ints m) ignore l ->
  mToAST grow ignore b m root str = (Ok rules, m') ->
  own_grammar (cm_gm m) (cm_gm m') rules.
Proof.
  intros grow ignore l b m root str m' rules H E. pose proof (mToAST_ends grow ignore l b m root str H) as S.
  rewrite E in S. destruct S as (_ & _ & S). destruct (ToAST (with_ignored l b) root str); try contradiction. apply S.
Qed.
Print Assumptions C72_grammar_own.

(** Slices that own their arrays do not disturb each other. *)
Lemma own_nth base L i j s s' : own_cells base L -> nth_error L i = Some s -> nth_error L j = Some s' ->
  i <> j -> sl_cap s <> 0 -> sl_cap s' <> 0 -> sl_arr s <> sl_arr s'.
Proof.
  intros (_ & N) Hi Hj Ne C C'. revert i j Hi Hj Ne N. induction L as [|x L IH]; intros i j Hi Hj Ne N.
  - destruct i; discriminate.
  - assert (Z : forall k y, nth_error L k = Some y -> sl_cap y <> 0 ->
                  In (sl_arr y) (map sl_arr (filter (fun s => negb (Nat.eqb (sl_cap s) 0)) L))).
    { intros k y Hk Cy. apply in_map, filter_In. split; [eapply nth_error_In, Hk|].
      destruct (Nat.eqb_spec (sl_cap y) 0); [contradiction|reflexivity]. }
    cbn [filter] in N. destruct i as [|i], j as [|j]; cbn [nth_error] in Hi, Hj; [contradiction| | |].
    + injection Hi as ->. destruct (Nat.eqb_spec (sl_cap s) 0); [contradiction|]. cbn in N.
      inversion N as [|? ? Nx N']; subst. intros X. apply Nx. rewrite X. eapply Z; eassumption.
    + injection Hj as ->. destruct (Nat.eqb_spec (sl_cap s') 0); [contradiction|]. cbn in N.
      inversion N as [|? ? Nx N']; subst. intros X. apply Nx. rewrite <- X. eapply Z; eassumption.
    + apply (IH i j); auto. destruct (negb (Nat.eqb (sl_cap x) 0)); [cbn in N; inversion N; assumption|exact N].
Qed.

Lemma own_independent {T} (zero : T) (h : heap T) base L i j s s' :
  own_cells base L -> nth_error L i = Some s -> nth_error L j = Some s' -> i <> j ->
  valid_slice h s -> valid_slice h s' ->
  (forall k x h', slice_set h s k x = Some h' -> slice_elems h' s' = slice_elems h s') /\
  (forall grow xs h' s1, slice_append zero grow h s xs = (h', s1) -> slice_elems h' s' = slice_elems h s').
Proof.
  intros Own Hi Hj Ne (Lc & V) (Lc' & V').
  assert (G : forall h', (sl_cap s' <> 0 -> nth_error h' (sl_arr s') = nth_error h (sl_arr s')) ->
                         slice_elems h' s' = slice_elems h s').
  { intros h' Fr. unfold slice_elems. destruct (Nat.eq_dec (sl_cap s') 0) as [Z|Z].
    - replace (sl_len s') with 0 by lia. destruct (nth_error h' (sl_arr s')), (nth_error h (sl_arr s')); reflexivity.
    - rewrite (Fr Z). reflexivity. }
  split.
  - intros k x h' Ew. unfold slice_set in Ew. destruct (Nat.ltb_spec k (sl_len s)) as [L0|L0]; [|discriminate].
    injection Ew as <-. apply G. intros Z. apply heap_write_other. intros X.
    apply (own_nth _ _ _ _ _ _ Own Hi Hj Ne); [lia|exact Z|congruence].
  - intros grow xs h' s1 Ea. apply G. intros Z. unfold slice_append in Ea.
    destruct (Nat.leb_spec (sl_len s + length xs) (sl_cap s)) as [L0|L0]; injection Ea as <- _.
    + destruct xs as [|x xs]; [reflexivity|]. apply write_all_other. intros X.
      apply (own_nth _ _ _ _ _ _ Own Hi Hj Ne); [cbn in L0; lia|exact Z|congruence].
    + apply nth_error_app1. destruct V' as [V'|(arr & Ea & _)]; [contradiction|].
      apply nth_error_Some. congruence.
Qed.

(** ... so appending symbols to one alternative, or overwriting one of its
    symbols, changes no other alternative of the grammar, and appending an
    alternative to one rule changes no other rule; ... *)
Theorem C72_parts_independent : forall grow ignore l b m root str m' rules, holds (cm_ints m) ignore l ->
  mToAST grow ignore b m root str = (Ok rules, m') ->
  (forall i j s s', nth_error (alternatives_of (cm_gm m') rules) i = Some s ->
     nth_error (alternatives_of (cm_gm m') rules) j = Some s' -> i <> j ->
     (forall k x h, slice_set (gm_syms (cm_gm m')) s k x = Some h ->
        slice_elems h s' = slice_elems (gm_syms (cm_gm m')) s') /\
     (forall grow' xs h s1, slice_append zero_symbol grow' (gm_syms (cm_gm m')) s xs = (h, s1) ->
        slice_elems h s' = slice_elems (gm_syms (cm_gm m')) s')) /\
  (forall i j r r', nth_error (rules_of (cm_gm m') rules) i = Some r ->
     nth_error (rules_of (cm_gm m') rules) j = Some r' -> i <> j ->
     (forall k x h, slice_set (gm_seqs (cm_gm m')) (snd r) k x = Some h ->
        slice_elems h (snd r') = slice_elems (gm_seqs (cm_gm m')) (snd r')) /\
     (forall grow' xs h s1, slice_append nil_slice grow' (gm_seqs (cm_gm m')) (snd r) xs = (h, s1) ->
        slice_elems h (snd r') = slice_elems (gm_seqs (cm_gm m')) (snd r'))).
Proof.
  intros grow ignore l b m root str m' rules H E.
  destruct (C72_grammar_own _ _ _ _ _ _ _ _ _ H E) as (_ & O2 & O1).
  pose proof (C72_result grow ignore l b m root str H) as R. rewrite E in R.
  destruct (ToAST (with_ignored l b) root str) as [g| | |]; try contradiction.
  destruct R as (mrs & Hr & Fg).
  assert (Er : rules_of (cm_gm m') rules = mrs) by (apply holds_elems, Hr).
  assert (Vr : forall r, In r mrs -> valid_slice (gm_seqs (cm_gm m')) (snd r) /\
            forall s, In s (slice_elems (gm_seqs (cm_gm m')) (snd r)) -> valid_slice (gm_syms (cm_gm m')) s).
  { clear -Fg. induction Fg as [|mr r mrs g (Eh & seqs & Hs & Fs) F IH]; [contradiction|].
    intros r0 [<-|I]; [|apply IH, I]. split; [apply Hs|]. rewrite (holds_elems _ _ _ Hs). clear -Fs.
    induction Fs as [|s x ss xs Hx F IH]; [contradiction|]. intros s0 [<-|I]; [apply Hx|apply IH, I]. }
  split.
  - intros i j s s' Hi Hj Ne.
    assert (Va : forall s, In s (alternatives_of (cm_gm m') rules) -> valid_slice (gm_syms (cm_gm m')) s).
    { intros s0 I. unfold alternatives_of in I. rewrite Er in I. apply in_flat_map in I.
      destruct I as (r & Ir & Is). destruct (Vr r Ir) as [_ X]. apply X, Is. }
    apply (own_independent zero_symbol _ _ _ _ _ _ _ O1 Hi Hj Ne); apply Va; eapply nth_error_In; eassumption.
  - intros i j r r' Hi Hj Ne. rewrite Er in *.
    apply (own_independent nil_slice _ _ _ _ _ _ _ O2 (map_nth_error snd _ _ Hi) (map_nth_error snd _ _ Hj) Ne);
      apply Vr; eapply nth_error_In; eassumption.
Qed.
Print Assumptions C72_parts_independent.

(** ... and the grammar can be given to FromGrammar, also after later calls of
    ToAST and FromGrammar: the table is that of the grammar with values. *)
Theorem C72_then_FromGrammar : forall grow ignore l b m root str m1 rules, holds (cm_ints m) ignore l ->
  mToAST grow ignore b m root str = (Ok rules, m1) ->
  exists g, ToAST (with_ignored l b) root str = Ok g /\
  forall grow' order fuel gm2, all_kept (cm_gm m1) gm2 ->
  let (r, gm3) := mFromGrammar grow' order fuel rules gm2 in
  grammar_in gm3 rules g /\
  match r, FromGrammar_order order fuel g with
  | Ok (mt, names), Ok (t, names') => table_in (gm_mem gm3) mt t /\ names = names'
  | Err e, Err e' => e = e'
  | Panic p, Panic p' => p = p'
  | NoFuel, NoFuel => True
  | _, _ => False
  end.
Proof.
  intros grow ignore l b m root str m1 rules H E.
  pose proof (C72_result grow ignore l b m root str H) as R. rewrite E in R.
  destruct (ToAST (with_ignored l b) root str) as [g| | |]; try contradiction.
  exists g. split; [reflexivity|]. intros grow' order fuel gm2 K.
  apply (grammar_in_kept _ _ _ _ K) in R.
  pose proof (mFromGrammar_sim grow' order fuel gm2 rules g R) as S. unfold out in S.
  destruct (mFromGrammar grow' order fuel rules gm2) as [[[mt nm]|e|p|] gm3];
    destruct (FromGrammar_order order fuel g) as [[t nm']|e'|p'|]; cbn in S; try contradiction;
    (split; [eapply grammar_in_kept; [apply S|exact R]|tauto]).
Qed.
Print Assumptions C72_then_FromGrammar.

(** ** A concrete case: a tree of two rules, and IgnoreNodeTypes [30 25] as the
    middle of a larger array. *)
Definition ccase_tree : node :=
  Node 0 0 4
    [Node 4 0 1 [Node 18 0 1 []; Node 5 1 1 [Node 7 1 1 [Node 9 1 1 [Node 12 1 1 []]]]];
     Node 25 0 1 [Node 4 0 1 []];
     Node 4 1 4 [Node 18 1 2 []; Node 5 2 4 [Node 7 2 4 [Node 9 2 4
       [Node 11 2 4 [Node 16 2 4 [Node (-1) 2 3 []; Node 17 3 4 []]]]];
       Node 7 0 1 [Node 9 0 1 [Node 18 0 1 []]; Node 9 1 2 [Node 18 1 2 []]]]]].
Definition ccase_ignore : slice := mkSlice 0 1 2 3.
Definition ccase_m : cmem := mkCM (mkGM (mkMem [] [] []) [[SNothing]] [] [] []) [[9%Z; 30%Z; 25%Z; 1%Z]].

Example ccase_holds : holds (cm_ints ccase_m) ccase_ignore [30%Z; 25%Z].
Proof.
  split; [split; [cbn; lia|right; eexists; split; [reflexivity|cbn; lia]]|split; [reflexivity|]].
  intros i x; do 2 (destruct i as [|i]; [intros [= <-]; reflexivity|]); destruct i; discriminate.
Qed.

(** The three alternatives lie in three new arrays; the third has room for two
    symbols only when the runtime chooses so. *)
Example ccase_run :
  exists m' rules, mToAST (fun n => n) ccase_ignore SelfCSTtoASTBindings ccase_m ccase_tree (s2b "ab\n") = (Ok rules, m') /\
    cm_ints m' = [[9; 25; 30; 1]]%Z /\ map fst (rules_of (cm_gm m') rules) = [s2b "a"; s2b "b"] /\
    map (slice_elems (gm_syms (cm_gm m'))) (alternatives_of (cm_gm m') rules) =
      [[SNothing]; [STerminal [LF]]; [SNonTerminal (s2b "a"); SNonTerminal (s2b "b")]] /\
    map sl_arr (alternatives_of (cm_gm m') rules) = [1; 2; 4].
Proof. vm_compute. eexists _, _. repeat split. Qed.

(** The same tree with a text that is too short: the second rule's name cannot be
    read and the call panics, after the first rule has been built (one new array of
    symbols, of alternatives and of rules) and IgnoreNodeTypes has been sorted. *)
Example ccase_panic :
  exists m' p, mToAST (fun n => n) ccase_ignore SelfCSTtoASTBindings ccase_m ccase_tree (s2b "a") = (Panic p, m') /\
    cm_ints m' = [[9; 25; 30; 1]]%Z /\ gm_syms (cm_gm m') = [[SNothing]; [SNothing]] /\
    length (gm_seqs (cm_gm m')) = 1 /\ length (gm_rules (cm_gm m')) = 1.
Proof. vm_compute. eexists _, _. repeat split. Qed.
