(** * Props_GenMem: C71, the memory of FromGrammar. *)
From Verif Require Import Base ByteSet Ast Parser SliceMem ParserMem TableGen TableGenMem
  Spec_Mem Spec_GenMem ParserMemProofs TGMem Props_Mem.

(** ** C71: FromGrammar reads its grammar where it is, writes nothing that
    existed before, and returns a table that owns its cells. *)

(** For every grammar in memory, however its slices share arrays, and whatever
    capacities the runtime chooses, the call ends as the model with values
    says, and the table it returns denotes that table; ... *)
Theorem C71_result : forall grow order fuel m mg g, grammar_in m mg g ->
  let (r, m') := mFromGrammar grow order fuel mg m in
  match r, FromGrammar_order order fuel g with
  | Ok (mt, names), Ok (t, names') => table_in (gm_mem m') mt t /\ names = names'
  | Err e, Err e' => e = e'
  | Panic p, Panic p' => p = p'
  | NoFuel, NoFuel => True
  | _, _ => False
  end.
Proof.
  intros grow order fuel m mg g H. pose proof (mFromGrammar_sim grow order fuel m mg g H) as S.
  unfold out in S. destruct (mFromGrammar grow order fuel mg m) as [[[mt nm]|e|p|] m'];
    destruct (FromGrammar_order order fuel g) as [[t nm']|e'|p'|]; cbn in S; try contradiction; auto; tauto.
Qed.
Print Assumptions C71_result.

(** ... every array that existed before the call is as it was, also when the
    call fails, panics or is still running: the grammar still denotes the same
    grammar, tables returned earlier the same tables; ... *)
Theorem C71_nothing_overwritten : forall grow order fuel m mg g, grammar_in m mg g ->
  let (r, m') := mFromGrammar grow order fuel mg m in
  all_kept m m' /\
  (forall mg' g', grammar_in m mg' g' -> grammar_in m' mg' g') /\
  (forall mt t, table_in (gm_mem m) mt t -> table_in (gm_mem m') mt t).
Proof.
  intros grow order fuel m mg g H. pose proof (mFromGrammar_sim grow order fuel m mg g H) as S.
  unfold out in S.
  assert (K : all_kept m (snd (mFromGrammar grow order fuel mg m))).
  { destruct (mFromGrammar grow order fuel mg m) as [[[mt nm]|e|p|] m'];
    destruct (FromGrammar_order order fuel g) as [[t nm']|e'|p'|]; cbn in S; try contradiction; try apply S. }
  destruct (mFromGrammar grow order fuel mg m) as [r m']. cbn in K. split; [exact K|]. split.
  - intros mg' g'. apply grammar_in_kept, K.
  - intros mt t. apply table_in_untouched. apply K.
Qed.
Print Assumptions C71_nothing_overwritten.

(** ... the cells of the table lie in arrays made by the call, each in one of
    its own; ... *)
Theorem C71_cells_own : forall grow order fuel m mg g mt names m', grammar_in m mg g ->
  mFromGrammar grow order fuel mg m = (Ok (mt, names), m') ->
  own_cells (length (m_ops (gm_mem m))) (cells mt).
Proof.
  intros grow order fuel m mg g mt names m' H E. pose proof (mFromGrammar_sim grow order fuel m mg g H) as S.
  rewrite E in S. unfold out in S. destruct (FromGrammar_order order fuel g) as [[t nm']|e'|p'|]; cbn in S; try contradiction.
  apply S.
Qed.
Print Assumptions C71_cells_own.

(** The cell of row [k] for byte [b]. *)
Definition cell_at (mt : mtable) (k : Z) (b : ascii) (s : slice) : Prop :=
  exists r, In (k, r) mt /\ In (b, s) r.

Definition keyed (mt : mtable) : list ((Z * ascii) * slice) :=
  flat_map (fun r => map (fun c => ((fst r, fst c), snd c)) (snd r)) mt.
Lemma keyed_cells mt : map snd (keyed mt) = cells mt.
Proof.
  unfold keyed, cells. induction mt as [|[k r] mt IH]; [reflexivity|]. cbn. rewrite map_app, IH.
  rewrite map_map. reflexivity.
Qed.
Lemma keyed_in mt k b s : cell_at mt k b s -> In ((k, b), s) (keyed mt).
Proof.
  intros (r & H1 & H2). unfold keyed. apply in_flat_map. exists (k, r). split; [exact H1|].
  cbn. apply in_map_iff. exists (b, s). auto.
Qed.
Lemma NoDup_map_inj {A B} (f : A -> B) l : NoDup (map f l) -> forall x y, In x l -> In y l -> f x = f y -> x = y.
Proof.
  induction l as [|z l IH]; intros N x y Ix Iy E; [contradiction|]. cbn in N. inversion N as [|? ? Nz N']; subst.
  destruct Ix as [->|Ix], Iy as [->|Iy]; auto.
  - exfalso. apply Nz. rewrite E. apply in_map, Iy.
  - exfalso. apply Nz. rewrite <- E. apply in_map, Ix.
Qed.
Lemma own_keyed base mt k b s k' b' s' : own_cells base (cells mt) ->
  cell_at mt k b s -> cell_at mt k' b' s' -> (k, b) <> (k', b') ->
  sl_cap s <> 0 -> sl_cap s' <> 0 -> sl_arr s <> sl_arr s'.
Proof.
  intros (_ & N) I I' Ne C C' E. rewrite <- keyed_cells in N. fold room in N.
  assert (N' : NoDup (map (fun x => sl_arr (snd x)) (filter (fun x => room (snd x)) (keyed mt)))).
  { revert N. generalize (keyed mt) as l. intros l.
    assert (X : map sl_arr (filter room (map snd l)) = map (fun x => sl_arr (snd x)) (filter (fun x => room (snd x)) l)).
    { clear. induction l as [|[a b] l IH]; [reflexivity|]. cbn. destruct (room b); cbn; congruence. }
    rewrite X. auto. }
  assert (X : ((k, b), s) = ((k', b'), s')).
  { apply (NoDup_map_inj _ _ N'); [| |exact E]; (apply filter_In; split; [apply keyed_in; assumption|apply room_true; assumption]). }
  congruence.
Qed.

(** ... so overwriting the operands of one cell, or appending to it, leaves
    every other cell as it is; ... *)
Theorem C71_cells_independent : forall grow order fuel m mg g mt names m', grammar_in m mg g ->
  mFromGrammar grow order fuel mg m = (Ok (mt, names), m') ->
  forall k b s k' b' s', cell_at mt k b s -> cell_at mt k' b' s' -> (k, b) <> (k', b') ->
  (forall i op h', slice_set (m_ops (gm_mem m')) s i op = Some h' ->
     slice_elems h' s' = slice_elems (m_ops (gm_mem m')) s') /\
  (forall grow' ops h' s1, slice_append OpNil grow' (m_ops (gm_mem m')) s ops = (h', s1) ->
     slice_elems h' s' = slice_elems (m_ops (gm_mem m')) s').
Proof.
  intros grow order fuel m mg g mt names m' H E k b s k' b' s' I I' Ne.
  pose proof (C71_cells_own _ _ _ _ _ _ _ _ _ H E) as Own.
  pose proof (C71_result grow order fuel m mg g H) as R. rewrite E in R.
  destruct (FromGrammar_order order fuel g) as [[t nm']|e'|p'|]; try contradiction. destruct R as [Ht _].
  set (h := m_ops (gm_mem m')) in *.
  assert (Lc : sl_cap s' = 0 -> sl_len s' = 0).
  { assert (exists ops, holds h s' ops) as (ops & (V & _) & _).
    { destruct I' as (r & I1 & I2). clear -Ht I1 I2. revert I1 I2.
      induction Ht as [|[ka ra] [kb rb] mt t [Ek Hr] F IH]; [contradiction|]. intros [X|X] I2; [|eauto].
      injection X as -> ->. cbn in Hr. clear -Hr I2. revert I2.
      induction Hr as [|[c sl] [c' o] r rb [Ec Hs] F IH]; [contradiction|]. intros [X|X]; [|eauto].
      injection X as -> ->. cbn in Hs. eauto. }
    intros Z. rewrite Z in V. lia. }
  assert (G : forall h', (sl_cap s' <> 0 -> nth_error h' (sl_arr s') = nth_error h (sl_arr s')) ->
                         slice_elems h' s' = slice_elems h s').
  { intros h' Fr. unfold slice_elems. destruct (Nat.eq_dec (sl_cap s') 0) as [Z|Z].
    - rewrite (Lc Z). destruct (nth_error h' (sl_arr s')), (nth_error h (sl_arr s')); reflexivity.
    - rewrite (Fr Z). reflexivity. }
  assert (Lt : sl_cap s' <> 0 -> sl_arr s' < length h).
  { intros Z. eapply table_cells_lt; [exact Ht| |exact Z]. rewrite <- keyed_cells.
    apply (in_map snd) in I' || (apply keyed_in in I'; apply (in_map snd) in I'). exact I'. }
  split.
  - intros i op h' Ew. unfold slice_set in Ew. destruct (Nat.ltb_spec i (sl_len s)) as [L|L]; [|discriminate].
    injection Ew as <-. apply G. intros Z. apply heap_write_other.
    intros X. assert (C : sl_cap s <> 0).
    { assert (exists ops, holds h s ops) as (ops & (V & _) & _).
      { destruct I as (r & I1 & I2). clear -Ht I1 I2. revert I1 I2.
        induction Ht as [|[ka ra] [kb rb] mt t [Ek Hr] F IH]; [contradiction|]. intros [X|X] I2; [|eauto].
        injection X as -> ->. cbn in Hr. clear -Hr I2. revert I2.
        induction Hr as [|[c sl] [c' o] r rb [Ec Hs] F IH]; [contradiction|]. intros [X|X]; [|eauto].
        injection X as -> ->. cbn in Hs. eauto. }
      lia. }
    exact (own_keyed _ _ _ _ _ _ _ _ Own I I' Ne C Z (eq_sym X)).
  - intros grow' ops h' s1 Ea. apply G. intros Z. unfold slice_append in Ea.
    destruct (Nat.leb_spec (sl_len s + length ops) (sl_cap s)) as [L|L]; injection Ea as <- _.
    + destruct (Nat.eq_dec (sl_cap s) 0) as [C|C].
      * assert (ops = []) as -> by (destruct ops; [reflexivity|cbn in L; lia]). reflexivity.
      * pose proof (own_keyed _ _ _ _ _ _ _ _ Own I I' Ne C Z) as X.
        generalize (sl_off s + sl_len s) as j. generalize h as h0. clear -X.
        induction ops as [|o ops IH]; intros h0 j; [reflexivity|]. cbn. rewrite IH.
        apply heap_write_other. congruence.
    + apply nth_error_app1, Lt, Z.
Qed.
Print Assumptions C71_cells_independent.

(** ... the tables of two calls have no array in common; ... *)
Theorem C71_tables_apart : forall grow order fuel m mg g mt names m1 grow2 order2 fuel2 mg2 g2 mt2 names2 m2,
  grammar_in m mg g -> mFromGrammar grow order fuel mg m = (Ok (mt, names), m1) ->
  grammar_in m1 mg2 g2 -> mFromGrammar grow2 order2 fuel2 mg2 m1 = (Ok (mt2, names2), m2) ->
  forall s s2, In s (cells mt) -> In s2 (cells mt2) -> sl_cap s <> 0 -> sl_cap s2 <> 0 ->
  sl_arr s <> sl_arr s2.
Proof.
  intros grow order fuel m mg g mt names m1 grow2 order2 fuel2 mg2 g2 mt2 names2 m2 H1 E1 H2 E2 s s2 I1 I2 C1 C2.
  pose proof (C71_result grow order fuel m mg g H1) as R. rewrite E1 in R.
  destruct (FromGrammar_order order fuel g) as [[t nm']|e'|p'|]; try contradiction. destruct R as [Ht _].
  pose proof (table_cells_lt _ _ _ _ Ht I1 C1) as L.
  destruct (C71_cells_own _ _ _ _ _ _ _ _ _ H2 E2) as (F & _). rewrite Forall_forall in F.
  destruct (F s2 I2) as [Z|B]; [contradiction|]. lia.
Qed.
Print Assumptions C71_tables_apart.

(** ... and a parser given that table in that memory behaves as one given the
    table of the model with values, also after further calls of FromGrammar. *)
Theorem C71_parse : forall grow order fuel m mg g mt names m1 t names', grammar_in m mg g ->
  mFromGrammar grow order fuel mg m = (Ok (mt, names), m1) ->
  FromGrammar_order order fuel g = Ok (t, names') ->
  forall m2 nm grow' fuel' ms s, untouched (gm_mem m1) m2 -> source_in m2 ms s ->
  let o := mParse grow' fuel' mt nm m2 ms in
  let p := Parse fuel' (NewLL1Parser t nm) s in
  same_result (length (m_nodes m2)) (m_nodes (mo_mem o)) (mo_result o) (po_result p) /\
  mo_names o = po_names p /\ untouched m2 (mo_mem o).
Proof.
  intros grow order fuel m mg g mt names m1 t names' H E Eg m2 nm grow' fuel' ms s U Hs o p.
  pose proof (C71_result grow order fuel m mg g H) as R. rewrite E, Eg in R. destruct R as [Ht _].
  apply (table_in_untouched _ _ _ _ U) in Ht.
  destruct (C63_result grow' fuel' mt t nm m2 ms s Ht Hs) as (A & B & _). split; [exact A|]. split; [exact B|].
  exact (C63_nothing_overwritten grow' fuel' mt t nm m2 ms s Ht Hs).
Qed.
Print Assumptions C71_parse.

(** ** A concrete case: two rules whose sequences are views of one array.

  <a> is the terminal a and <b>; <b> is the terminal b and <b>, or nothing.
  The second array holds [T a; <b>; T b; <b>] of which the sequences are parts,
  the nothing is the only element of the first array. *)
Definition gcase_m : gmem :=
  mkGM (mkMem [] [] [])
    [[SNothing]; [STerminal (s2b "a"); SNonTerminal (s2b "b"); STerminal (s2b "b"); SNonTerminal (s2b "b")]]
    [[mkSlice 1 0 2 4; mkSlice 1 2 2 2; mkSlice 0 0 1 1]]
    [[(s2b "a", mkSlice 0 0 1 3); (s2b "b", mkSlice 0 1 2 2)]] [].
Definition gcase_mg : slice := mkSlice 0 0 2 2.
Definition gcase_g : grammar :=
  [mkRule (s2b "a") [[STerminal (s2b "a"); SNonTerminal (s2b "b")]];
   mkRule (s2b "b") [[STerminal (s2b "b"); SNonTerminal (s2b "b")]; [SNothing]]].

Local Ltac held := split; [split; [cbn; lia|right; eexists; split; [reflexivity|cbn; lia]]|split; [reflexivity|]];
  intros i x; do 4 (destruct i as [|i]; [first [discriminate|intros [= <-]; reflexivity]|]); destruct i; discriminate.

Example gcase_in : grammar_in gcase_m gcase_mg gcase_g.
Proof.
  exists [(s2b "a", mkSlice 0 0 1 3); (s2b "b", mkSlice 0 1 2 2)]. split; [held|].
  constructor; [|constructor; [|constructor]]; (split; [reflexivity|]).
  - exists [mkSlice 1 0 2 4]. split; [held|]. constructor; [held|constructor].
  - exists [mkSlice 1 2 2 2; mkSlice 0 0 1 1]. split; [held|].
    constructor; [held|constructor; [held|constructor]].
Qed.

Example gcase_run :
  exists mt names m', mFromGrammar (fun n => 4 * n) (fun l => l) 10 gcase_mg gcase_m = (Ok (mt, names), m') /\
    map fst mt = [0%Z; 1%Z] /\ length (cells mt) = 3 /\
    map sl_arr (cells mt) = [0; 1; 0] /\ map sl_cap (cells mt) = [4; 4; 0].
Proof. vm_compute. eexists _, _, _. repeat split. Qed.
