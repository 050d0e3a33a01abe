(** * ParserMemProofs: the parser with memory refines the parser with lists *)
From Coq Require Import Permutation.
From Verif Require Import Base Cst Parser SliceMem ParserMem Spec_Mem.

Scheme tree_in_mut := Induction for tree_in Sort Prop
  with forest_in_mut := Induction for forest_in Sort Prop.

(** ** Lists and arrays *)

Lemma list_set_length {A} (l : list A) : forall i x, length (list_set l i x) = length l.
Proof. induction l as [|y l IH]; intros [|i] x; simpl; auto. Qed.

Lemma list_set_nth {A} (l : list A) : forall i x j,
  nth_error (list_set l i x) j =
  if Nat.eqb i j then (if Nat.ltb i (length l) then Some x else None) else nth_error l j.
Proof.
  induction l as [|y l IH]; intros i x j.
  - simpl. destruct (Nat.eqb i j); destruct j; reflexivity.
  - destruct i as [|i], j as [|j]; simpl; try reflexivity. rewrite IH. reflexivity.
Qed.

Lemma list_set_app {A} (l : list A) x y r : list_set (l ++ x :: r) (length l) y = l ++ y :: r.
Proof. induction l; simpl; [reflexivity|]. f_equal. assumption. Qed.

Lemma nth_repeat_lt {A} (x : A) : forall n i, i < n -> nth_error (repeat x n) i = Some x.
Proof.
  induction n as [|n IH]; intros [|i] H; simpl; try lia; [reflexivity|]. apply IH. lia.
Qed.

Lemma heap_write_length {T} (h : heap T) a i x : length (heap_write h a i x) = length h.
Proof. unfold heap_write. destruct (nth_error h a); [apply list_set_length|reflexivity]. Qed.

Lemma heap_write_other {T} (h : heap T) a i x b :
  b <> a -> nth_error (heap_write h a i x) b = nth_error h b.
Proof.
  intros H. unfold heap_write. destruct (nth_error h a); [|reflexivity].
  rewrite list_set_nth. destruct (Nat.eqb_spec a b); [congruence|reflexivity].
Qed.

Lemma heap_write_same {T} (h : heap T) a i x arr :
  nth_error h a = Some arr -> nth_error (heap_write h a i x) a = Some (list_set arr i x).
Proof.
  intros H. unfold heap_write. rewrite H, list_set_nth, Nat.eqb_refl.
  assert (a < length h) by (apply nth_error_Some; congruence).
  apply Nat.ltb_lt in H0. rewrite H0. reflexivity.
Qed.

(** ** Slices *)

Lemma nth_slice {T} (arr : list T) : forall o n i,
  i < n -> nth_error (firstn n (skipn o arr)) i = nth_error arr (o + i).
Proof.
  induction arr as [|y arr IH]; intros o n i Hi.
  - rewrite skipn_nil, firstn_nil. destruct i, o; reflexivity.
  - destruct o as [|o]; [|exact (IH o n i Hi)]. simpl. clear IH. revert i Hi.
    generalize (y :: arr) as l. induction n as [|n IHn]; intros l i Hi; [lia|].
    destruct l as [|z l]; [destruct i; reflexivity|]. destruct i as [|i]; [reflexivity|].
    simpl. apply IHn. lia.
Qed.

Lemma holds_nil {T} (h : heap T) s : sl_len s <= sl_cap s -> sl_len s = 0 ->
  (sl_cap s = 0 \/ exists arr, nth_error h (sl_arr s) = Some arr /\ sl_off s + sl_cap s <= length arr) ->
  holds h s [].
Proof. intros H1 H2 H3. split; [split; assumption|]. split; [assumption|]. intros [|i] x; discriminate. Qed.

Lemma holds_nil_slice {T} (h : heap T) : holds h nil_slice [].
Proof. apply holds_nil; simpl; [lia|reflexivity|left; reflexivity]. Qed.

Lemma holds_frame {T} (h h' : heap T) s xs :
  holds h s xs -> (sl_cap s = 0 \/ nth_error h' (sl_arr s) = nth_error h (sl_arr s)) -> holds h' s xs.
Proof.
  intros ([H1 H2] & H3 & H4) [H|H].
  - split; [split; [assumption|left; assumption]|]. split; [assumption|].
    intros i x E. assert (i < length xs) by (apply nth_error_Some; congruence). lia.
  - split; [split; [assumption|]|].
    + destruct H2 as [?|(arr & E & L)]; [left; assumption|]. right. exists arr. rewrite H. split; assumption.
    + split; [assumption|]. intros i x E. rewrite <- (H4 i x E). unfold slice_get. rewrite H. reflexivity.
Qed.

Lemma holds_elems {T} (h : heap T) s xs : holds h s xs -> slice_elems h s = xs.
Proof.
  intros ([H1 H2] & H3 & H4). unfold slice_elems. destruct H2 as [Hc|(arr & E & L)].
  - assert (sl_len s = 0) by lia. rewrite H. assert (xs = []) as -> by (destruct xs; simpl in *; [reflexivity|lia]).
    destruct (nth_error h (sl_arr s)); reflexivity.
  - rewrite E.
    assert (G : forall i, nth_error (firstn (sl_len s) (skipn (sl_off s) arr)) i = nth_error xs i).
    { intros i. destruct (Nat.lt_ge_cases i (sl_len s)) as [Hi|Hi].
      - destruct (nth_error xs i) as [x|] eqn:Ex.
        + pose proof (H4 i x Ex) as G. unfold slice_get in G. rewrite E in G.
          apply Nat.ltb_lt in Hi. rewrite Hi in G. apply Nat.ltb_lt in Hi.
          rewrite <- G. apply nth_slice, Hi.
        + apply nth_error_None in Ex. lia.
      - rewrite (proj2 (nth_error_None xs i)) by lia.
        apply nth_error_None. rewrite firstn_length. lia. }
    clear -G. revert xs G. generalize (firstn (sl_len s) (skipn (sl_off s) arr)) as l.
    induction l as [|y l IH]; intros [|x xs] G.
    + reflexivity.
    + specialize (G 0). discriminate.
    + specialize (G 0). discriminate.
    + pose proof (G 0) as G0. simpl in G0. injection G0 as ->. f_equal. apply IH.
      intros i. exact (G (S i)).
Qed.

Lemma holds_whole {T} (h : heap T) arr : holds (h ++ [arr]) (mkSlice (length h) 0 (length arr) (length arr)) arr.
Proof.
  split; [split; simpl; [lia|]|].
  - right. exists arr. rewrite nth_error_app2, Nat.sub_diag by lia. split; [reflexivity|lia].
  - split; [reflexivity|]. intros i x E. unfold slice_get. cbn [sl_len sl_arr sl_off].
    assert (i < length arr) as L by (apply nth_error_Some; congruence). apply Nat.ltb_lt in L. rewrite L.
    rewrite nth_error_app2, Nat.sub_diag by lia. exact E.
Qed.

(** Appending one element to a slice. *)
Lemma append_one {T} (zero : T) grow (h : heap T) s xs x h' s' base :
  holds h s xs -> base <= length h -> (sl_cap s = 0 \/ base <= sl_arr s) ->
  slice_append zero grow h s [x] = (h', s') ->
  holds h' s' (xs ++ [x]) /\ base <= sl_arr s' /\ length h <= length h' /\
  (forall a, a < length h -> (sl_cap s = 0 \/ a <> sl_arr s) ->
     nth_error h' a = nth_error h a /\ a <> sl_arr s').
Proof.
  intros Hh Hb Ho. unfold slice_append. cbn [length heap_write_all].
  pose proof Hh as ([H1 H2] & H3 & H4).
  destruct (Nat.leb_spec (sl_len s + 1) (sl_cap s)) as [L|L]; intros [= <- <-].
  - destruct H2 as [H2|(arr & E & La)]; [lia|]. destruct Ho as [Ho|Ho]; [lia|].
    rewrite heap_write_length.
    split; [split; [split|split]|split; [|split]]; cbn [sl_arr sl_off sl_len sl_cap]; try lia.
    + right. exists (list_set arr (sl_off s + sl_len s) x). rewrite (heap_write_same _ _ _ _ arr) by exact E.
      rewrite list_set_length. split; [reflexivity|lia].
    + rewrite app_length. simpl. lia.
    + intros i y Ey. unfold slice_get. cbn [sl_arr sl_off sl_len sl_cap].
      rewrite (heap_write_same _ _ _ _ arr) by exact E.
      destruct (Nat.lt_ge_cases i (length xs)) as [Hi|Hi].
      * rewrite nth_error_app1 in Ey by exact Hi. pose proof (H4 i y Ey) as G. unfold slice_get in G.
        destruct (Nat.ltb_spec i (sl_len s)) as [K|K]; [|discriminate]. rewrite E in G.
        destruct (Nat.ltb_spec i (sl_len s + 1)); [|lia].
        rewrite list_set_nth. destruct (Nat.eqb_spec (sl_off s + sl_len s) (sl_off s + i)); [lia|exact G].
      * rewrite nth_error_app2 in Ey by exact Hi.
        assert (i = length xs) as ->.
        { assert (i - length xs < 1) by (change 1 with (length [x]); apply nth_error_Some; congruence). lia. }
        rewrite Nat.sub_diag in Ey. simpl in Ey. injection Ey as <-.
        destruct (Nat.ltb_spec (length xs) (sl_len s + 1)); [|lia].
        rewrite list_set_nth, H3, Nat.eqb_refl.
        destruct (Nat.ltb_spec (sl_off s + length xs) (length arr)); [reflexivity|lia].
    + intros a _ [H0|H0]; [lia|]. split; [apply heap_write_other, H0|exact H0].
  - rewrite (holds_elems _ _ _ Hh), app_length. cbn [length].
    set (c := Nat.max (sl_len s + 1) (grow (sl_len s + 1))).
    assert (Hc : sl_len s + 1 <= c) by (unfold c; lia). clearbody c.
    split; [split; [split|split]|split; [|split]]; cbn [sl_arr sl_off sl_len sl_cap]; try lia.
    + right. exists (xs ++ [x] ++ repeat zero (c - (sl_len s + 1))).
      rewrite nth_error_app2, Nat.sub_diag by lia. split; [reflexivity|].
      rewrite !app_length, repeat_length. simpl. lia.
    + rewrite app_length. simpl. lia.
    + intros i y Ey. unfold slice_get. cbn [sl_arr sl_off sl_len sl_cap].
      assert (i < length (xs ++ [x])) as Hi by (apply nth_error_Some; congruence).
      rewrite app_length in Hi. simpl in Hi.
      destruct (Nat.ltb_spec i (sl_len s + 1)); [|lia].
      rewrite (nth_error_app2 h) by lia. rewrite Nat.sub_diag.
      change (nth_error (xs ++ [x] ++ repeat zero (c - (sl_len s + 1))) i = Some y).
      rewrite app_assoc. rewrite nth_error_app1 by (rewrite app_length; simpl; lia). exact Ey.
    + intros a Ha _. split; [apply nth_error_app1, Ha|lia].
Qed.

(** Popping one element. *)
Lemma holds_pop {T} (h : heap T) s xs x :
  holds h s (xs ++ [x]) ->
  sl_len s <> 0 /\ slice_get h s (sl_len s - 1) = Some x /\ holds h (slice_trunc s (sl_len s - 1)) xs.
Proof.
  intros ([H1 H2] & H3 & H4). rewrite app_length in H3. simpl in H3.
  split; [lia|]. split.
  - apply H4. replace (sl_len s - 1) with (length xs) by lia.
    rewrite nth_error_app2, Nat.sub_diag by lia. reflexivity.
  - split; [split; cbn; [lia|exact H2]|]. split; [cbn; lia|].
    intros i y E. assert (i < length xs) as Hi by (apply nth_error_Some; congruence).
    assert (G : nth_error (xs ++ [x]) i = Some y) by (rewrite nth_error_app1 by exact Hi; exact E).
    apply H4 in G. unfold slice_get in *. cbn [slice_trunc sl_len sl_arr sl_off].
    destruct (Nat.ltb_spec i (sl_len s)); [|discriminate].
    destruct (Nat.ltb_spec i (sl_len s - 1)); [|lia]. exact G.
Qed.

(** Writing one element. *)
Lemma holds_set {T} (h : heap T) s xs i x :
  holds h s xs -> i < length xs ->
  exists h', slice_set h s i x = Some h' /\ holds h' s (list_set xs i x) /\ length h' = length h /\
    forall a, a <> sl_arr s -> nth_error h' a = nth_error h a.
Proof.
  intros ([H1 H2] & H3 & H4) Hi. destruct H2 as [H2|(arr & E & L)]; [lia|].
  exists (heap_write h (sl_arr s) (sl_off s + i) x). unfold slice_set.
  destruct (Nat.ltb_spec i (sl_len s)); [|lia]. split; [reflexivity|].
  split; [|split; [apply heap_write_length|intros a; apply heap_write_other]].
  split; [split; [assumption|]|].
  - right. exists (list_set arr (sl_off s + i) x). rewrite (heap_write_same _ _ _ _ arr) by exact E.
    rewrite list_set_length. split; [reflexivity|lia].
  - rewrite list_set_length. split; [exact H3|]. intros j y Ey. unfold slice_get.
    rewrite (heap_write_same _ _ _ _ arr) by exact E.
    rewrite list_set_nth in Ey |- *.
    destruct (Nat.eqb_spec i j) as [->|N].
    + rewrite Nat.eqb_refl. apply Nat.ltb_lt in Hi. rewrite Hi in Ey. apply Nat.ltb_lt in Hi.
      destruct (Nat.ltb_spec j (sl_len s)); [|lia].
      destruct (Nat.ltb_spec (sl_off s + j) (length arr)); [exact Ey|lia].
    + destruct (Nat.eqb_spec (sl_off s + i) (sl_off s + j)); [lia|].
      pose proof (H4 j y Ey) as G. unfold slice_get in G. rewrite E in G. exact G.
Qed.

(** ** Trees in memory *)

Lemma tree_frame h h' mn n A :
  tree_in h mn n A -> (forall a, In a A -> nth_error h' a = nth_error h a) -> tree_in h' mn n A.
Proof.
  intros H. revert mn n A H.
  apply (tree_in_mut h
    (fun mn n A _ => (forall a, In a A -> nth_error h' a = nth_error h a) -> tree_in h' mn n A)
    (fun ms ns A _ => (forall a, In a A -> nth_error h' a = nth_error h a) -> forest_in h' ms ns A)).
  - intros. constructor. assumption.
  - intros t p q s ms ns A N Hh Hf IH F. apply ti_node with (ms := ms); [assumption| |].
    + eapply holds_frame; [exact Hh|]. right. apply F. left. reflexivity.
    + apply IH. intros a Ha. apply F. right. exact Ha.
  - intros. constructor.
  - intros m n A ms ns B _ IH1 _ IH2 F. constructor.
    + apply IH1. intros a Ha. apply F. apply in_or_app. left. exact Ha.
    + apply IH2. intros a Ha. apply F. apply in_or_app. right. exact Ha.
Qed.

Lemma forest_frame h h' ms ns A :
  forest_in h ms ns A -> (forall a, In a A -> nth_error h' a = nth_error h a) -> forest_in h' ms ns A.
Proof.
  induction 1 as [|m n A ms ns B Ht Hf IH]; intros F; [constructor|]. constructor.
  - eapply tree_frame; [exact Ht|]. intros a Ha. apply F, in_or_app. left. exact Ha.
  - apply IH. intros a Ha. apply F, in_or_app. right. exact Ha.
Qed.

Lemma tree_in_type h mn n A : tree_in h mn n A -> mn_type mn = n_type n.
Proof. inversion 1; reflexivity. Qed.

Lemma untouched_refl m : untouched m m.
Proof. repeat split; auto. Qed.

Lemma untouched_trans a b c : untouched a b -> untouched b c -> untouched a c.
Proof. intros (A & B & C) (D & E & F). repeat split; auto. Qed.

Lemma nth_incl_length {T} (h h' : heap T) :
  (forall a arr, nth_error h a = Some arr -> nth_error h' a = Some arr) -> length h <= length h'.
Proof.
  intros H. destruct (Nat.le_gt_cases (length h) (length h')) as [L|L]; [exact L|].
  destruct (nth_error h (length h')) as [arr|] eqn:E.
  - apply H in E. assert (length h' < length h') by (apply nth_error_Some; congruence). lia.
  - apply nth_error_None in E. lia.
Qed.

Lemma holds_untouched {T} (h h' : heap T) s xs :
  (forall a arr, nth_error h a = Some arr -> nth_error h' a = Some arr) ->
  holds h s xs -> holds h' s xs.
Proof.
  intros U H. eapply holds_frame; [exact H|]. destruct H as ([_ [H|(arr & E & _)]] & _).
  - left. exact H.
  - right. rewrite E. apply U, E.
Qed.

(** ** The invariant *)

Section Sim.
  Variable grow : nat -> nat.
  Variable m0 : mem.
  Variable mtbl : mtable.
  Variable tbl : table.
  Variable msrc : slice.
  Variable text : bytes.
  Variable names : names_map.
  Hypothesis Htbl : table_in m0 mtbl tbl.
  Hypothesis Hsrc : holds (m_bytes m0) msrc text.

  Definition ops_inv (m : mem) (s : slice) (ops : list ParserOp) : Prop :=
    untouched m0 m /\ holds (m_ops m) s (rev ops) /\
    (sl_cap s = 0 \/ length (m_ops m0) <= sl_arr s).

  Definition area (m : mem) (A : list nat) : Prop :=
    NoDup A /\ Forall (fun a => length (m_nodes m0) <= a < length (m_nodes m)) A.

  Definition apart (s : slice) (A : list nat) : Prop :=
    sl_cap s = 0 \/ (length (m_nodes m0) <= sl_arr s /\ ~ In (sl_arr s) A).

  Definition nodes_inv (m : mem) (s : slice) (ns : list node) : Prop :=
    untouched m0 m /\
    exists ms A, holds (m_nodes m) s (map Some (rev ms)) /\ forest_in (m_nodes m) ms ns A /\
      area m A /\ apart s A.

  Definition inv (st : mstate) (pst : pstate) : Prop :=
    ops_inv (ms_mem st) (ms_ops st) (ps_ops pst) /\
    nodes_inv (ms_mem st) (ms_prods st) (ps_prods pst) /\
    ms_off st = ps_off pst.

  Lemma push_op_inv m s ops op m' s' :
    ops_inv m s ops -> push_op grow m s op = (m', s') ->
    ops_inv m' s' (op :: ops) /\ m_nodes m' = m_nodes m /\ m_bytes m' = m_bytes m.
  Proof.
    intros (U & H & O) E. unfold push_op in E.
    destruct (slice_append OpNil grow (m_ops m) s [op]) as [h sl] eqn:Ea. injection E as <- <-.
    cbn [m_nodes m_bytes set_ops m_ops]. split; [|split; reflexivity].
    pose proof U as (U1 & U2 & U3).
    destruct (append_one _ _ _ _ _ _ _ _ _ H (nth_incl_length _ _ U1) O Ea) as (H' & B & L & F).
    split; [|split].
    - repeat split; cbn; auto. intros a arr Ha. pose proof (U1 a arr Ha) as Ha'.
      assert (a < length (m_ops m0)) by (apply nth_error_Some; congruence).
      assert (a < length (m_ops m)) by (apply nth_error_Some; congruence).
      destruct (F a) as [-> _]; [assumption| |exact Ha'].
      destruct O as [O|O]; [left; exact O|right; lia].
    - exact H'.
    - right. exact B.
  Qed.

  Lemma nodes_inv_ops m m' s ns :
    nodes_inv m s ns -> untouched m0 m' -> m_nodes m' = m_nodes m -> nodes_inv m' s ns.
  Proof.
    intros (U & ms & A & H1 & H2 & H3 & H4) U' E. split; [exact U'|].
    exists ms, A. unfold area in *. rewrite E. auto.
  Qed.

  Lemma push_cell_inv cell ops : holds (m_ops m0) cell ops -> forall i m s st,
    i <= length ops -> ops_inv m s st ->
    exists m' s', push_cell grow m cell i s = Ok (m', s') /\
      ops_inv m' s' (firstn i ops ++ st) /\ m_nodes m' = m_nodes m /\ m_bytes m' = m_bytes m.
  Proof.
    intros Hc. induction i as [|i IH]; intros m s st Hi Hinv; simpl.
    - exists m, s. auto.
    - assert (Hop : exists op, nth_error ops i = Some op).
      { destruct (nth_error ops i) eqn:E; [eauto|]. apply nth_error_None in E. lia. }
      destruct Hop as [op Eop].
      pose proof Hinv as ((U1 & _) & _).
      pose proof (holds_untouched _ _ _ _ U1 Hc) as (_ & _ & G). rewrite (G i op Eop).
      destruct (push_op grow m s op) as [m1 s1] eqn:E1.
      destruct (push_op_inv _ _ _ _ _ _ Hinv E1) as (Hinv1 & En & Eb).
      destruct (IH m1 s1 (op :: st)) as (m' & s' & E & Hinv' & En' & Eb'); [lia|exact Hinv1|].
      exists m', s'. split; [exact E|]. split; [|split; congruence].
      replace (match ops with [] => [] | a :: l => a :: firstn i l end) with (firstn (S i) ops) by reflexivity.
      assert (firstn (S i) ops = firstn i ops ++ [op]) as ->.
      { clear -Eop. revert i Eop. induction ops as [|o ops IH]; intros [|i] E; simpl in *; try discriminate.
        - injection E as ->. reflexivity.
        - f_equal. apply IH, E. }
      rewrite <- app_assoc. exact Hinv'.
  Qed.

  Lemma push_chars_inv : forall cs m s st,
    ops_inv m s st ->
    exists m' s', push_chars grow m cs s = (m', s') /\
      ops_inv m' s' (rev (map OpChar cs) ++ st) /\ m_nodes m' = m_nodes m /\ m_bytes m' = m_bytes m.
  Proof.
    induction cs as [|c cs IH]; intros m s st Hinv; simpl; [exists m, s; auto|].
    destruct (push_op grow m s (OpChar c)) as [m1 s1] eqn:E1.
    destruct (push_op_inv _ _ _ _ _ _ Hinv E1) as (Hinv1 & En & Eb).
    destruct (IH _ _ _ Hinv1) as (m' & s' & E & Hinv' & En' & Eb').
    exists m', s'. split; [exact E|]. split; [|split; congruence].
    rewrite <- app_assoc. exact Hinv'.
  Qed.

  Lemma push_all_app ops st : push_all ops st = ops ++ st.
  Proof.
    unfold push_all. rewrite <- (rev_involutive ops) at 2. generalize (rev ops) as l. intros l. revert st.
    induction l as [|o l IH]; intros st; [reflexivity|]. simpl. rewrite IH, <- app_assoc. reflexivity.
  Qed.

  Lemma mpeek_eq m k : untouched m0 m -> mpeek msrc m k = peek text k.
  Proof.
    intros (_ & _ & U). pose proof (holds_untouched _ _ _ _ U Hsrc) as (_ & L & G).
    unfold mpeek, peek. rewrite L. destruct (Nat.leb_spec (length text) k) as [K|K].
    - rewrite (proj2 (nth_error_None text k)) by exact K. reflexivity.
    - destruct (nth_error text k) as [c|] eqn:E; [|apply nth_error_None in E; lia].
      rewrite (G k c E). reflexivity.
  Qed.

  Lemma table_get_in n :
    match mtable_get n mtbl, table_get n tbl with
    | Some mr, Some r => row_in m0 mr r
    | None, None => True
    | _, _ => False
    end.
  Proof.
    clear Hsrc. unfold mtable_get, table_get. induction Htbl as [|[k mr] [k' r] mt t [Hk Hr] Ht IH]; [exact I|].
    simpl in *. subst k'. destruct (n =? k)%Z; [exact Hr|]. apply IH. exact Ht.
  Qed.

  Lemma row_get_in c mr r : row_in m0 mr r ->
    match mrow_get c mr, row_get c r with
    | Some s, Some ops => holds (m_ops m0) s ops
    | None, None => True
    | _, _ => False
    end.
  Proof.
    unfold mrow_get, row_get. induction 1 as [|[k s] [k' ops] mt t [Hk Hr] Ht IH]; [exact I|].
    simpl in *. subst k'. destruct (Ascii.eqb c k); [exact Hr|]. exact IH.
  Qed.

  (** Pushing a node that stands in memory. *)
  Lemma push_node_inv m s ns ms A mn n B m' s' :
    untouched m0 m -> holds (m_nodes m) s (map Some (rev ms)) -> forest_in (m_nodes m) ms ns A ->
    tree_in (m_nodes m) mn n B -> area m (B ++ A) -> apart s (B ++ A) ->
    push_node grow m s mn = (m', s') ->
    nodes_inv m' s' (n :: ns) /\ m_ops m' = m_ops m /\ m_bytes m' = m_bytes m.
  Proof.
    intros U H Hf Ht [Nd Ar] Ap E. unfold push_node in E.
    destruct (slice_append None grow (m_nodes m) s [Some mn]) as [h sl] eqn:Ea. injection E as <- <-.
    cbn [m_ops m_bytes set_nodes m_nodes]. split; [|split; reflexivity].
    pose proof U as (U1 & U2 & U3).
    assert (O : sl_cap s = 0 \/ length (m_nodes m0) <= sl_arr s) by (destruct Ap as [?|[? ?]]; auto).
    destruct (append_one _ _ _ _ _ _ _ _ _ H (nth_incl_length _ _ U2) O Ea) as (H' & Bs & L & F).
    assert (FA : forall a, In a (B ++ A) -> nth_error h a = nth_error (m_nodes m) a /\ a <> sl_arr sl).
    { intros a Ha. apply F.
      - rewrite Forall_forall in Ar. apply Ar, Ha.
      - destruct Ap as [?|[_ N]]; [left; assumption|right; intros ->; contradiction]. }
    split.
    - repeat split; cbn; auto. intros a arr Ha. pose proof (U2 a arr Ha) as Ha'.
      assert (a < length (m_nodes m0)) by (apply nth_error_Some; congruence).
      assert (a < length (m_nodes m)) by (apply nth_error_Some; congruence).
      destruct (F a) as [-> _]; [assumption| |exact Ha'].
      destruct O as [O|O]; [left; exact O|right; lia].
    - exists (mn :: ms), (B ++ A). cbn [m_nodes set_nodes].
      split; [|split; [|split]].
      + simpl. rewrite map_app. exact H'.
      + constructor.
        * eapply tree_frame; [exact Ht|]. intros a Ha. apply FA, in_or_app. left. exact Ha.
        * eapply forest_frame; [exact Hf|]. intros a Ha. apply FA, in_or_app. right. exact Ha.
      + split; [exact Nd|]. eapply Forall_impl; [|exact Ar]. cbn. intros a ?. lia.
      + right. split; [exact Bs|]. intros Ha. apply FA in Ha. destruct Ha as [_ Ha]. apply Ha. reflexivity.
  Qed.

  Lemma pop_node_cons m s mn ms :
    holds (m_nodes m) s (map Some (rev (mn :: ms))) ->
    pop_node m s = Ok (Some (Some mn, slice_trunc s (sl_len s - 1))) /\
    holds (m_nodes m) (slice_trunc s (sl_len s - 1)) (map Some (rev ms)).
  Proof.
    simpl. rewrite map_app. intros H. destruct (holds_pop _ _ _ _ H) as (N & G & H').
    unfold pop_node. destruct (Nat.eqb_spec (sl_len s) 0); [contradiction|]. rewrite G. auto.
  Qed.

  Lemma pop_node_nil m s : holds (m_nodes m) s (map Some (rev [])) -> pop_node m s = Ok None.
  Proof. intros (_ & L & _). simpl in L. unfold pop_node. rewrite L. reflexivity. Qed.

  Lemma apart_trunc s n A : apart s A -> apart (slice_trunc s n) A.
  Proof. exact (fun H => H). Qed.

  (** Popping the characters of a terminal. *)
  Lemma pop_discard_sim childs : forall i m s ns acc,
    nodes_inv m s ns ->
    match pop_childs true i ns acc with
    | Ok (c, ns') => c = acc /\ exists s', pop_into true m i s childs = Ok (m, s') /\ nodes_inv m s' ns'
    | Panic p => pop_into true m i s childs = Panic p
    | _ => False
    end.
  Proof.
    induction i as [|i IH]; intros m s ns acc Hinv; simpl.
    - split; [reflexivity|]. exists s. auto.
    - destruct Hinv as (U & ms & A & H & Hf & Ar & Ap).
      destruct Hf as [|mn n B ms ns A' Ht Hf].
      + rewrite (pop_node_nil _ _ H). reflexivity.
      + destruct (pop_node_cons _ _ _ _ H) as [-> H']. rewrite (tree_in_type _ _ _ _ Ht).
        destruct (negb (n_type n =? builtinTerminal)%Z); [reflexivity|].
        apply IH. split; [exact U|]. exists ms, A'. split; [exact H'|]. split; [exact Hf|].
        destruct Ar as [Nd Ar]. split; [split|].
        * clear -Nd. induction B; [exact Nd|]. simpl in Nd. inversion Nd. auto.
        * apply Forall_app in Ar. apply Ar.
        * apply apart_trunc. destruct Ap as [?|[? N]]; [left; assumption|right; split; [assumption|]].
          intros Ha. apply N, in_or_app. right. exact Ha.
  Qed.

  (** Popping the children of a node into a new array. *)
  Lemma pop_into_sim childs : forall i m s ns ms A dms dns D,
    untouched m0 m -> holds (m_nodes m) s (map Some (rev ms)) -> forest_in (m_nodes m) ms ns A ->
    holds (m_nodes m) childs (repeat None i ++ map Some dms) -> forest_in (m_nodes m) dms dns D ->
    area m (sl_arr childs :: D ++ A) -> apart s (sl_arr childs :: D ++ A) ->
    match pop_childs false i ns dns with
    | Ok (c, ns') =>
        exists m' s' ms' A' dms' D', pop_into false m i s childs = Ok (m', s') /\
          untouched m0 m' /\ m_ops m' = m_ops m /\
          holds (m_nodes m') s' (map Some (rev ms')) /\ forest_in (m_nodes m') ms' ns' A' /\
          holds (m_nodes m') childs (map Some dms') /\ forest_in (m_nodes m') dms' c D' /\
          area m' (sl_arr childs :: D' ++ A') /\ apart s' (sl_arr childs :: D' ++ A') /\
          length dms' = i + length dms
    | Panic p => pop_into false m i s childs = Panic p
    | _ => False
    end.
  Proof.
    induction i as [|i IH]; intros m s ns ms A dms dns D U H Hf Hc Hd Ar Ap.
    - simpl. exists m, s, ms, A, dms, D. repeat (split; [first [reflexivity|assumption]|]). reflexivity.
    - simpl. destruct Hf as [|mn n B ms ns A' Ht Hf].
      + rewrite (pop_node_nil _ _ H). reflexivity.
      + destruct (pop_node_cons _ _ _ _ H) as [-> H'].
        assert (Hl : i < length (repeat (@None mnode) (S i) ++ map Some dms))
          by (rewrite app_length, repeat_length; lia).
        destruct (holds_set _ _ _ _ (Some mn) Hc Hl) as (h & -> & Hc' & Lh & F).
        destruct Ar as [Nd Ar]. inversion Nd as [|? ? Nin Nd']; subst.
        assert (Fin : forall a, In a (D ++ B ++ A') -> nth_error h a = nth_error (m_nodes m) a).
        { intros a Ha. apply F. intros ->. contradiction. }
        specialize (IH (set_nodes m h) (slice_trunc s (sl_len s - 1)) ns ms A'
                      (mn :: dms) (n :: dns) (B ++ D)).
        cbn [m_nodes m_ops set_nodes] in IH.
        assert (P : Permutation (sl_arr childs :: (B ++ D) ++ A') (sl_arr childs :: D ++ B ++ A')).
        { constructor. rewrite <- app_assoc. rewrite !app_assoc. apply Permutation_app_tail, Permutation_app_comm. }
        assert (U' : untouched m0 (set_nodes m h)).
        { destruct U as (U1 & U2 & U3). repeat split; cbn; auto. intros a arr Ha.
          rewrite F; [apply U2, Ha|]. intros ->. inversion Ar as [|? ? [K _] _]; subst.
          assert (sl_arr childs < length (m_nodes m0)) by (apply nth_error_Some; congruence). lia. }
        assert (Sframe : sl_cap s = 0 \/ nth_error h (sl_arr s) = nth_error (m_nodes m) (sl_arr s)).
        { destruct Ap as [?|[_ N]]; [left; assumption|right]. apply F. intros E. apply N. left. congruence. }
        assert (C1 : holds h (slice_trunc s (sl_len s - 1)) (map Some (rev ms))).
        { eapply holds_frame; [exact H'|]. exact Sframe. }
        assert (C2 : forest_in h ms ns A').
        { eapply forest_frame; [exact Hf|]. intros a Ha. apply Fin. apply in_or_app. right.
          apply in_or_app. right. exact Ha. }
        assert (C3 : holds h childs (repeat None i ++ map Some (mn :: dms))).
        { replace (repeat None i ++ map Some (mn :: dms))
            with (list_set (repeat (@None mnode) (S i) ++ map Some dms) i (Some mn)); [exact Hc'|].
          assert (E : repeat (@None mnode) (S i) ++ map Some dms = repeat None i ++ None :: map Some dms).
          { clear. induction i as [|i IH]; [reflexivity|]. simpl in *. f_equal. exact IH. }
          rewrite E. rewrite <- (repeat_length (@None mnode) i) at 2. rewrite list_set_app. reflexivity. }
        assert (C4 : forest_in h (mn :: dms) (n :: dns) (B ++ D)).
        { constructor.
          - eapply tree_frame; [exact Ht|]. intros a Ha. apply Fin. apply in_or_app. right.
            apply in_or_app. left. exact Ha.
          - eapply forest_frame; [exact Hd|]. intros a Ha. apply Fin. apply in_or_app. left. exact Ha. }
        assert (C5 : area (set_nodes m h) (sl_arr childs :: (B ++ D) ++ A')).
        { split.
          - eapply Permutation_NoDup; [apply Permutation_sym, P|exact Nd].
          - cbn. rewrite Lh. eapply Permutation_Forall; [apply Permutation_sym, P|exact Ar]. }
        assert (C6 : apart (slice_trunc s (sl_len s - 1)) (sl_arr childs :: (B ++ D) ++ A')).
        { apply apart_trunc. destruct Ap as [?|[? N]]; [left; assumption|right; split; [assumption|]].
          intros Ha. apply N. eapply Permutation_in; [exact P|exact Ha]. }
        specialize (IH U' C1 C2 C3 C4 C5 C6). cbn [negb].
        destruct (pop_childs false i ns (n :: dns)) as [[c ns']| |p|]; [|exact IH|exact IH|exact IH].
        destruct IH as (m' & s' & ms' & A'' & dms' & D' & E & I1 & I2 & I3 & I4 & I5 & I6 & I7 & I8 & I9).
        exists m', s', ms', A'', dms', D'. repeat (split; [assumption|]). rewrite I9. simpl. lia.
  Qed.

  Definition step_sim (r : mstepres) (q : stepres) : Prop :=
    match r, q with
    | MNext st, SNext pst => inv st pst
    | MReturn mr nm m, SReturn pr pn =>
        nm = pn /\ untouched m0 m /\ same_return (length (m_nodes m0)) (m_nodes m) mr pr
    | MPanic p m, SPanic q => p = q /\ untouched m0 m
    | _, _ => False
    end.

  Lemma sim_err m e : untouched m0 m ->
    step_sim (MReturn (mret_err e) names m) (SReturn (ret_err e) names).
  Proof. intros U. split; [reflexivity|]. split; [exact U|]. repeat split. Qed.

  Lemma ops_inv_nodes m m' s ops :
    ops_inv m s ops -> untouched m0 m' -> m_ops m' = m_ops m -> ops_inv m' s ops.
  Proof. intros (U & H & O) U' E. split; [exact U'|]. rewrite E. auto. Qed.

  Lemma function_sim name pos amount st pst :
    inv st pst ->
    step_sim (mprocessFunction grow name pos amount st)
             (processFunction name pos amount (ps_ops pst) (ps_prods pst) (ps_off pst)).
  Proof.
    intros (Ho & (U & ms & A & H & Hf & Ar & Ap) & Eoff). unfold mprocessFunction, processFunction.
    rewrite Eoff. destruct (Nat.eqb_spec amount 0) as [Z|Z].
    - set (leaf := MNode builtinNothing (Z.of_nat (ps_off pst)) (Z.of_nat (ps_off pst)) nil_slice).
      destruct (heap_alloc (m_nodes (ms_mem st)) [Some leaf]) as [h childs] eqn:Eh.
      injection Eh as <- <-. cbn [length].
      set (childs := mkSlice (length (m_nodes (ms_mem st))) 0 1 1).
      set (m1 := set_nodes (ms_mem st) (m_nodes (ms_mem st) ++ [[Some leaf]])).
      destruct (push_node grow m1 (ms_prods st)
                 (MNode name (Z.of_nat (ps_off pst)) (Z.of_nat (ps_off pst)) childs)) as [m2 s2] eqn:E2.
      assert (U1 : untouched m0 m1).
      { destruct U as (A1 & A2 & A3). repeat split; cbn; auto. intros a arr Ha.
        rewrite nth_error_app1; [apply A2, Ha|]. apply nth_error_Some. rewrite (A2 a arr Ha). discriminate. }
      assert (Fold : forall a, a < length (m_nodes (ms_mem st)) ->
                nth_error (m_nodes m1) a = nth_error (m_nodes (ms_mem st)) a)
        by (intros a Ha; apply nth_error_app1, Ha).
      destruct Ar as [Nd Ar].
      assert (Hs : holds (m_nodes m1) (ms_prods st) (map Some (rev ms))).
      { eapply holds_frame; [exact H|]. destruct H as ([_ [H|(arr & E & _)]] & _); [left; exact H|right].
        apply Fold, nth_error_Some. rewrite E. discriminate. }
      destruct (push_node_inv m1 (ms_prods st) (ps_prods pst) ms A
                 (MNode name (Z.of_nat (ps_off pst)) (Z.of_nat (ps_off pst)) childs)
                 (Node name (Z.of_nat (ps_off pst)) (Z.of_nat (ps_off pst))
                    [Node builtinNothing (Z.of_nat (ps_off pst)) (Z.of_nat (ps_off pst)) []])
                 [sl_arr childs] m2 s2) as (Hn & Eo & Eb).
      + exact U1.
      + exact Hs.
      + eapply forest_frame; [exact Hf|]. intros a Ha. apply Fold.
        rewrite Forall_forall in Ar. apply Ar, Ha.
      + apply (ti_node _ _ _ _ _ [leaf] _ []); [discriminate| |].
        * exact (holds_whole (m_nodes (ms_mem st)) [Some leaf]).
        * apply (fi_cons _ leaf _ [] [] [] []); [apply ti_leaf; reflexivity|constructor].
      + assert (L0 : length (m_nodes m0) <= length (m_nodes (ms_mem st)))
          by (apply nth_incl_length, (proj1 (proj2 U))).
        split; cbn.
        * constructor; [|exact Nd]. intros Ha. rewrite Forall_forall in Ar. apply Ar in Ha. lia.
        * rewrite app_length. simpl. constructor; [lia|]. eapply Forall_impl; [|exact Ar]. cbn. intros a ?. lia.
      + destruct H as ([_ [Hl|(arr & E' & _)]] & _); [left; exact Hl|].
        destruct Ap as [?|[? N]]; [left; assumption|right; split; [assumption|]].
        cbn. intros [E|Ha]; [|contradiction].
        assert (sl_arr (ms_prods st) < length (m_nodes (ms_mem st))) by (apply nth_error_Some; congruence). lia.
      + exact E2.
      + cbn. split; [|split; [exact Hn|reflexivity]].
        eapply ops_inv_nodes; [exact Ho|apply Hn|exact Eo].
    - destruct (Z.eqb_spec name builtinTerminal) as [->|Nt]; cbn [negb].
      + pose proof (pop_discard_sim nil_slice amount (ms_mem st) (ms_prods st) (ps_prods pst) []
                     (conj U (ex_intro _ ms (ex_intro _ A (conj H (conj Hf (conj Ar Ap))))))) as P.
        destruct (pop_childs true amount (ps_prods pst) []) as [[c ns']| |p|]; try contradiction.
        * destruct P as (-> & s' & -> & (U' & ms' & A' & H' & Hf' & Ar' & Ap')).
          destruct (push_node grow (ms_mem st) s' _) as [m2 s2] eqn:E2.
          destruct (push_node_inv (ms_mem st) s' ns' ms' A'
                     (MNode builtinTerminal (Z.of_nat pos) (Z.of_nat (ps_off pst)) nil_slice)
                     (Node builtinTerminal (Z.of_nat pos) (Z.of_nat (ps_off pst)) []) [] m2 s2)
            as (Hn & Eo & Eb); try assumption; [apply ti_leaf; reflexivity|].
          split; [|split; [exact Hn|reflexivity]]. cbn.
          eapply ops_inv_nodes; [exact Ho|apply Hn|exact Eo].
        * rewrite P. cbn. auto.
      + destruct (heap_make None (m_nodes (ms_mem st)) amount) as [h childs] eqn:Eh.
        injection Eh as <- <-. rewrite repeat_length.
        set (childs := mkSlice (length (m_nodes (ms_mem st))) 0 amount amount).
        set (m1 := set_nodes (ms_mem st) (m_nodes (ms_mem st) ++ [repeat None amount])).
        assert (U1 : untouched m0 m1).
        { destruct U as (A1 & A2 & A3). repeat split; cbn; auto. intros a arr Ha.
          rewrite nth_error_app1; [apply A2, Ha|]. apply nth_error_Some. rewrite (A2 a arr Ha). discriminate. }
        assert (Fold : forall a, a < length (m_nodes (ms_mem st)) ->
                  nth_error (m_nodes m1) a = nth_error (m_nodes (ms_mem st)) a)
          by (intros a Ha; apply nth_error_app1, Ha).
        destruct Ar as [Nd Ar].
        assert (Hs : holds (m_nodes m1) (ms_prods st) (map Some (rev ms))).
        { eapply holds_frame; [exact H|]. destruct H as ([_ [H|(arr & E & _)]] & _); [left; exact H|right].
          apply Fold, nth_error_Some. rewrite E. discriminate. }
        assert (L0 : length (m_nodes m0) <= length (m_nodes (ms_mem st)))
          by (apply nth_incl_length, (proj1 (proj2 U))).
        pose proof (pop_into_sim childs amount m1 (ms_prods st) (ps_prods pst) ms A [] [] [] U1 Hs) as P.
        assert (C1 : forest_in (m_nodes m1) ms (ps_prods pst) A).
        { eapply forest_frame; [exact Hf|]. intros a Ha. apply Fold.
          rewrite Forall_forall in Ar. apply Ar, Ha. }
        assert (C2 : holds (m_nodes m1) childs (repeat None amount ++ map Some [])).
        { simpl. rewrite app_nil_r.
          pose proof (holds_whole (m_nodes (ms_mem st)) (repeat (@None mnode) amount)) as W.
          rewrite repeat_length in W. exact W. }
        assert (C3 : area m1 (sl_arr childs :: [] ++ A)).
        { split; cbn.
          - constructor; [|exact Nd]. intros Ha. rewrite Forall_forall in Ar. apply Ar in Ha. lia.
          - rewrite app_length. simpl. constructor; [lia|]. eapply Forall_impl; [|exact Ar]. cbn. intros a ?. lia. }
        assert (C4 : apart (ms_prods st) (sl_arr childs :: [] ++ A)).
        { destruct H as ([_ [Hl|(arr & E' & _)]] & _); [left; exact Hl|].
          destruct Ap as [?|[? N]]; [left; assumption|right; split; [assumption|]].
          cbn. intros [E|Ha]; [|contradiction].
          assert (sl_arr (ms_prods st) < length (m_nodes (ms_mem st))) by (apply nth_error_Some; congruence). lia. }
        specialize (P C1 C2 (fi_nil _) C3 C4).
        destruct (pop_childs false amount (ps_prods pst) []) as [[c ns']| |p|]; try contradiction.
        * destruct P as (m' & s' & ms' & A' & dms & D & -> & I1 & I2 & I3 & I4 & I5 & I6 & I7 & I8 & I9).
          destruct (push_node grow m' s' _) as [m2 s2] eqn:E2.
          destruct (push_node_inv m' s' ns' ms' A'
                     (MNode name (Z.of_nat pos) (Z.of_nat (ps_off pst)) childs)
                     (Node name (Z.of_nat pos) (Z.of_nat (ps_off pst)) c) (sl_arr childs :: D) m2 s2)
            as (Hn & Eo & Eb); try assumption.
          { apply ti_node with (ms := dms); try assumption. intros ->. simpl in I9. lia. }
          split; [|split; [exact Hn|reflexivity]]. cbn.
          eapply ops_inv_nodes; [exact Ho|apply Hn|exact (eq_trans Eo I2)].
        * rewrite P. cbn. auto.
  Qed.

  Lemma mstep_sim st pst : inv st pst ->
    step_sim (mstep grow mtbl msrc names st) (step tbl text names pst).
  Proof.
    intros (Ho & Hn & Eoff). unfold mstep, step, pop_op. pose proof Ho as (U & H & O).
    destruct (ps_ops pst) as [|op ops] eqn:Eops.
    - destruct H as (_ & L & _). simpl in L. rewrite L. cbn. auto.
    - simpl in H. destruct (holds_pop _ _ _ _ H) as (N & G & H').
      destruct (Nat.eqb_spec (sl_len (ms_ops st)) 0) as [Ez|_]; [contradiction|]. rewrite G.
      set (stk := slice_trunc (ms_ops st) (sl_len (ms_ops st) - 1)) in *.
      set (st1 := mkMS stk (ms_prods st) (ms_off st) (ms_mem st)).
      assert (Ho1 : ops_inv (ms_mem st) stk ops) by (split; [exact U|split; [exact H'|exact O]]).
      assert (Pk : forall k, mpeek msrc (ms_mem st) k = peek text k) by (intros k; apply mpeek_eq, U).
      assert (Heos : step_sim (mprocessEOS msrc names st1) (processEOS text names (ps_prods pst) (ps_off pst))).
      { unfold mprocessEOS, processEOS. cbn [ms_mem ms_off ms_ops ms_prods st1]. rewrite Eoff, Pk.
        destruct (negb (Ascii.eqb (peek text (ps_off pst)) NUL)); [apply sim_err, U|].
        destruct Hn as (_ & ms & A & Hh & Hf & Ar & Ap).
        destruct Hf as [|mn n B ms ns A' Ht Hf].
        * rewrite (pop_node_nil _ _ Hh). apply sim_err, U.
        * destruct (pop_node_cons _ _ _ _ Hh) as [-> _]. destruct names as [nm|]; [|cbn; auto].
          split; [reflexivity|]. split; [exact U|]. split; [reflexivity|]. split; [reflexivity|].
          cbn. exists B. split; [exact Ht|]. destruct Ar as [Nd Ar]. split.
          { clear -Nd. induction B as [|b B IH]; [constructor|]. simpl in Nd. inversion Nd; subst.
            constructor; [|auto]. intros Hb. apply H1. apply in_or_app. left. exact Hb. }
          apply Forall_app in Ar. apply Ar. }
      destruct op as [name|v|name pos amount| |c| |emb].
      + unfold mprocessNonTerminal, processNonTerminal. destruct (name <? 0)%Z.
        * unfold mprocessBuiltinNonTerminal, processBuiltinNonTerminal. cbn [ms_mem ms_off ms_ops ms_prods st1].
          rewrite Eoff, Pk. destruct (name =? -2)%Z; [|apply sim_err, U].
          destruct (Ascii.eqb (peek text (ps_off pst)) LF).
          { destruct (push_op grow (ms_mem st) stk _) as [m1 s1] eqn:E1.
            destruct (push_op_inv _ _ _ _ _ _ Ho1 E1) as (I1 & N1 & B1).
            destruct (push_op grow m1 s1 _) as [m2 s2] eqn:E2.
            destruct (push_op_inv _ _ _ _ _ _ I1 E2) as (I2 & N2 & B2).
            split; [exact I2|]. split; [|reflexivity]. cbn.
            eapply nodes_inv_ops; [exact Hn|apply I2|congruence]. }
          destruct (Ascii.eqb (peek text (ps_off pst)) CR); [|apply sim_err, U].
          destruct (push_op grow (ms_mem st) stk _) as [m1 s1] eqn:E1.
          destruct (push_op_inv _ _ _ _ _ _ Ho1 E1) as (I1 & N1 & B1).
          destruct (push_op grow m1 s1 _) as [m2 s2] eqn:E2.
          destruct (push_op_inv _ _ _ _ _ _ I1 E2) as (I2 & N2 & B2).
          destruct (push_op grow m2 s2 _) as [m3 s3] eqn:E3.
          destruct (push_op_inv _ _ _ _ _ _ I2 E3) as (I3 & N3 & B3).
          split; [exact I3|]. split; [|reflexivity]. cbn.
          eapply nodes_inv_ops; [exact Hn|apply I3|congruence].
        * unfold mprocessTableNonTerminal, processTableNonTerminal. cbn [ms_mem ms_off ms_ops ms_prods st1].
          pose proof (table_get_in name) as T.
          destruct (mtable_get name mtbl) as [mr|], (table_get name tbl) as [r|]; try contradiction;
            [|apply sim_err, U].
          rewrite Eoff, Pk. pose proof (row_get_in (peek text (ps_off pst)) _ _ T) as C.
          destruct (mrow_get (peek text (ps_off pst)) mr) as [cell|],
                   (row_get (peek text (ps_off pst)) r) as [cops|]; try contradiction;
            [|apply sim_err, U].
          pose proof C as (_ & Lc & _). rewrite Lc.
          destruct (push_op grow (ms_mem st) stk _) as [m1 s1] eqn:E1.
          destruct (push_op_inv _ _ _ _ _ _ Ho1 E1) as (I1 & N1 & B1).
          destruct (push_cell_inv cell cops C (length cops) m1 s1 _ (le_n _) I1)
            as (m2 & s2 & -> & I2 & N2 & B2).
          rewrite firstn_all in I2. rewrite push_all_app. split; [exact I2|]. split; [|reflexivity]. cbn.
          eapply nodes_inv_ops; [exact Hn|apply I2|congruence].
      + unfold mprocessTerminal, processTerminal. cbn [ms_mem ms_off ms_ops ms_prods st1].
        destruct (push_op grow (ms_mem st) stk _) as [m1 s1] eqn:E1.
        destruct (push_op_inv _ _ _ _ _ _ Ho1 E1) as (I1 & N1 & B1).
        destruct (push_chars_inv (rev v) _ _ _ I1) as (m2 & s2 & -> & I2 & N2 & B2).
        rewrite map_rev, rev_involutive in I2. rewrite push_all_app, Eoff in *.
        split; [exact I2|]. split; [|reflexivity]. cbn.
        eapply nodes_inv_ops; [exact Hn|apply I2|congruence].
      + exact (function_sim name pos amount st1 (mkPS ops (ps_prods pst) (ps_off pst))
                 (conj Ho1 (conj Hn Eoff))).
      + exact Heos.
      + unfold mprocessChar, processChar. cbn [ms_mem ms_off ms_ops ms_prods st1]. rewrite Eoff, Pk.
        destruct (negb (Ascii.eqb c (peek text (ps_off pst)))); [apply sim_err, U|].
        destruct Hn as (_ & ms & A & Hh & Hf & Ar & Ap).
        destruct (push_node grow (ms_mem st) (ms_prods st) _) as [m2 s2] eqn:E2.
        destruct (push_node_inv (ms_mem st) (ms_prods st) (ps_prods pst) ms A
                   (MNode builtinTerminal (Z.of_nat (ps_off pst)) (Z.of_nat (ps_off pst) + 1) nil_slice)
                   (Node builtinTerminal (Z.of_nat (ps_off pst)) (Z.of_nat (ps_off pst) + 1) []) [] m2 s2)
          as (Hn' & Eo & Eb); try assumption; [apply ti_leaf; reflexivity|].
        split; [|split; [exact Hn'|reflexivity]]. cbn.
        eapply ops_inv_nodes; [exact Ho1|apply Hn'|exact Eo].
      + cbn. auto.
      + cbn. auto.
  Qed.

  Lemma mrun_sim fuel : forall st pst, inv st pst ->
    match mrun grow mtbl msrc names fuel st with
    | (r, nm, m) =>
        nm = snd (run tbl text names fuel pst) /\ untouched m0 m /\
        same_result (length (m_nodes m0)) (m_nodes m) r (fst (run tbl text names fuel pst))
    end.
  Proof.
    induction fuel as [|fuel IH]; intros st pst Hinv; simpl.
    - split; [reflexivity|]. split; [apply Hinv|exact I].
    - pose proof (mstep_sim st pst Hinv) as S.
      destruct (mstep grow mtbl msrc names st) as [st'|mr nm m|p m],
               (step tbl text names pst) as [pst'|pr pn|q]; try contradiction.
      + apply IH, S.
      + destruct S as (-> & U & R). simpl. auto.
      + destruct S as (-> & U). simpl. auto.
  Qed.

  Lemma minit_inv m : untouched m0 m -> inv (minit grow m) init_state.
  Proof.
    intros U. unfold minit.
    assert (I0 : ops_inv m nil_slice []).
    { split; [exact U|]. split; [apply holds_nil_slice|left; reflexivity]. }
    destruct (push_op grow m nil_slice OpEOS) as [m1 s1] eqn:E1.
    destruct (push_op_inv _ _ _ _ _ _ I0 E1) as (I1 & N1 & B1).
    destruct (push_op grow m1 s1 (OpNonTerminal 0)) as [m2 s2] eqn:E2.
    destruct (push_op_inv _ _ _ _ _ _ I1 E2) as (I2 & N2 & B2).
    split; [exact I2|]. split; [|reflexivity]. cbn. split; [apply I2|].
    exists [], []. split; [apply holds_nil_slice|]. split; [constructor|].
    split; [split; constructor|left; reflexivity].
  Qed.
End Sim.

(** ** The whole call *)

Lemma table_in_untouched m m' mt t : untouched m m' -> table_in m mt t -> table_in m' mt t.
Proof.
  intros (U & _). induction 1 as [|[k mr] [k' r] mt t [Hk Hr] Ht IH]; constructor; [|exact IH].
  split; [exact Hk|]. cbn in *. clear -U Hr.
  induction Hr as [|[c s] [c' ops] mr r [Hc Hs] Hr IH]; constructor; [|exact IH].
  split; [exact Hc|]. eapply holds_untouched; [exact U|exact Hs].
Qed.

Lemma source_in_untouched m m' ms s : untouched m m' -> source_in m ms s -> source_in m' ms s.
Proof.
  intros (_ & _ & U). destruct ms as [| | |[x|]| |], s as [| | |[y|]| |]; simpl; auto;
    intros H; (eapply holds_untouched; [exact U|exact H]).
Qed.

Lemma tree_in_untouched m m' mn n A :
  untouched m m' -> tree_in (m_nodes m) mn n A -> tree_in (m_nodes m') mn n A.
Proof.
  intros (_ & U & _) H.
  revert mn n A H.
  apply (tree_in_mut (m_nodes m)
    (fun mn n A _ => tree_in (m_nodes m') mn n A) (fun ms ns A _ => forest_in (m_nodes m') ms ns A)).
  - intros. constructor. assumption.
  - intros t p q s ms ns A N Hh Hf IH. apply ti_node with (ms := ms); [assumption| |exact IH].
    eapply holds_untouched; [exact U|exact Hh].
  - constructor.
  - intros. constructor; assumption.
Qed.

Lemma alloc_bytes_untouched m arr : untouched m (set_bytes m (m_bytes m ++ [arr])).
Proof.
  repeat split; cbn; auto. intros a x H. rewrite nth_error_app1; [exact H|].
  apply nth_error_Some. congruence.
Qed.

Lemma readSource_sim m ms s : source_in m ms s ->
  match mreadSource m ms, readSource s with
  | (Ok sl, ms', m'), (Ok text, s') =>
      untouched m m' /\ m_nodes m' = m_nodes m /\ holds (m_bytes m') sl text /\ source_in m' ms' s'
  | (Err e, ms', m'), (Err e', s') => e = e' /\ m' = m /\ source_in m' ms' s'
  | _, _ => False
  end.
Proof.
  destruct ms as [|x|x|[x|]|x|], s as [|y|y|[y|]|y|]; simpl; intros H; try contradiction; auto.
  - subst y. split; [apply alloc_bytes_untouched|]. split; [reflexivity|].
    split; [apply holds_whole|reflexivity].
  - split; [apply untouched_refl|]. auto.
  - split; [apply untouched_refl|]. auto.
  - subst y. destruct (rd_end x); simpl.
    + auto.
    + split; [apply alloc_bytes_untouched|]. split; [reflexivity|].
      split; [apply holds_whole|reflexivity].
Qed.

Lemma table_in_0 m mt t : table_in m mt t ->
  match mt with
  | [] => t = []
  | _ :: _ => t <> [] /\
      match mtable_get 0 mt with None => table_get 0 t = None | Some _ => table_get 0 t <> None end
  end.
Proof.
  intros H. pose proof (table_get_in m mt t H 0) as G. destruct H; [reflexivity|].
  split; [discriminate|]. destruct (mtable_get 0 _), (table_get 0 _); try contradiction; congruence.
Qed.

Lemma mParse_sim grow fuel mt t names m ms s :
  table_in m mt t -> source_in m ms s ->
  let o := mParse grow fuel mt names m ms in
  let p := Parse fuel (NewLL1Parser t names) s in
  same_result (length (m_nodes m)) (m_nodes (mo_mem o)) (mo_result o) (po_result p) /\
  mo_names o = po_names p /\ source_in (mo_mem o) (mo_source o) (po_source p) /\
  untouched m (mo_mem o).
Proof.
  intros Ht Hs. cbv zeta. unfold mParse, Parse, NewLL1Parser. cbn [p_table p_names].
  pose proof (table_in_0 _ _ _ Ht) as G.
  destruct mt as [|r0 mt]; [subst t; cbn; repeat split; auto|].
  destruct G as [Nt G]. destruct t as [|r1 t]; [congruence|].
  destruct (mtable_get 0 (r0 :: mt)) as [mr|].
  2:{ rewrite G. cbn. repeat split; auto. }
  destruct (table_get 0 (r1 :: t)) as [r|]; [|congruence].
  pose proof (readSource_sim m ms s Hs) as R.
  destruct (mreadSource m ms) as [[[sl|e|p|] ms'] m1], (readSource s) as [[text|e'|p'|] s'];
    try contradiction.
  - destruct R as (U & En & Hh & Hs').
    pose proof (mrun_sim grow m1 (r0 :: mt) (r1 :: t) sl text names
                  (table_in_untouched _ _ _ _ U Ht) Hh fuel _ _
                  (minit_inv grow m1 m1 (untouched_refl m1))) as S.
    destruct (mrun grow (r0 :: mt) sl names fuel (minit grow m1)) as [[res nm] m2].
    destruct (run (r1 :: t) text names fuel init_state) as [pr pn].
    cbn in *. destruct S as (-> & U2 & S). rewrite En in S.
    split; [exact S|]. split; [reflexivity|]. split; [eapply source_in_untouched; eassumption|].
    eapply untouched_trans; eassumption.
  - destruct R as (-> & -> & Hs'). cbn. repeat split; auto.
Qed.

Lemma tree_writes base h h' mn n :
  fresh_tree base h mn n -> (forall a, base <= a -> nth_error h' a = nth_error h a) ->
  fresh_tree base h' mn n.
Proof.
  intros (A & Ht & Nd & Ar) F. exists A. split; [|split; [exact Nd|]].
  - eapply tree_frame; [exact Ht|]. intros a Ha. apply F. rewrite Forall_forall in Ar. apply Ar, Ha.
  - rewrite Forall_forall in *. intros a Ha. pose proof (Ar a Ha) as [L1 L2]. split; [exact L1|].
    apply nth_error_Some. rewrite F by exact L1. apply nth_error_Some. exact L2.
Qed.

Lemma NewParserOpList_sim grow m args ops :
  holds (m_ops m) args ops ->
  let (m', s) := mNewParserOpList grow m args in
  untouched m m' /\ holds (m_ops m') s ops /\ (sl_cap s = 0 \/ sl_arr s = length (m_ops m)).
Proof.
  intros H. unfold mNewParserOpList, slice_append. rewrite (holds_elems _ _ _ H).
  cbn [sl_len sl_cap sl_off sl_arr nil_slice Nat.add].
  destruct (Nat.leb_spec (length ops) 0) as [L|L].
  - destruct ops as [|o ops]; [|simpl in L; lia]. cbn. split; [repeat split; auto|].
    split; [|left; reflexivity]. destruct m. exact (holds_nil_slice _).
  - set (c := Nat.max (length ops) (grow (length ops))).
    assert (Hc : length ops <= c) by (unfold c; lia). clearbody c.
    assert (E : slice_elems (m_ops m) nil_slice = []).
    { unfold slice_elems. destruct (nth_error (m_ops m) (sl_arr nil_slice)); reflexivity. }
    change (mkSlice 0 0 0 0) with nil_slice. rewrite E. cbn [app].
    split; [|split; [|right; reflexivity]].
    + repeat split; cbn; auto. intros a x Ha. rewrite nth_error_app1; [exact Ha|].
      apply nth_error_Some. congruence.
    + cbn [m_ops set_ops]. split; [split; cbn [sl_len sl_cap sl_off sl_arr]; [exact Hc|]|].
      * right. eexists. rewrite nth_error_app2, Nat.sub_diag by lia. split; [reflexivity|].
        rewrite app_length, repeat_length. lia.
      * split; [reflexivity|]. intros i x Ex. unfold slice_get. cbn [sl_len sl_cap sl_off sl_arr].
        assert (i < length ops) as Hi by (apply nth_error_Some; congruence).
        destruct (Nat.ltb_spec i (length ops)); [|lia].
        rewrite (nth_error_app2 (m_ops m)), Nat.sub_diag by lia.
        change (nth_error (ops ++ repeat OpNil (c - length ops)) i = Some x).
        rewrite nth_error_app1 by exact Hi. exact Ex.
Qed.
