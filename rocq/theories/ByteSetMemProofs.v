(** * ByteSetMemProofs: the functions in memory compute what ByteSet.v says and
    write only to their own objects. *)
From Coq Require Import Sorting.Sorted.
From Verif Require Import Base ByteSet Spec_ByteSet ByteSetProofs Spec_SetVars ByteSetMem.

Lemma upd_length m : forall p o, length (upd_obj m p o) = length m.
Proof. induction m as [|x m IH]; intros [|p] o; simpl; auto. Qed.

Lemma upd_nth m : forall p o q,
  p < length m -> nth_error (upd_obj m p o) q = if Nat.eqb q p then Some o else nth_error m q.
Proof.
  induction m as [|x m IH]; intros [|p] o [|q] H; simpl in *; try lia; try reflexivity.
  apply IH. lia.
Qed.

Lemma upd_upd m : forall p o o', upd_obj (upd_obj m p o) p o' = upd_obj m p o'.
Proof. induction m as [|x m IH]; intros [|p] o o'; simpl; try reflexivity. f_equal. apply IH. Qed.

Lemma upd_end m o o' : upd_obj (m ++ [o]) (length m) o' = m ++ [o'].
Proof. induction m as [|x m IH]; simpl; [reflexivity|]. f_equal. exact IH. Qed.

Lemma nth_lt {A} (m : list A) p o : nth_error m p = Some o -> p < length m.
Proof. intros H. apply nth_error_Some. congruence. Qed.

Lemma nth_end {A} (m : list A) o : nth_error (m ++ [o]) (length m) = Some o.
Proof. rewrite nth_error_app2 by lia. rewrite Nat.sub_diag. reflexivity. Qed.

Lemma nth_app {A} (m m' : list A) p o : nth_error m p = Some o -> nth_error (m ++ m') p = Some o.
Proof. intros H. rewrite nth_error_app1; [exact H|]. exact (nth_lt _ _ _ H). Qed.

Lemma load_at m p o i : nth_error m p = Some o -> sm_load p i m = Some (bs_get o i, m).
Proof. intros H. unfold sm_load. rewrite H. reflexivity. Qed.

Lemma store_at m p o i w :
  nth_error m p = Some o -> sm_store p i w m = Some (tt, upd_obj m p (bs_put o i w)).
Proof. intros H. unfold sm_store. rewrite H. reflexivity. Qed.

Lemma upd_at m p o o' : nth_error m p = Some o -> nth_error (upd_obj m p o') p = Some o'.
Proof. intros H. rewrite upd_nth by exact (nth_lt _ _ _ H). rewrite Nat.eqb_refl. reflexivity. Qed.

Lemma assign_at m p q o o' :
  nth_error m p = Some o' -> nth_error m q = Some o ->
  sm_assign p q m = Some (tt, upd_obj m p o).
Proof.
  intros Hp Hq. unfold sm_assign, sm_bind. rewrite !(load_at m q o _ Hq).
  rewrite (store_at m p o' _ _ Hp).
  erewrite store_at by (eapply upd_at; exact Hp). rewrite upd_upd.
  erewrite store_at by (eapply upd_at; exact Hp). rewrite upd_upd.
  erewrite store_at by (eapply upd_at; exact Hp). rewrite upd_upd.
  destruct o as [d0 d1 d2 d3]. reflexivity.
Qed.

Lemma by_value_at m q o :
  nth_error m q = Some o -> sm_by_value q m = Some (length m, m ++ [o]).
Proof.
  intros Hq. unfold sm_by_value, sm_bind, sm_alloc.
  rewrite (assign_at (m ++ [bs_empty]) (length m) q o bs_empty (nth_end _ _) (nth_app _ _ _ _ Hq)).
  rewrite upd_end. reflexivity.
Qed.

Lemma add_at m p o v :
  nth_error m p = Some o -> sm_add p v m = Some (tt, upd_obj m p (bs_add o v)).
Proof.
  intros H. unfold sm_add, sm_bind. rewrite (load_at _ _ _ _ H), (store_at _ _ _ _ _ H).
  reflexivity.
Qed.

Lemma remove_at m p o v :
  nth_error m p = Some o -> sm_remove p v m = Some (tt, upd_obj m p (bs_remove o v)).
Proof.
  intros H. unfold sm_remove, sm_bind. rewrite (load_at _ _ _ _ H), (store_at _ _ _ _ _ H).
  reflexivity.
Qed.

Lemma add_all_at values : forall m p o,
  nth_error m p = Some o ->
  sm_add_all p values m = Some (tt, upd_obj m p (fold_left bs_add values o)).
Proof.
  induction values as [|v l IH]; intros m p o H; simpl.
  - unfold sm_ret. do 2 f_equal. revert p H.
    induction m as [|x m IHm]; intros [|p] H; simpl in *; try discriminate.
    + injection H as ->. reflexivity.
    + f_equal. apply IHm, H.
  - unfold sm_bind. rewrite (add_at _ _ _ _ H).
    rewrite (IH _ _ _ (upd_at _ _ _ _ H)), upd_upd. reflexivity.
Qed.

Lemma new_at m values : sm_new values m = Some (length m, m ++ [bs_new values]).
Proof.
  unfold sm_new, sm_bind, sm_alloc.
  rewrite (add_all_at values _ _ _ (nth_end m bs_empty)), upd_end. reflexivity.
Qed.

Lemma contains_at m q o v :
  nth_error m q = Some o -> sm_contains q v m = Some (bs_contains o v, m ++ [o]).
Proof.
  intros H. unfold sm_contains, sm_bind. rewrite (by_value_at _ _ _ H).
  rewrite (load_at _ _ _ _ (nth_end m o)). reflexivity.
Qed.

Lemma load_words m p o :
  nth_error m p = Some o ->
  sm_load p 0 m = Some (data0 o, m) /\ sm_load p 1 m = Some (data1 o, m) /\
  sm_load p 2 m = Some (data2 o, m) /\ sm_load p 3 m = Some (data3 o, m).
Proof. intros H. rewrite !(load_at _ _ _ _ H). repeat split. Qed.

Lemma bind_some {A B} (x : SM A) (f : A -> SM B) m a m' :
  x m = Some (a, m') -> sm_bind x f m = f a m'.
Proof. intros H. unfold sm_bind. rewrite H. reflexivity. Qed.

Lemma of_some {A} (x : option A) a m : x = Some a -> sm_of x m = Some (a, m).
Proof. intros ->. reflexivity. Qed.

Lemma len_parts o n :
  bs_len o = Some n ->
  exists a b c d, popCount (data0 o) = Some a /\ popCount (data1 o) = Some b /\
    popCount (data2 o) = Some c /\ popCount (data3 o) = Some d /\ n = 0 + a + b + c + d.
Proof.
  unfold bs_len.
  generalize (popCount (data0 o)), (popCount (data1 o)), (popCount (data2 o)),
    (popCount (data3 o)).
  intros [a|] [b|] [c|] [d|] H; try discriminate. injection H as <-.
  exists a, b, c, d. auto.
Qed.

Lemma len_at m q o n :
  nth_error m q = Some o -> bs_len o = Some n -> sm_len q m = Some (n, m ++ [o]).
Proof.
  intros H Hn. destruct (len_parts o n Hn) as (a & b & c & d & Ea & Eb & Ec & Ed & ->).
  destruct (load_words _ _ _ (nth_end m o)) as (L0 & L1 & L2 & L3).
  unfold sm_len. rewrite (bind_some _ _ _ _ _ (by_value_at _ _ _ H)).
  rewrite (bind_some _ _ _ _ _ L0), (bind_some _ _ _ _ _ (of_some _ _ _ Ea)).
  rewrite (bind_some _ _ _ _ _ L1), (bind_some _ _ _ _ _ (of_some _ _ _ Eb)).
  rewrite (bind_some _ _ _ _ _ L2), (bind_some _ _ _ _ _ (of_some _ _ _ Ec)).
  rewrite (bind_some _ _ _ _ _ L3), (bind_some _ _ _ _ _ (of_some _ _ _ Ed)).
  reflexivity.
Qed.

Lemma opt_chain {A B} (x : option A) (f : A -> option B) b :
  match x with None => None | Some a => f a end = Some b -> exists a, x = Some a /\ f a = Some b.
Proof. destruct x as [a|]; [|discriminate]. intros H. exists a. auto. Qed.

Lemma bytes_parts o l :
  bs_bytes o = Some l ->
  exists r0 r1 r2, realBytes 64 (data0 o) 0 [] = Some r0 /\
    realBytes 64 (data1 o) 64 r0 = Some r1 /\ realBytes 64 (data2 o) 128 r1 = Some r2 /\
    realBytes 64 (data3 o) 192 r2 = Some l.
Proof.
  unfold bs_bytes. intros H.
  destruct (opt_chain _ _ _ H) as (r0 & E0 & H0).
  destruct (opt_chain _ _ _ H0) as (r1 & E1 & H1).
  destruct (opt_chain _ _ _ H1) as (r2 & E2 & H2).
  exists r0, r1, r2. auto.
Qed.

Lemma walk_at m q o l :
  nth_error m q = Some o -> bs_bytes o = Some l -> sm_walk q m = Some (l, m ++ [o]).
Proof.
  intros H Hn. destruct (bytes_parts o l Hn) as (r0 & r1 & r2 & E0 & E1 & E2 & E3).
  destruct (load_words _ _ _ (nth_end m o)) as (L0 & L1 & L2 & L3).
  unfold sm_walk. rewrite (bind_some _ _ _ _ _ (by_value_at _ _ _ H)).
  rewrite (bind_some _ _ _ _ _ L0), (bind_some _ _ _ _ _ (of_some _ _ _ E0)).
  rewrite (bind_some _ _ _ _ _ L1), (bind_some _ _ _ _ _ (of_some _ _ _ E1)).
  rewrite (bind_some _ _ _ _ _ L2), (bind_some _ _ _ _ _ (of_some _ _ _ E2)).
  rewrite (bind_some _ _ _ _ _ L3). apply of_some, E3.
Qed.

Lemma bytes_at m q o l :
  nth_error m q = Some o -> bs_bytes o = Some l -> sm_bytes q m = Some (l, (m ++ [o]) ++ [o]).
Proof.
  intros H Hn. unfold sm_bytes, sm_bind. rewrite (by_value_at _ _ _ H).
  apply walk_at; [apply nth_end|exact Hn].
Qed.

Definition text_of (bs : list ascii) : bytes :=
  let sb := fold_left (fun sb b => sb ++ hex2 b ++ s2b " ") bs (s2b "[") in
  let c := fold_left (fun c b => c + List.length (hex2 b ++ s2b " ")) bs 0 in
  if Nat.eqb c 0 then s2b "[]" else set_last sb "]"%char.

Lemma if_some {A} (b : bool) (x y : A) : (if b then Some x else Some y) = Some (if b then x else y).
Proof. destruct b; reflexivity. Qed.

Lemma string_parts o l :
  bs_string o = Some l -> exists bs, bs_bytes o = Some bs /\ l = text_of bs.
Proof.
  unfold bs_string. intros H. destruct (opt_chain _ _ _ H) as (bs & E & H1).
  exists bs. split; [exact E|]. cbv zeta in H1. rewrite if_some in H1. injection H1 as <-.
  reflexivity.
Qed.

Lemma string_at m q o l :
  nth_error m q = Some o -> bs_string o = Some l -> sm_string q m = Some (l, (m ++ [o]) ++ [o]).
Proof.
  intros H Hn. destruct (string_parts o l Hn) as (bs & Eb & ->).
  unfold sm_string. rewrite (bind_some _ _ _ _ _ (by_value_at _ _ _ H)).
  rewrite (bind_some _ _ _ _ _ (walk_at _ _ _ _ (nth_end m o) Eb)). reflexivity.
Qed.

Lemma two_copies m q r a b :
  nth_error m q = Some a -> nth_error m r = Some b ->
  sm_by_value q m = Some (length m, m ++ [a]) /\
  sm_by_value r (m ++ [a]) = Some (length (m ++ [a]), (m ++ [a]) ++ [b]) /\
  nth_error ((m ++ [a]) ++ [b]) (length m) = Some a /\
  nth_error ((m ++ [a]) ++ [b]) (length (m ++ [a])) = Some b.
Proof.
  intros Hq Hr. split; [apply by_value_at, Hq|].
  split; [apply by_value_at, nth_app, Hr|]. split; [|apply nth_end].
  apply nth_app, nth_end.
Qed.

Lemma union_at m q r a b :
  nth_error m q = Some a -> nth_error m r = Some b ->
  sm_union q r m = Some (length ((m ++ [a]) ++ [b]), ((m ++ [a]) ++ [b]) ++ [bs_union a b]).
Proof.
  intros Hq Hr. destruct (two_copies m q r a b Hq Hr) as (C1 & C2 & N1 & N2).
  unfold sm_union, sm_bind. rewrite C1, C2. unfold sm_alloc.
  set (M := (m ++ [a]) ++ [b]) in *.
  assert (L : forall o i, sm_load (length m) i (M ++ [o]) = Some (bs_get a i, M ++ [o])).
  { intros o i. apply load_at, nth_app, N1. }
  assert (L' : forall o i, sm_load (length (m ++ [a])) i (M ++ [o]) = Some (bs_get b i, M ++ [o])).
  { intros o i. apply load_at, nth_app, N2. }
  assert (St : forall o i w, sm_store (length M) i w (M ++ [o]) = Some (tt, M ++ [bs_put o i w])).
  { intros o i w. rewrite (store_at _ _ _ _ _ (nth_end M o)), upd_end. reflexivity. }
  rewrite L, L', St, L, L', St, L, L', St, L, L', St.
  destruct a as [a0 a1 a2 a3], b as [b0 b1 b2 b3]. reflexivity.
Qed.

Lemma words_and (m : smem) (f : N -> bool) (word : N -> SM bool) :
  (forall i, word i m = Some (f i, m)) ->
  sm_and (sm_and (sm_and (word 0%N) (word 1%N)) (word 2%N)) (word 3%N) m
  = Some (f 0%N && f 1%N && f 2%N && f 3%N, m).
Proof.
  intros H. unfold sm_and, sm_bind, sm_ret. rewrite (H 0%N).
  destruct (f 0%N); simpl; [rewrite (H 1%N)|reflexivity].
  destruct (f 1%N); simpl; [rewrite (H 2%N)|reflexivity].
  destruct (f 2%N); simpl; [rewrite (H 3%N)|reflexivity]. reflexivity.
Qed.

Lemma equal_at m q r a b :
  nth_error m q = Some a -> nth_error m r = Some b ->
  sm_equal q r m = Some (bs_equal a b, (m ++ [a]) ++ [b]).
Proof.
  intros Hq Hr. destruct (two_copies m q r a b Hq Hr) as (C1 & C2 & N1 & N2).
  unfold sm_equal. unfold sm_bind at 1. rewrite C1. unfold sm_bind at 1. rewrite C2.
  cbv zeta.
  rewrite (words_and _ (fun i => (bs_get a i =? bs_get b i)%N)
             (fun i => sm_bind (sm_load (length m) i) (fun x =>
                       sm_bind (sm_load (length (m ++ [a])) i) (fun y => sm_ret (x =? y)%N)))).
  - reflexivity.
  - intros i. unfold sm_bind. rewrite (load_at _ _ _ _ N1), (load_at _ _ _ _ N2). reflexivity.
Qed.

Lemma subset_at m q r a b :
  nth_error m q = Some a -> nth_error m r = Some b ->
  sm_is_subset q r m = Some (bs_is_subset a b, (m ++ [a]) ++ [b]).
Proof.
  intros Hq Hr. destruct (two_copies m q r a b Hq Hr) as (C1 & C2 & N1 & N2).
  unfold sm_is_subset. unfold sm_bind at 1. rewrite C1. unfold sm_bind at 1. rewrite C2.
  cbv zeta.
  rewrite (words_and _ (fun i => (N.land (bs_get a i) (bs_get b i) =? bs_get a i)%N)
             (fun i => sm_bind (sm_load (length m) i) (fun x =>
                       sm_bind (sm_load (length (m ++ [a])) i)
                         (fun y => sm_ret (N.land x y =? x)%N)))).
  - reflexivity.
  - intros i. unfold sm_bind. rewrite (load_at _ _ _ _ N1), (load_at _ _ _ _ N2). reflexivity.
Qed.

Lemma superset_at m q r a b :
  nth_error m q = Some a -> nth_error m r = Some b ->
  exists extra, sm_is_superset q r m = Some (bs_is_superset a b, m ++ extra).
Proof.
  intros Hq Hr. destruct (two_copies m q r a b Hq Hr) as (C1 & C2 & N1 & N2).
  unfold sm_is_superset. unfold sm_bind at 1. rewrite C1. unfold sm_bind at 1. rewrite C2.
  rewrite (subset_at _ _ _ _ _ N2 N1). unfold bs_is_superset.
  eexists. do 2 f_equal. rewrite <- !app_assoc. reflexivity.
Qed.

(** ** The answers *)

Lemma in_all_bytes b : In b all_bytes.
Proof.
  unfold all_bytes. apply in_map_iff. exists (N.to_nat (code b)).
  rewrite N2Nat.id. split; [apply b8_code|]. apply in_seq. pose proof (code_lt b). lia.
Qed.

Lemma all_bytes_increasing : increasing all_bytes.
Proof.
  unfold all_bytes, increasing.
  apply (ssorted_map lt).
  - assert (G : forall n k, StronglySorted lt (seq k n)).
    { induction n as [|n IH]; intros k; simpl; constructor; [apply IH|].
      apply Forall_forall. intros x Hx. apply in_seq in Hx. lia. }
    apply G.
  - intros x y Hx Hy Hxy. apply in_seq in Hx, Hy. rewrite !code_b8 by lia. lia.
Qed.

Lemma filter_increasing f l : increasing l -> increasing (filter f l).
Proof.
  unfold increasing. induction 1 as [|a l Hs IH Hf]; simpl; [constructor|].
  destruct (f a); [|exact IH]. constructor; [exact IH|].
  rewrite Forall_forall in *. intros x Hx. apply filter_In in Hx. apply Hf. tauto.
Qed.

Lemma members_unique (s : math_set) l :
  increasing l -> (forall c, In c l <-> s c = true) -> l = members s.
Proof.
  intros Hl Hin. apply ssorted_unique.
  - exact Hl.
  - apply filter_increasing, all_bytes_increasing.
  - intros c. rewrite Hin. unfold members. rewrite filter_In.
    split; [intros H; split; [apply in_all_bytes|exact H]|tauto].
Qed.

Lemma incl_b_spec s t : incl_b s t = true <-> forall b, s b = true -> t b = true.
Proof.
  unfold incl_b. rewrite forallb_forall. split.
  - intros H b Hb. specialize (H b (in_all_bytes b)). rewrite Hb in H. exact H.
  - intros H b _. specialize (H b). destruct (s b); [rewrite H; reflexivity|reflexivity].
Qed.

(** ** The simulation *)

(** Every declared variable's object holds its mathematical set. *)
Definition holds (n : nat) (v : sets) (m : smem) : Prop :=
  n <= length m /\
  forall x, x < n -> exists o, nth_error m x = Some o /\ bs_wf o /\ forall b, bs_contains o b = v x b.

Lemma holds_app n v m m' : holds n v m -> holds n v (m ++ m').
Proof.
  intros [L H]. split; [rewrite app_length; lia|]. intros x Hx.
  destruct (H x Hx) as (o & Ho & R). exists o. split; [apply nth_app, Ho|exact R].
Qed.

Lemma holds_upd n v m x o s :
  holds n v m -> x < n -> bs_wf o -> (forall b, bs_contains o b = s b) ->
  holds n (put_set v x s) (upd_obj m x o).
Proof.
  intros [L H] Hx Hw Hc. split; [rewrite upd_length; exact L|]. intros y Hy.
  unfold put_set. rewrite upd_nth by lia. destruct (Nat.eqb y x).
  - exists o. auto.
  - apply H, Hy.
Qed.

(** A statement leaves the objects of the variables it does not change alone. *)
Definition untouched (n : nat) (c : set_stmt) (m m' : smem) : Prop :=
  forall x, x < n -> changes c x = false -> nth_error m' x = nth_error m x.

Lemma untouched_app n c m m' : n <= length m -> untouched n c m (m ++ m').
Proof. intros L x Hx _. apply nth_error_app1. lia. Qed.

Lemma step_ok n v m c :
  holds n v m -> (forall x, In x (mentions c) -> x < n) ->
  exists m', sm_stmt c m = Some (snd (set_meaning v c), m') /\
             holds n (fst (set_meaning v c)) m' /\ untouched n c m m'.
Proof.
  intros Hm Hd. pose proof Hm as [L H].
  assert (V : forall x, In x (mentions c) ->
    exists o, nth_error m x = Some o /\ bs_wf o /\ forall b, bs_contains o b = v x b).
  { intros x Hx. apply H, Hd, Hx. }
  assert (U : forall x m' o, x < n -> (forall y, changes c y = Nat.eqb y x) ->
    untouched n c m (upd_obj (m ++ m') x o)).
  { intros x m' o Hx Hc y Hy Hf. rewrite Hc in Hf.
    rewrite upd_nth by (rewrite app_length; lia). rewrite Hf. apply nth_error_app1. lia. }
  destruct c as [x vs|x y|x b|x b|x y z|x b|x|x|x|x y|x y|x y];
    cbn [sm_stmt set_meaning fst snd]; unfold sm_bind at 1.
  - destruct (V x) as (o & Ho & Hw & Hc); [left; reflexivity|].
    rewrite new_at. unfold sm_bind.
    rewrite (assign_at _ _ _ _ _ (nth_app m [bs_new vs] _ _ Ho) (nth_end m (bs_new vs))).
    eexists. split; [reflexivity|]. split.
    + apply holds_upd; [apply holds_app, Hm|apply Hd; left; reflexivity|apply new_wf|].
      intros b. apply contains_new.
    + apply U; [apply Hd; left; reflexivity|reflexivity].
  - destruct (V x) as (o & Ho & Hw & Hc); [left; reflexivity|].
    destruct (V y) as (o' & Ho' & Hw' & Hc'); [right; left; reflexivity|].
    rewrite (assign_at _ _ _ _ _ Ho Ho').
    eexists. split; [reflexivity|]. split.
    + apply holds_upd; [exact Hm|apply Hd; left; reflexivity|exact Hw'|exact Hc'].
    + specialize (U x [] o'). rewrite app_nil_r in U.
      apply U; [apply Hd; left; reflexivity|reflexivity].
  - destruct (V x) as (o & Ho & Hw & Hc); [left; reflexivity|].
    rewrite (add_at _ _ _ _ Ho).
    eexists. split; [reflexivity|]. split.
    + apply holds_upd; [exact Hm|apply Hd; left; reflexivity|apply add_wf, Hw|].
      intros b'. rewrite contains_add, Hc. reflexivity.
    + specialize (U x [] (bs_add o b)). rewrite app_nil_r in U.
      apply U; [apply Hd; left; reflexivity|reflexivity].
  - destruct (V x) as (o & Ho & Hw & Hc); [left; reflexivity|].
    rewrite (remove_at _ _ _ _ Ho).
    eexists. split; [reflexivity|]. split.
    + apply holds_upd; [exact Hm|apply Hd; left; reflexivity|apply remove_wf, Hw|].
      intros b'. rewrite contains_remove, Hc. reflexivity.
    + specialize (U x [] (bs_remove o b)). rewrite app_nil_r in U.
      apply U; [apply Hd; left; reflexivity|reflexivity].
  - destruct (V x) as (o & Ho & Hw & Hc); [left; reflexivity|].
    destruct (V y) as (o1 & Ho1 & Hw1 & Hc1); [right; left; reflexivity|].
    destruct (V z) as (o2 & Ho2 & Hw2 & Hc2); [right; right; left; reflexivity|].
    rewrite (union_at _ _ _ _ _ Ho1 Ho2). unfold sm_bind.
    rewrite (assign_at _ _ _ _ _
               (nth_app _ [bs_union o1 o2] _ _ (nth_app _ [o2] _ _ (nth_app m [o1] _ _ Ho)))
               (nth_end _ (bs_union o1 o2))).
    eexists. split; [reflexivity|]. split.
    + apply holds_upd; [apply holds_app, holds_app, holds_app, Hm
                       |apply Hd; left; reflexivity|apply union_wf; assumption|].
      intros b. rewrite contains_union, Hc1, Hc2. reflexivity.
    + rewrite <- !app_assoc. apply U; [apply Hd; left; reflexivity|reflexivity].
  - destruct (V x) as (o & Ho & Hw & Hc); [left; reflexivity|].
    rewrite (contains_at _ _ _ _ Ho), Hc.
    eexists. split; [reflexivity|]. split; [apply holds_app, Hm|apply untouched_app, L].
  - destruct (V x) as (o & Ho & Hw & Hc); [left; reflexivity|].
    destruct (bytes_spec o Hw) as (l & Hl & Hs & Hin).
    assert (El : l = members (v x)).
    { apply members_unique; [exact Hs|]. intros c. rewrite Hin, Hc. tauto. }
    rewrite (len_at _ _ _ _ Ho (len_bytes _ _ Hw Hl)), El.
    eexists. split; [reflexivity|]. split; [apply holds_app, Hm|apply untouched_app, L].
  - destruct (V x) as (o & Ho & Hw & Hc); [left; reflexivity|].
    destruct (bytes_spec o Hw) as (l & Hl & Hs & Hin).
    assert (El : l = members (v x)).
    { apply members_unique; [exact Hs|]. intros c. rewrite Hin, Hc. tauto. }
    rewrite (bytes_at _ _ _ _ Ho Hl), El, <- app_assoc.
    eexists. split; [reflexivity|]. split; [apply holds_app, Hm|apply untouched_app, L].
  - destruct (V x) as (o & Ho & Hw & Hc); [left; reflexivity|].
    destruct (string_spec o Hw) as (l & Hs & Hin & Hl).
    assert (El : l = members (v x)).
    { apply members_unique; [exact Hs|]. intros c. rewrite Hin, Hc. tauto. }
    rewrite (string_at _ _ _ _ Ho Hl), El, <- app_assoc.
    eexists. split; [reflexivity|]. split; [apply holds_app, Hm|apply untouched_app, L].
  - destruct (V x) as (o & Ho & Hw & Hc); [left; reflexivity|].
    destruct (V y) as (o' & Ho' & Hw' & Hc'); [right; left; reflexivity|].
    rewrite (equal_at _ _ _ _ _ Ho Ho').
    assert (Ea : bs_equal o o' = incl_b (v x) (v y) && incl_b (v y) (v x)).
    { apply eq_true_iff_eq. rewrite andb_true_iff, !incl_b_spec, equal_spec by assumption.
      split.
      - intros K. split; intros b Hb; specialize (K b); rewrite Hc, Hc' in K; congruence.
      - intros [K1 K2] b. rewrite Hc, Hc'. apply eq_true_iff_eq. split; [apply K1|apply K2]. }
    rewrite Ea, <- app_assoc.
    eexists. split; [reflexivity|]. split; [apply holds_app, Hm|apply untouched_app, L].
  - destruct (V x) as (o & Ho & Hw & Hc); [left; reflexivity|].
    destruct (V y) as (o' & Ho' & Hw' & Hc'); [right; left; reflexivity|].
    rewrite (subset_at _ _ _ _ _ Ho Ho').
    assert (Ea : bs_is_subset o o' = incl_b (v x) (v y)).
    { apply eq_true_iff_eq. rewrite incl_b_spec, subset_spec by assumption.
      split; intros K b; specialize (K b); rewrite Hc, Hc' in *; exact K. }
    rewrite Ea, <- app_assoc.
    eexists. split; [reflexivity|]. split; [apply holds_app, Hm|apply untouched_app, L].
  - destruct (V x) as (o & Ho & Hw & Hc); [left; reflexivity|].
    destruct (V y) as (o' & Ho' & Hw' & Hc'); [right; left; reflexivity|].
    destruct (superset_at _ _ _ _ _ Ho Ho') as (extra & ->).
    assert (Ea : bs_is_superset o o' = incl_b (v y) (v x)).
    { unfold bs_is_superset. apply eq_true_iff_eq. rewrite incl_b_spec, subset_spec by assumption.
      split; intros K b; specialize (K b); rewrite Hc, Hc' in *; exact K. }
    rewrite Ea.
    eexists. split; [reflexivity|]. split; [apply holds_app, Hm|apply untouched_app, L].
Qed.

Lemma run_ok n p : forall v m,
  holds n v m -> declared n p ->
  exists m', sm_run p m = Some (set_output v p, m') /\ n <= length m' /\
             exists v', holds n v' m'.
Proof.
  induction p as [|c p IH]; intros v m Hm Hd; simpl.
  - exists m. split; [reflexivity|]. split; [apply Hm|]. exists v. exact Hm.
  - destruct (step_ok n v m c Hm) as (m1 & E & Hm1 & _).
    { intros x Hx. apply (Hd c x); [left; reflexivity|exact Hx]. }
    destruct (set_meaning v c) as [v1 a] eqn:Ec. cbn [fst snd] in *.
    destruct (IH v1 m1 Hm1) as (m2 & E2 & L2 & K2).
    { intros c' x Hc' Hx. apply (Hd c' x); [right; exact Hc'|exact Hx]. }
    exists m2. unfold sm_bind. rewrite E, E2. split; [reflexivity|]. auto.
Qed.

Lemma vars_hold n : holds n no_sets (sm_vars n).
Proof.
  unfold sm_vars. split; [rewrite repeat_length; lia|]. intros x Hx. exists bs_empty.
  split; [|split; [apply empty_wf|apply contains_empty]].
  rewrite nth_error_repeat by exact Hx. reflexivity.
Qed.

Lemma program_ok n p :
  declared n p -> exists m, sm_run p (sm_vars n) = Some (set_output no_sets p, m).
Proof.
  intros Hd. destruct (run_ok n p _ _ (vars_hold n) Hd) as (m & E & _). exists m. exact E.
Qed.

Lemma program_frame n p c :
  declared n (p ++ [c]) ->
  exists out m m' a,
    sm_run p (sm_vars n) = Some (out, m) /\ sm_stmt c m = Some (a, m') /\
    forall x, x < n -> changes c x = false -> nth_error m' x = nth_error m x /\ x < length m.
Proof.
  intros Hd. destruct (run_ok n p _ _ (vars_hold n)) as (m & E & L & v & Hv).
  { intros c' x Hc' Hx. apply (Hd c' x); [apply in_or_app; left; exact Hc'|exact Hx]. }
  destruct (step_ok n v m c Hv) as (m' & Ec & _ & Hu).
  { intros x Hx. apply (Hd c x); [apply in_or_app; right; left; reflexivity|exact Hx]. }
  exists (set_output no_sets p), m, m', (snd (set_meaning v c)).
  split; [exact E|]. split; [exact Ec|]. intros x Hx Hc. split; [apply Hu; assumption|lia].
Qed.
