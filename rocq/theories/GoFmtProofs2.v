(** * GoFmtProofs2: the texts of tables, trees and naming maps. *)
From Verif Require Import Base Cst Parser FromCst ByteSetProofs GoFmt GoFmtProofs ConvertProofs ParserProofs Spec_Messages MessagesProofs.
From Coq Require Import Sorting.Sorted Sorting.Permutation.

(** ** Lists in brackets *)
Definition readable {A} (P : A -> Prop) (show : A -> bytes) : Prop :=
  forall a a' x x', P a -> P a' -> show a ++ x = show a' ++ x' -> a = a' /\ x = x'.

Section Joined.
  Context {A : Type} (P : A -> Prop) (show : A -> bytes) (d c : ascii) (sep : bytes).
  Hypothesis R : readable P show.
  Hypothesis Dc : d <> c.
  Hypothesis Start : forall a x y, P a -> show a ++ x <> c :: y.

  Lemma tail_read l : forall l' x x', Forall P l -> Forall P l' ->
    flat_map (fun y => (d :: sep) ++ y) (map show l) ++ c :: x =
    flat_map (fun y => (d :: sep) ++ y) (map show l') ++ c :: x' -> l = l' /\ x = x'.
  Proof using R Dc.
    induction l as [|a l IH]; intros [|a' l'] x x' F F' E; cbn [map flat_map app] in E.
    - injection E as ->. auto.
    - injection E as E _. congruence.
    - injection E as E _. congruence.
    - injection E as E. rewrite <- !app_assoc in E. apply app_inv_head in E.
      inversion F; inversion F'; subst. rewrite <- ?app_assoc in E.
      destruct (R a a' _ _ ltac:(assumption) ltac:(assumption) E) as [-> E'].
      destruct (IH l' x x') as [-> ->]; auto.
  Qed.

  Lemma joined_read l l' x x' : Forall P l -> Forall P l' ->
    joined (d :: sep) (map show l) ++ c :: x = joined (d :: sep) (map show l') ++ c :: x' -> l = l' /\ x = x'.
  Proof using R Dc Start.
    destruct l as [|a l], l' as [|a' l']; intros F F' E; cbn [map joined] in E.
    - injection E as ->. auto.
    - exfalso. rewrite <- app_assoc in E. cbn [app] in E. inversion F'; subst. symmetry in E. revert E. apply Start. assumption.
    - exfalso. rewrite <- app_assoc in E. cbn [app] in E. inversion F; subst. revert E. apply Start. assumption.
    - rewrite <- !app_assoc in E. inversion F; inversion F'; subst.
      destruct (R a a' _ _ ltac:(assumption) ltac:(assumption) E) as [-> E'].
      destruct (tail_read l l' x x') as [-> ->]; auto.
  Qed.
End Joined.

Lemma no_digit_by c : (code c < 48)%N \/ (57 < code c)%N -> no_digit c.
Proof. intros H D%digit_code. lia. Qed.
Ltac nodigit := apply no_digit_by; vm_compute; auto.

Lemma dec_Z_start z x c y : (code c < 45)%N \/ (57 < code c)%N -> dec_Z z ++ x <> c :: y.
Proof.
  intros H E. pose proof (dec_Z_integer z) as I. revert I E. generalize (dec_Z z). intros t I E.
  destruct I as [n t D|n t Pn D].
  - destruct (decimal_cons _ _ D) as (k & t' & -> & L). injection E as E _.
    assert (C : code c = (48 + N.of_nat k)%N) by (rewrite <- E; apply code_b8; lia). lia.
  - injection E as E _. rewrite <- E in H. vm_compute in H. destruct H; discriminate.
Qed.

Section Table.
  Variable isprint : N -> bool.
  Variable del_u : bool.

  Definition public (op : ParserOp) : Prop := op_public op = true.

  Lemma op_read : readable public (GoOp isprint del_u).
  Proof.
    intros [n|v|? ? ?| |?| |?] [n'|v'|? ? ?| |?| |?] x x' H H'; try discriminate H; try discriminate H'; cbn [GoOp].
    - rewrite <- !app_assoc. intros E. apply app_inv_head in E.
      apply dec_Z_prefix in E as [-> E]; [|nodigit|nodigit]. injection E as ->. auto.
    - intros E. cbn in E. discriminate E.
    - intros E. cbn in E. discriminate E.
    - rewrite <- !app_assoc. intros E. apply app_inv_head in E.
      apply Quote_prefix in E as [-> E]. injection E as ->. auto.
  Qed.

  Definition CellP (ops : list ParserOp) : Prop := Forall public ops.
  Lemma cell_read : readable CellP (GoCell isprint del_u).
  Proof.
    intros a a' x x' H H'. unfold GoCell. rewrite <- !app_assoc. intros E. apply app_inv_head in E.
    refine (joined_read public (GoOp isprint del_u) ","%char "}"%char [" "%char] op_read _ _ a a' x x' H H' E); [discriminate|].
    intros op y z Hp. destruct op; try discriminate Hp; cbn; intros E'; discriminate E'.
  Qed.

  Definition EntryP (e : ascii * list ParserOp) : Prop := CellP (snd e).
  Definition show_cell_entry (e : ascii * list ParserOp) : bytes := fmt0x (fst e) ++ s2b ":" ++ GoCell isprint del_u (snd e).
  Lemma cell_entry_read : readable EntryP show_cell_entry.
  Proof.
    intros [c ops] [c' ops'] x x' H H'. unfold show_cell_entry. cbn [fst snd]. rewrite <- !app_assoc. intros E.
    apply fmt0x_prefix in E as [-> E]; [|reflexivity|reflexivity].
    apply (app_inv_head (s2b ":")) in E. apply cell_read in E as [-> ->]; [auto|exact H|exact H'].
  Qed.

  Definition show_entries (l : list (ascii * list ParserOp)) : bytes :=
    s2b "map[uint8][]parser.ParserOp{" ++ joined (s2b ", ") (map show_cell_entry l) ++ s2b "}".
  Definition RowP (l : list (ascii * list ParserOp)) : Prop := Forall EntryP l.
  Lemma row_read : readable RowP show_entries.
  Proof.
    intros a a' x x' H H'. unfold show_entries. rewrite <- !app_assoc. intros E. apply app_inv_head in E.
    refine (joined_read EntryP show_cell_entry ","%char "}"%char [" "%char] cell_entry_read _ _ a a' x x' H H' E); [discriminate|].
    intros e y z Hp E'. cbn in E'. discriminate E'.
  Qed.

  Definition TEntryP (e : Z * list (ascii * list ParserOp)) : Prop := RowP (snd e).
  Definition show_row_entry (e : Z * list (ascii * list ParserOp)) : bytes := dec_Z (fst e) ++ s2b ":" ++ show_entries (snd e).
  Lemma row_entry_read : readable TEntryP show_row_entry.
  Proof.
    intros [n l] [n' l'] x x' H H'. unfold show_row_entry. cbn [fst snd]. rewrite <- !app_assoc. intros E.
    apply dec_Z_prefix in E as [-> E]; [|nodigit|nodigit].
    apply (app_inv_head (s2b ":")) in E. apply row_read in E as [-> ->]; [auto|exact H|exact H'].
  Qed.


  Definition table_form (tbl : table) : list (Z * list (ascii * list ParserOp)) :=
    map (fun e => (fst e, row_entries (snd e))) (entries tbl).
  Lemma GoTable_form tbl : GoTable isprint del_u tbl =
    s2b "map[int]map[uint8][]parser.ParserOp{" ++ joined (s2b ", ") (map show_row_entry (table_form tbl)) ++ s2b "}".
  Proof. unfold GoTable, table_form. rewrite map_map. reflexivity. Qed.

  Lemma table_read tbl tbl' x x' : Forall TEntryP (table_form tbl) -> Forall TEntryP (table_form tbl') ->
    GoTable isprint del_u tbl ++ x = GoTable isprint del_u tbl' ++ x' -> table_form tbl = table_form tbl' /\ x = x'.
  Proof.
    intros H H'. rewrite !GoTable_form. rewrite <- !app_assoc. intros E. apply app_inv_head in E.
    refine (joined_read TEntryP show_row_entry ","%char "}"%char [" "%char] row_entry_read _ _ _ _ x x' H H' E); [discriminate|].
    intros e y z Hp. unfold show_row_entry. rewrite <- app_assoc. apply dec_Z_start. vm_compute. auto.
  Qed.
End Table.

(** ** Maps and their entries in order *)
Lemma sorted_perm_eq l : forall l', Sorted Z.le l -> Sorted Z.le l' -> Permutation l l' -> l = l'.
Proof.
  assert (SS : forall l, Sorted Z.le l -> StronglySorted Z.le l)
    by (intros k; apply Sorted_StronglySorted; intros a b c; lia).
  induction l as [|a l IH]; intros l' S S' Pm.
  - apply Permutation_nil in Pm. congruence.
  - destruct l' as [|b l']; [symmetry in Pm; apply Permutation_nil in Pm; congruence|].
    pose proof (SS _ S) as T. pose proof (SS _ S') as T'.
    inversion T as [|? ? _ F]; inversion T' as [|? ? _ F']; subst. rewrite Forall_forall in F, F'.
    assert (a = b) as ->.
    { assert (I : In a (b :: l')) by (eapply Permutation_in; [exact Pm|left; reflexivity]).
      assert (I' : In b (a :: l)) by (eapply Permutation_in; [symmetry; exact Pm|left; reflexivity]).
      destruct I as [->|I]; [reflexivity|]. destruct I' as [->|I']; [reflexivity|].
      specialize (F _ I'). specialize (F' _ I). lia. }
    f_equal. inversion S; inversion S'; subst. apply IH; try assumption. eapply Permutation_cons_inv. exact Pm.
Qed.

Lemma map_get_key {V} k (m : list (Z * V)) v : map_get Z.eqb k m = Some v -> In k (map fst m).
Proof. intros H. apply (map_get_in Z.eqb Z.eqb_eq) in H. apply in_map_iff. exists (k, v). auto. Qed.
Lemma key_map_get {V} k (m : list (Z * V)) : In k (map fst m) -> exists v, map_get Z.eqb k m = Some v.
Proof.
  induction m as [|[k' v] m IH]; [intros []|]. cbn. intros [->|H].
  - rewrite Z.eqb_refl. eauto.
  - destruct (k =? k')%Z; eauto.
Qed.
Definition keys {V} (m : list (Z * V)) : list Z := sort_ints (nodup Z.eq_dec (map fst m)).
Lemma in_keys {V} k (m : list (Z * V)) : In k (keys m) <-> exists v, map_get Z.eqb k m = Some v.
Proof.
  unfold keys. split.
  - intros H. eapply Permutation_in in H; [|apply sort_ints_perm]. apply nodup_In in H. apply key_map_get, H.
  - intros [v H]. eapply Permutation_in; [symmetry; apply sort_ints_perm|]. apply nodup_In. eapply map_get_key, H.
Qed.
Lemma in_entries {V} k v (m : list (Z * V)) : In (k, v) (entries m) <-> map_get Z.eqb k m = Some v.
Proof.
  unfold entries. fold (keys m). rewrite in_flat_map. split.
  - intros (k' & _ & H). destruct (map_get Z.eqb k' m) eqn:E; [|destruct H].
    destruct H as [H|[]]. congruence.
  - intros H. exists k. split; [apply in_keys; eauto|]. rewrite H. left. reflexivity.
Qed.

Lemma entries_eq {V W} (f : V -> W) (m m' : list (Z * V)) :
  map (fun e => (fst e, f (snd e))) (entries m) = map (fun e => (fst e, f (snd e))) (entries m') <->
  forall k, option_map f (map_get Z.eqb k m) = option_map f (map_get Z.eqb k m').
Proof.
  split.
  - assert (X : forall m m' k v,
      map (fun e => (fst e, f (snd e))) (entries m) = map (fun e => (fst e, f (snd e))) (entries m') ->
      map_get Z.eqb k m = Some v -> exists v', map_get Z.eqb k m' = Some v' /\ f v' = f v).
    { clear. intros m m' k v E H. apply in_entries in H.
      assert (I : In (k, f v) (map (fun e => (fst e, f (snd e))) (entries m'))).
      { rewrite <- E. apply in_map_iff. exists (k, v). auto. }
      apply in_map_iff in I as ((k' & v') & Q & I). cbn in Q. injection Q as -> Q.
      apply in_entries in I. eauto. }
    intros E k. destruct (map_get Z.eqb k m) as [v|] eqn:H.
    + destruct (X _ _ _ _ E H) as (v' & H' & Q). rewrite H'. cbn. congruence.
    + destruct (map_get Z.eqb k m') as [v'|] eqn:H'; [|reflexivity].
      destruct (X _ _ _ _ (eq_sym E) H') as (v & Hv & _). congruence.
  - intros H.
    assert (K : keys m = keys m').
    { assert (I : forall k, In k (keys m) <-> In k (keys m')).
      { intros k. rewrite !in_keys. specialize (H k).
        destruct (map_get Z.eqb k m), (map_get Z.eqb k m'); cbn in H; try discriminate H;
          split; intros [? ?]; eauto; discriminate. }
      apply sorted_perm_eq; [apply sort_ints_sorted|apply sort_ints_sorted|].
      apply NoDup_Permutation; [| |exact I];
        (eapply Permutation_NoDup; [symmetry; apply sort_ints_perm|apply NoDup_nodup]). }
    unfold entries. fold (keys m) (keys m'). rewrite K. clear K.
    induction (keys m') as [|k l IH]; [reflexivity|]. cbn [flat_map]. rewrite !map_app, IH. f_equal.
    specialize (H k). destruct (map_get Z.eqb k m), (map_get Z.eqb k m'); cbn in *; congruence.
Qed.

Lemma in_row_entries c ops (r : row) : In (c, ops) (row_entries r) <-> map_get Ascii.eqb c r = Some ops.
Proof.
  unfold row_entries. rewrite in_flat_map. split.
  - intros (k & _ & H). destruct (map_get Ascii.eqb (b8 (N.of_nat k)) r) eqn:E; [|destruct H].
    destruct H as [H|[]]. congruence.
  - intros H. exists (N.to_nat (code c)). pose proof (code_lt c). split; [apply in_seq; lia|].
    rewrite N2Nat.id, b8_code. cbv zeta. rewrite H. left. reflexivity.
Qed.
Lemma row_entries_eq (r r' : row) :
  row_entries r = row_entries r' <-> forall c, map_get Ascii.eqb c r = map_get Ascii.eqb c r'.
Proof.
  split.
  - intros E c. destruct (map_get Ascii.eqb c r) as [ops|] eqn:H.
    + apply in_row_entries in H. rewrite E in H. apply in_row_entries in H. congruence.
    + destruct (map_get Ascii.eqb c r') as [ops'|] eqn:H'; [|reflexivity].
      apply in_row_entries in H'. rewrite <- E in H'. apply in_row_entries in H'. congruence.
  - intros H. unfold row_entries. apply flat_map_ext. intros k. cbv zeta. rewrite H. reflexivity.
Qed.

(** ** Trees *)
Lemma tree_read : forall t t' x x', GoTree t ++ x = GoTree t' ++ x' -> t = t' /\ x = x'.
Proof.
  fix IH 1. intros [ty s e cs] [ty' s' e' cs'] x x' E. cbn [GoTree] in E. rewrite <- !app_assoc in E.
  apply (app_inv_head (s2b "{")) in E.
  apply dec_Z_prefix in E as [-> E]; [|nodigit|nodigit]. apply (app_inv_head (s2b " ")) in E.
  apply dec_Z_prefix in E as [-> E]; [|nodigit|nodigit]. apply (app_inv_head (s2b " ")) in E.
  apply dec_Z_prefix in E as [-> E]; [|nodigit|nodigit]. apply (app_inv_head (s2b " [")) in E.
  enough (X : cs = cs' /\ s2b "}" ++ x = s2b "}" ++ x').
  { destruct X as [-> X]. apply app_inv_head in X. auto. }
  assert (T : forall l l' y y',
    (forall a, In a l -> forall a' z z', GoTree a ++ z = GoTree a' ++ z' -> a = a' /\ z = z') -> 
    flat_map (fun y => s2b " " ++ y) (map GoTree l) ++ "]"%char :: y =
    flat_map (fun y => s2b " " ++ y) (map GoTree l') ++ "]"%char :: y' -> l = l' /\ y = y').
  { induction l as [|a l IHl]; intros [|a' l'] y y' R E'; cbn [map flat_map] in E'.
    - injection E' as ->. auto.
    - discriminate E'.
    - discriminate E'.
    - rewrite <- !app_assoc in E'. apply app_inv_head in E'.
      apply R in E' as [-> E']; [|left; reflexivity].
      apply IHl in E' as [-> ->]; [auto|]. intros b Hb. apply R. right. exact Hb. }
  assert (R : forall a, In a cs -> forall a' z z', GoTree a ++ z = GoTree a' ++ z' -> a = a' /\ z = z').
  { clear -IH. induction cs as [|a cs IHc]; [intros ? []|]. intros b [<-|Hb]; [apply IH|apply IHc, Hb]. }
  clear IH. destruct cs as [|a l], cs' as [|a' l']; cbn [map joined] in E.
  - injection E as ->. auto.
  - exfalso. destruct a'. cbn in E. discriminate E.
  - exfalso. destruct a. cbn in E. discriminate E.
  - rewrite <- !app_assoc in E. apply R in E as [-> E]; [|left; reflexivity].
    destruct (T l l' (s2b "}" ++ x) (s2b "}" ++ x')) as [-> X];
      [intros b Hb; apply R; right; exact Hb|exact E|]. rewrite X. auto.
Qed.

(** ** Naming maps *)
Definition plain_name (s : bytes) : Prop := ~ In " "%char s /\ ~ In "]"%char s.
Definition name_entry (e : Z * bytes) : bytes := dec_Z (fst e) ++ s2b ":" ++ snd e.

Lemma until_read a : forall a' b b', (* words up to the first occurrence of a separator *)
  forall P : ascii -> Prop, (forall c, In c a -> ~ P c) -> (forall c, In c a' -> ~ P c) ->
  forall d d', P d -> P d' -> a ++ d :: b = a' ++ d' :: b' -> a = a' /\ d :: b = d' :: b'.
Proof.
  induction a as [|c a IH]; intros [|c' a'] b b' P N N' d d' H H' E; cbn [app] in E.
  - auto.
  - injection E as -> _. destruct (N' c'); [left; reflexivity|exact H].
  - injection E as <- _. destruct (N c); [left; reflexivity|exact H'].
  - injection E as -> E. destruct (IH a' b b' P) with (d := d) (d' := d') as [-> ->]; auto.
    + intros c Hc. apply N. right. exact Hc.
    + intros c Hc. apply N'. right. exact Hc.
Qed.

Lemma dec_Z_chars z c : In c (dec_Z z) -> c = "-"%char \/ digit c.
Proof.
  pose proof (dec_Z_integer z) as I. intros H. destruct I as [n t D|n t Pn D].
  - right. apply decimal_digits in D. rewrite Forall_forall in D. auto.
  - destruct H as [<-|H]; [left; reflexivity|]. right. apply decimal_digits in D. rewrite Forall_forall in D. auto.
Qed.

Definition stop (c : ascii) : Prop := c = " "%char \/ c = "]"%char.
Lemma entry_chars e c : plain_name (snd e) -> In c (name_entry e) -> ~ stop c.
Proof.
  intros [A B] H. unfold name_entry in H. rewrite !in_app_iff in H. intros S.
  destruct H as [H|[H|H]].
  - apply dec_Z_chars in H as [->|H]; [destruct S; discriminate|].
    apply digit_code in H. destruct S as [->| ->]; vm_compute in H; intuition congruence.
  - destruct H as [<-|[]]. destruct S; discriminate.
  - destruct S as [->| ->]; contradiction.
Qed.
Lemma entry_read e e' b b' d d' : plain_name (snd e) -> plain_name (snd e') -> stop d -> stop d' ->
  name_entry e ++ d :: b = name_entry e' ++ d' :: b' -> e = e' /\ d :: b = d' :: b'.
Proof.
  intros P P' S S' E.
  apply (until_read _ _ _ _ stop) in E as [E ->]; [|intros c; apply entry_chars, P|intros c; apply entry_chars, P'|exact S|exact S'].
  split; [|reflexivity]. destruct e as [k v], e' as [k' v']. unfold name_entry in E. cbn [fst snd] in E.
  cbn [s2b app] in E. apply dec_Z_prefix in E as [-> E]; [|nodigit|nodigit]. injection E as ->. reflexivity.
Qed.

Definition NameP (e : Z * bytes) : Prop := plain_name (snd e).
Lemma names_tail l : forall l' x x', Forall NameP l -> Forall NameP l' ->
  flat_map (fun y => s2b " " ++ y) (map name_entry l) ++ "]"%char :: x =
  flat_map (fun y => s2b " " ++ y) (map name_entry l') ++ "]"%char :: x' -> l = l' /\ x = x'.
Proof.
  assert (H : forall l x, exists d y, stop d /\ flat_map (fun y => s2b " " ++ y) (map name_entry l) ++ "]"%char :: x = d :: y).
  { intros [|e k] z; [exists "]"%char, z|eexists _, _]; (split; [|reflexivity]); [right|left]; reflexivity. }
  induction l as [|e l IH]; intros [|e' l'] x x' F F' E; cbn [map flat_map] in E.
  - injection E as ->. auto.
  - discriminate E.
  - discriminate E.
  - inversion F; inversion F'; subst. rewrite <- !app_assoc in E. apply app_inv_head in E.
    destruct (H l x) as (d & y & Sd & Ey). destruct (H l' x') as (d' & y' & Sd' & Ey'). rewrite Ey, Ey' in E.
    apply entry_read in E as [-> E]; [|assumption..]. rewrite <- Ey, <- Ey' in E.
    apply IH in E as [-> ->]; auto.
Qed.
Lemma names_read m m' x x' : Forall NameP (entries m) -> Forall NameP (entries m') ->
  GoNames m ++ x = GoNames m' ++ x' -> entries m = entries m' /\ x = x'.
Proof.
  unfold GoNames. intros F F' E. rewrite <- !app_assoc in E. apply app_inv_head in E.
  revert F F' E. generalize (entries m) (entries m'). clear. intros l l' F F' E.
  change (joined (s2b " ") (map name_entry l) ++ s2b "]" ++ x =
          joined (s2b " ") (map name_entry l') ++ s2b "]" ++ x') in E.
  assert (N : forall e y z, name_entry e ++ y <> "]"%char :: z).
  { intros e y z. unfold name_entry. rewrite <- app_assoc. apply dec_Z_start. right; vm_compute; reflexivity. }
  assert (H : forall l x, exists d y, stop d /\ flat_map (fun y => s2b " " ++ y) (map name_entry l) ++ "]"%char :: x = d :: y).
  { intros [|e k] z; [exists "]"%char, z|eexists _, _]; (split; [|reflexivity]); [right|left]; reflexivity. }
  destruct l as [|e l], l' as [|e' l']; cbn [map joined] in E.
  - injection E as ->. auto.
  - exfalso. rewrite <- app_assoc in E. symmetry in E. revert E. apply N.
  - exfalso. rewrite <- app_assoc in E. revert E. apply N.
  - inversion F; inversion F'; subst. rewrite <- !app_assoc in E. 
    change (s2b "]" ++ x) with ("]"%char :: x) in E. change (s2b "]" ++ x') with ("]"%char :: x') in E.
    destruct (H l x) as (d & y & Sd & Ey). destruct (H l' x') as (d' & y' & Sd' & Ey').
    rewrite Ey, Ey' in E.
    apply entry_read in E as [-> E]; [|assumption..]. rewrite <- Ey, <- Ey' in E.
    apply names_tail in E as [-> ->]; auto.
Qed.
