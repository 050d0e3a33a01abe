(** * TGFirsts: the FIRST iteration of the table generator. *)
From Verif Require Import Base ByteSet Ast Parser TableGen Spec_Parse Spec_Grammar
  ByteSetProofs GrammarProofs ParseApi2.

(** ** Go maps and arrays *)

Lemma bytes_eqb_eq a : forall b, bytes_eqb a b = true <-> a = b.
Proof.
  induction a as [|x a IH]; intros [|y b]; simpl; split; intros H; try discriminate; try reflexivity.
  - apply andb_true_iff in H. destruct H as [H1 H2]. apply Ascii.eqb_eq in H1. apply IH in H2.
    subst. reflexivity.
  - injection H as -> ->. apply andb_true_iff. split; [apply Ascii.eqb_refl|apply IH; reflexivity].
Qed.
Lemma bytes_eqb_refl a : bytes_eqb a a = true.
Proof. apply bytes_eqb_eq. reflexivity. Qed.
Lemma bytes_eq_dec (a b : bytes) : {a = b} + {a <> b}.
Proof. apply (list_eq_dec ascii_dec). Qed.

Section MapFacts.
  Context {K V : Type} (eqb : K -> K -> bool).
  Hypothesis eqb_ok : forall a b, eqb a b = true <-> a = b.

  Lemma map_get_set k (v : V) m k' :
    map_get eqb k' (map_set eqb k v m) = if eqb k' k then Some v else map_get eqb k' m.
  Proof.
    assert (R : forall a, eqb a a = true) by (intros; apply eqb_ok; reflexivity).
    induction m as [|[k1 v1] m IH]; simpl; [reflexivity|].
    destruct (eqb k k1) eqn:E; simpl.
    - apply eqb_ok in E. subst k1. destruct (eqb k' k); reflexivity.
    - rewrite IH. destruct (eqb k' k1) eqn:E1; [|reflexivity].
      apply eqb_ok in E1. subst k1. destruct (eqb k' k) eqn:E2; [|reflexivity].
      apply eqb_ok in E2. subst k'. rewrite R in E. discriminate.
  Qed.

  Lemma map_set_keys k (v : V) m x :
    In x (map fst (map_set eqb k v m)) <-> x = k \/ In x (map fst m).
  Proof.
    induction m as [|[k1 v1] m IH]; simpl; [intuition|].
    destruct (eqb k k1) eqn:E; simpl.
    - apply eqb_ok in E. subst. intuition.
    - rewrite IH. intuition.
  Qed.
  Lemma map_set_nodup k (v : V) m : NoDup (map fst m) -> NoDup (map fst (map_set eqb k v m)).
  Proof.
    induction m as [|[k1 v1] m IH]; simpl; intros H.
    - constructor; [intros []|constructor].
    - inversion H as [|? ? Hn Hd]; subst. destruct (eqb k k1) eqn:E; simpl.
      + constructor; assumption.
      + constructor; [|apply IH; assumption]. rewrite map_set_keys. intros [->|Hin]; [|auto].
        assert (eqb k k = true) by (apply eqb_ok; reflexivity). congruence.
  Qed.
  Lemma map_get_nodup (m : list (K * V)) k v :
    NoDup (map fst m) -> (map_get eqb k m = Some v <-> In (k, v) m).
  Proof.
    induction m as [|[k1 v1] m IH]; simpl; intros H; [split; [discriminate|intros []]|].
    inversion H as [|? ? Hn Hd]; subst. destruct (eqb k k1) eqn:E.
    - apply eqb_ok in E. subst k1. split.
      + intros Hv. injection Hv as ->. auto.
      + intros [Hv|Hin]; [injection Hv as ->; reflexivity|]. destruct Hn.
        apply in_map_iff. exists (k, v). auto.
    - rewrite IH by assumption. split; [auto|]. intros [Hv|Hin]; [|exact Hin].
      injection Hv as -> ->. assert (eqb k k = true) by (apply eqb_ok; reflexivity). congruence.
  Qed.
End MapFacts.

Lemma upd_length {A} (l : list A) i x : length (upd l i x) = length l.
Proof. revert i. induction l as [|y l IH]; intros [|i]; simpl; auto. Qed.
Lemma upd_same {A} (l : list A) i x : i < length l -> nth_error (upd l i x) i = Some x.
Proof.
  revert i. induction l as [|y l IH]; intros [|i] H; simpl in *; try lia; [reflexivity|].
  apply IH. lia.
Qed.
Lemma upd_other {A} (l : list A) i j x : i <> j -> nth_error (upd l i x) j = nth_error l j.
Proof.
  revert i j. induction l as [|y l IH]; intros [|i] [|j] H; simpl; try reflexivity; try lia.
  apply IH. lia.
Qed.

Lemma index_ok {A} (l : list A) i x : @index A l i = Ok x <-> nth_error l i = Some x.
Proof. unfold index. destruct (nth_error l i); split; congruence. Qed.
Lemma index_lt {A} (l : list A) i : i < length l -> exists x, @index A l i = Ok x.
Proof.
  intros H. unfold index. destruct (nth_error l i) as [x|] eqn:E; [eauto|].
  apply nth_error_None in E. lia.
Qed.

(** ** enumerate *)

Lemma enumerate_from_get l : forall i res v,
  map_get bytes_eqb v (enumerate_from i l res) =
  match map_get bytes_eqb v (enumerate_from 0 l []) with
  | Some j => Some (i + j)
  | None => map_get bytes_eqb v res
  end.
Proof.
  induction l as [|s l IH]; intros i res v; simpl; [reflexivity|].
  rewrite (IH (S i)), (IH 1).
  destruct (map_get bytes_eqb v (enumerate_from 0 l [])) as [j|].
  - f_equal. lia.
  - rewrite map_get_set by apply bytes_eqb_eq. simpl.
    destruct (bytes_eqb v s); [f_equal; lia|reflexivity].
Qed.

Lemma enumerate_cons s l v :
  map_get bytes_eqb v (enumerate (s :: l)) =
  match map_get bytes_eqb v (enumerate l) with
  | Some j => Some (S j)
  | None => if bytes_eqb v s then Some 0 else None
  end.
Proof.
  unfold enumerate. simpl. rewrite enumerate_from_get. reflexivity.
Qed.

Lemma enumerate_none l v : map_get bytes_eqb v (enumerate l) = None <-> ~ In v l.
Proof.
  induction l as [|s l IH]; [split; [intros _ []|reflexivity]|].
  rewrite enumerate_cons. destruct (map_get bytes_eqb v (enumerate l)) as [j|].
  - split; [discriminate|]. intros H. exfalso. apply H. right.
    destruct (in_dec bytes_eq_dec v l) as [Hi|Hi]; [exact Hi|]. apply IH in Hi. discriminate.
  - destruct (bytes_eqb v s) eqn:E.
    + apply bytes_eqb_eq in E. subst. split; [discriminate|]. intros H. destruct H. left. reflexivity.
    + split; [|reflexivity]. intros _ [->|Hi]; [rewrite bytes_eqb_refl in E; discriminate|].
      apply (proj1 IH eq_refl Hi).
Qed.

(** The index of a name is that of its last occurrence. *)
Lemma enumerate_some l v : forall i,
  map_get bytes_eqb v (enumerate l) = Some i ->
  nth_error l i = Some v /\ forall j, i < j -> nth_error l j <> Some v.
Proof.
  induction l as [|s l IH]; intros i H; [discriminate|]. rewrite enumerate_cons in H.
  destruct (map_get bytes_eqb v (enumerate l)) as [j|] eqn:E.
  - injection H as <-. destruct (IH j eq_refl) as [H1 H2]. split; [exact H1|].
    intros [|k] Hk; [lia|]. apply H2. lia.
  - destruct (bytes_eqb v s) eqn:Ev; [|discriminate]. apply bytes_eqb_eq in Ev.
    injection H as <-. subst s. split; [reflexivity|]. intros [|k] Hk Hn; [lia|].
    apply enumerate_none in E. apply E. eapply nth_error_In. exact Hn.
Qed.
Lemma enumerate_get l v i :
  map_get bytes_eqb v (enumerate l) = Some i <->
  (nth_error l i = Some v /\ forall j, i < j -> nth_error l j <> Some v).
Proof.
  split; [apply enumerate_some|]. intros [H1 H2].
  destruct (map_get bytes_eqb v (enumerate l)) as [k|] eqn:E.
  - destruct (enumerate_some _ _ _ E) as [H3 H4]. f_equal.
    destruct (Nat.lt_trichotomy i k) as [L|[L|L]]; [|auto|].
    + destruct (H2 _ L H3).
    + destruct (H4 _ L H1).
  - apply enumerate_none in E. destruct E. eapply nth_error_In. exact H1.
Qed.
Lemma enumerate_nodup l v i :
  NoDup l -> (map_get bytes_eqb v (enumerate l) = Some i <-> nth_error l i = Some v).
Proof.
  intros N. rewrite enumerate_get. split; [intros [H _]; exact H|]. intros H. split; [exact H|].
  intros j Hj Hn. apply NoDup_nth_error with (i := i) (j := j) in N; [lia| |congruence].
  apply nth_error_Some. congruence.
Qed.

(** ** Lists of sets *)

Definition set_at (f : list ByteSet) (i : nat) (c : ascii) : bool :=
  match nth_error f i with Some s => bs_contains s c | None => false end.
Definition all_wf (f : list ByteSet) : Prop := Forall bs_wf f.
Definition card (s : ByteSet) : nat := length (filter (bs_contains s) all_bytes).
Definition total (f : list ByteSet) : nat := list_sum (map card f).

Lemma filter_le {A} (p q : A -> bool) l :
  (forall x, p x = true -> q x = true) -> length (filter p l) <= length (filter q l).
Proof.
  intros H. induction l as [|x l IH]; simpl; [lia|].
  destruct (p x) eqn:E; [rewrite (H _ E); simpl; lia|]. destruct (q x); simpl; lia.
Qed.
Lemma filter_lt {A} (p q : A -> bool) l x :
  (forall x, p x = true -> q x = true) -> In x l -> p x = false -> q x = true ->
  length (filter p l) < length (filter q l).
Proof.
  intros H. induction l as [|y l IH]; simpl; intros Hin Hp Hq; [destruct Hin|].
  destruct Hin as [->|Hin].
  - rewrite Hp, Hq. simpl. pose proof (filter_le p q l H). lia.
  - specialize (IH Hin Hp Hq). destruct (p y) eqn:E; [rewrite (H _ E); simpl; lia|].
    destruct (q y); simpl; lia.
Qed.
Lemma card_le s : card s <= length all_bytes.
Proof.
  unfold card. generalize all_bytes as l.
  induction l as [|x l IH]; simpl; [lia|]. destruct (bs_contains s x); simpl; lia.
Qed.
Lemma total_le f : total f <= length all_bytes * length f.
Proof.
  unfold total. induction f as [|s f IH]; [simpl; lia|].
  cbn [map list_sum fold_right length]. pose proof (card_le s). rewrite Nat.mul_succ_r.
  change (fold_right Nat.add 0 (map card f)) with (list_sum (map card f)). lia.
Qed.

Lemma all_wf_nth f i s : all_wf f -> nth_error f i = Some s -> bs_wf s.
Proof. intros H Hn. apply nth_error_In in Hn. eapply Forall_forall in H; eassumption. Qed.
Lemma upd_forall {A} (P : A -> Prop) l i x : Forall P l -> P x -> Forall P (upd l i x).
Proof.
  intros H. revert i. induction H as [|y l Hy Hl IH]; intros [|i] Hx; simpl; try constructor; auto.
Qed.
Lemma upd_total f i s s' :
  nth_error f i = Some s -> card s < card s' -> total f < total (upd f i s').
Proof.
  unfold total. revert i. induction f as [|y f IH]; intros [|i] H L; simpl in *; try discriminate.
  - injection H as ->. lia.
  - specialize (IH i H L). lia.
Qed.
Lemma set_at_upd f i s j c :
  i < length f ->
  set_at (upd f i s) j c = if Nat.eqb j i then bs_contains s c else set_at f j c.
Proof.
  intros L. unfold set_at. destruct (Nat.eqb_spec j i) as [->|N].
  - rewrite upd_same by exact L. reflexivity.
  - rewrite upd_other by lia. reflexivity.
Qed.

(** [moves f ch f' ch']: nothing happened, or the flag is set and a set grew. *)
Definition moves (f : list ByteSet) (ch : bool) (f' : list ByteSet) (ch' : bool) : Prop :=
  all_wf f' /\ length f' = length f /\
  ((f' = f /\ ch' = ch) \/
   (ch' = true /\ total f < total f' /\ forall i c, set_at f i c = true -> set_at f' i c = true)).

Lemma moves_refl f ch : all_wf f -> moves f ch f ch.
Proof. intros H. split; [exact H|]. split; [reflexivity|]. left. auto. Qed.
Lemma moves_trans f ch f1 ch1 f2 ch2 :
  moves f ch f1 ch1 -> moves f1 ch1 f2 ch2 -> moves f ch f2 ch2.
Proof.
  intros (W1 & L1 & M1) (W2 & L2 & M2). split; [exact W2|]. split; [congruence|].
  destruct M1 as [[-> ->]|(-> & T1 & I1)]; [exact M2|]. right.
  destruct M2 as [[-> ->]|(-> & T2 & I2)].
  - split; [reflexivity|]. split; [exact T1|exact I1].
  - split; [reflexivity|]. split; [lia|]. intros. apply I2, I1. assumption.
Qed.
Lemma moves_incl f ch f' ch' i c :
  moves f ch f' ch' -> set_at f i c = true -> set_at f' i c = true.
Proof. intros (_ & _ & [[-> _]|(_ & _ & I)]) H; [exact H|apply I, H]. Qed.
Lemma moves_false f ch f' : moves f ch f' false -> f' = f /\ ch = false.
Proof. intros (_ & _ & [[-> ->]|(H & _)]); [auto|discriminate]. Qed.

(** Adding a set that brings something new. *)
Lemma add_moves f i s extra ch :
  all_wf f -> bs_wf extra -> nth_error f i = Some s -> bs_is_superset s extra = false ->
  moves f ch (upd f i (bs_union s extra)) true.
Proof.
  intros W We Hn Hs.
  assert (L : i < length f) by (apply nth_error_Some; congruence).
  pose proof (all_wf_nth _ _ _ W Hn) as Ws.
  assert (N : exists c, bs_contains extra c = true /\ bs_contains s c = false).
  { destruct (forallb (fun c => implb (bs_contains extra c) (bs_contains s c)) all_bytes) eqn:E.
    - exfalso. assert (bs_is_superset s extra = true); [|congruence].
      apply superset_spec; [exact We|]. intros c Hc. rewrite forallb_forall in E.
      specialize (E c (all_bytes_in c)). rewrite Hc in E. exact E.
    - apply Bool.not_true_iff_false in E. rewrite forallb_forall in E.
      destruct (existsb (fun c => bs_contains extra c && negb (bs_contains s c)) all_bytes) eqn:X.
      + apply existsb_exists in X. destruct X as (c & _ & X). exists c.
        apply andb_true_iff in X. destruct X as [X1 X2]. apply negb_true_iff in X2. auto.
      + exfalso. apply E. intros c Hin. destruct (bs_contains extra c) eqn:E1; [|reflexivity]. simpl.
        destruct (bs_contains s c) eqn:E2; [reflexivity|].
        apply Bool.not_true_iff_false in X. exfalso. apply X. apply existsb_exists.
        exists c. rewrite E1, E2. auto. }
  destruct N as (c & Hc1 & Hc2).
  split; [|split].
  - apply upd_forall; [exact W|apply union_wf; assumption].
  - apply upd_length.
  - right. split; [reflexivity|]. split.
    + apply upd_total with (s := s); [exact Hn|]. unfold card.
      apply filter_lt with (x := c).
      * intros x Hx. rewrite contains_union, Hx. reflexivity.
      * apply all_bytes_in.
      * exact Hc2.
      * rewrite contains_union, Hc1. apply orb_true_r.
    + intros j d H. rewrite set_at_upd by exact L. destruct (Nat.eqb_spec j i) as [->|]; [|exact H].
      unfold set_at in H. rewrite Hn in H. rewrite contains_union, H. reflexivity.
Qed.

Lemma repeat_wf n : all_wf (repeat (bs_new []) n).
Proof. apply Forall_forall. intros s H. apply repeat_spec in H. subst. apply new_wf. Qed.
Lemma repeat_empty n i c : set_at (repeat (bs_new []) n) i c = false.
Proof.
  unfold set_at. destruct (nth_error (repeat (bs_new []) n) i) as [s|] eqn:E; [|reflexivity].
  apply nth_error_In, repeat_spec in E. subst. apply contains_empty.
Qed.

(** ** FIRST of a form, given FIRST of non-terminals *)

Fixpoint form_has (F : bytes -> ascii -> bool) (u : form) (c : ascii) : bool :=
  match u with
  | [] => Ascii.eqb c NUL
  | Ch a :: _ => Ascii.eqb c a
  | NT v :: rest =>
      (F v c && negb (Ascii.eqb c NUL)) || (F v NUL && form_has F rest c)
  end.

Lemma form_has_mono (F F' : bytes -> ascii -> bool) u c :
  (forall v d, F v d = true -> F' v d = true) ->
  form_has F u c = true -> form_has F' u c = true.
Proof.
  intros H. induction u as [|[v|a] u IH]; simpl; auto. intros E.
  apply orb_true_iff in E. apply orb_true_iff. destruct E as [E|E]; apply andb_true_iff in E;
    destruct E as [E1 E2]; [left|right]; apply andb_true_iff; auto.
Qed.

Section Gen.
  Variable g : grammar.
  Let rm := enumerate (heads g).

  (** FIRST of a name, as the generator reads it. *)
  Definition first_of (firsts : list ByteSet) (v : bytes) (c : ascii) : bool :=
    match rm_get rm v with Some i => set_at firsts i c | None => false end.

  Lemma rm_get_rule v i :
    rm_get rm v = Some i -> exists r, nth_error g i = Some r /\ r_head r = v.
  Proof.
    intros H. apply enumerate_some in H. destruct H as [H _].
    unfold heads in H. rewrite nth_error_map in H.
    destruct (nth_error g i) as [r|]; [|discriminate]. injection H as <-. eauto.
  Qed.
  Lemma rm_get_lt v i : rm_get rm v = Some i -> i < length g.
  Proof.
    intros H. apply rm_get_rule in H. destruct H as (r & H & _). apply nth_error_Some. congruence.
  Qed.
  Lemma rm_get_none v : rm_get rm v = None <-> ~ defined g v.
  Proof. apply enumerate_none. Qed.
  Lemma rm_get_nodup i r :
    NoDup (heads g) -> nth_error g i = Some r -> rm_get rm (r_head r) = Some i.
  Proof.
    intros N H. apply enumerate_nodup; [exact N|]. unfold heads.
    rewrite nth_error_map, H. reflexivity.
  Qed.

  Lemma sequenceFirsts_loop_spec firsts total syms : forall res out,
    length syms <= total ->
    sequenceFirsts_loop rm firsts total syms res true = Ok out ->
    forall c, bs_contains out c = bs_contains res c || form_has (first_of firsts) (seq_form syms) c.
  Proof.
    induction syms as [|s syms IH]; intros res out Hl H c.
    - simpl in *. injection H as <-. unfold EOS. rewrite contains_add.
      rewrite orb_comm. reflexivity.
    - destruct s as [v|t| |str]; cbn [sequenceFirsts_loop] in H.
      + change (seq_form (SNonTerminal v :: syms)) with (NT v :: seq_form syms). cbn [form_has].
        unfold first_of at 1 2. fold rm in H. destruct (rm_get rm v) as [i|]; [|discriminate].
        unfold index in H. unfold set_at at 1 2.
        destruct (nth_error firsts i) as [f|] eqn:Ef; [|discriminate]. cbn [gobind] in H.
        unfold EOS in H. destruct (bs_contains f NUL) eqn:En; cbn [negb] in H.
        * simpl in Hl. rewrite (IH _ _ ltac:(lia) H c), contains_union, contains_remove.
          cbn [andb]. rewrite (andb_comm (bs_contains f c)). rewrite orb_assoc.
          reflexivity.
        * injection H as <-. rewrite contains_union, contains_remove. cbn [andb].
          rewrite orb_false_r, (andb_comm (bs_contains f c)). reflexivity.
      + destruct t as [|a t]; simpl in H; [discriminate|]. injection H as <-.
        change (seq_form (STerminal (a :: t) :: syms)) with (Ch a :: (chars t ++ seq_form syms)).
        cbn [form_has]. rewrite contains_union. f_equal.
        rewrite contains_new. unfold existsb. apply orb_false_r.
      + destruct (Nat.ltb_spec 1 total) as [L|L]; [discriminate|]. injection H as <-.
        assert (syms = []) as -> by (destruct syms; [reflexivity|simpl in Hl; lia]).
        simpl. unfold EOS. rewrite contains_add. apply orb_comm.
      + discriminate.
  Qed.

  Lemma sequenceFirsts_spec firsts s out :
    sequenceFirsts rm firsts s = Ok out ->
    forall c, bs_contains out c = form_has (first_of firsts) (seq_form s) c.
  Proof.
    intros H c. rewrite (sequenceFirsts_loop_spec _ _ _ _ _ (Nat.le_refl _) H c).
    rewrite contains_empty. reflexivity.
  Qed.

  Lemma sequenceFirsts_wf firsts s out :
    all_wf firsts -> sequenceFirsts rm firsts s = Ok out -> bs_wf out.
  Proof.
    intros W. unfold sequenceFirsts. generalize (length s) as total, true as found.
    assert (W0 : bs_wf (bs_new [])) by apply new_wf. revert W0. generalize (bs_new []) as res.
    induction s as [|x s IH]; intros res Wr total found H; cbn [sequenceFirsts_loop] in H.
    - injection H as <-. destruct found; [apply add_wf|]; exact Wr.
    - destruct x as [v|t| |str].
      + destruct (rm_get rm v) as [i|]; [|discriminate].
        unfold index in H. destruct (nth_error firsts i) as [f|] eqn:Ef; [|discriminate].
        cbn [gobind] in H. pose proof (all_wf_nth _ _ _ W Ef) as Wf.
        assert (Wu : bs_wf (bs_union res (bs_remove f EOS)))
          by (apply union_wf; [exact Wr|apply remove_wf; exact Wf]).
        destruct (bs_contains f EOS); cbn [negb] in H; [eapply IH; eassumption|].
        injection H as <-. exact Wu.
      + destruct t as [|a t]; [discriminate|]. cbn [terminalFirsts gobind] in H. injection H as <-.
        apply union_wf; [exact Wr|apply new_wf].
      + destruct (Nat.ltb 1 total); [discriminate|]. injection H as <-. apply add_wf, Wr.
      + discriminate.
  Qed.

  (** All alternatives of one rule. *)
  Lemma substitutionFirsts_spec firsts seqs : forall res out,
    substitutionFirsts_loop rm firsts seqs res = Ok out ->
    forall c, bs_contains out c =
      bs_contains res c || existsb (fun s => form_has (first_of firsts) (seq_form s) c) seqs.
  Proof.
    induction seqs as [|s seqs IH]; intros res out H c; cbn [substitutionFirsts_loop] in H.
    - injection H as <-. simpl. rewrite orb_false_r. reflexivity.
    - destruct (sequenceFirsts rm firsts s) as [f| | |] eqn:E; try discriminate.
      cbn [gobind] in H. rewrite (IH _ _ H c), contains_union.
      rewrite (sequenceFirsts_spec _ _ _ E c). simpl. rewrite orb_assoc. reflexivity.
  Qed.
  Lemma substitutionFirsts_wf firsts seqs : forall res out,
    all_wf firsts -> bs_wf res ->
    substitutionFirsts_loop rm firsts seqs res = Ok out -> bs_wf out.
  Proof.
    induction seqs as [|s seqs IH]; intros res out W Wr H; cbn [substitutionFirsts_loop] in H.
    - injection H as <-. exact Wr.
    - destruct (sequenceFirsts rm firsts s) as [f| | |] eqn:E; try discriminate.
      cbn [gobind] in H. eapply IH; [exact W| |exact H].
      apply union_wf; [exact Wr|]. eapply sequenceFirsts_wf; eassumption.
  Qed.

  (** Rule [i] is closed. *)
  Definition first_closed_at (firsts : list ByteSet) (i : nat) : Prop :=
    forall r s c, nth_error g i = Some r -> In s (r_tail r) ->
      form_has (first_of firsts) (seq_form s) c = true -> set_at firsts i c = true.

  Lemma ruleFirsts_spec i firsts ch firsts' ch' :
    all_wf firsts -> length firsts = length g ->
    ruleFirsts g rm i firsts ch = Ok (firsts', ch') ->
    moves firsts ch firsts' ch' /\
    (forall j c, set_at firsts' j c = true -> set_at firsts j c = true \/
       (j = i /\ exists r s, nth_error g i = Some r /\ In s (r_tail r) /\
                   form_has (first_of firsts) (seq_form s) c = true)) /\
    (ch' = false -> first_closed_at firsts i).
  Proof.
    intros W L H. unfold ruleFirsts in H. unfold substitutionFirsts in H.
    destruct (Nat.leb_spec (ruleCount g) i) as [Li|Li]; [discriminate|].
    unfold index in H. destruct (nth_error g i) as [r|] eqn:Er; [|discriminate].
    cbn [gobind] in H.
    destruct (substitutionFirsts_loop rm firsts (r_tail r) (bs_new [])) as [tmp| | |] eqn:Es;
      try discriminate. cbn [gobind] in H.
    pose proof (substitutionFirsts_spec _ _ _ _ Es) as Ht.
    assert (Wt : bs_wf tmp).
    { eapply substitutionFirsts_wf; [exact W|apply new_wf|exact Es]. }
    destruct (nth_error firsts i) as [f|] eqn:Ef; [|discriminate]. cbn [gobind] in H.
    assert (Lf : i < length firsts) by (apply nth_error_Some; congruence).
    destruct (bs_is_superset f tmp) eqn:Esup; injection H as <- <-.
    - split; [apply moves_refl; exact W|]. split; [auto|].
      intros _ r' s c Hr Hin Hf. rewrite Er in Hr. injection Hr as <-.
      unfold set_at. rewrite Ef. apply (proj1 (superset_spec f tmp Wt) Esup).
      rewrite Ht. apply orb_true_iff. right. apply existsb_exists. eauto.
    - split; [apply add_moves; assumption|]. split; [|discriminate].
      intros j c Hj. rewrite set_at_upd in Hj by exact Lf.
      destruct (Nat.eqb_spec j i) as [->|N]; [|left; exact Hj].
      rewrite contains_union in Hj. apply orb_true_iff in Hj. destruct Hj as [Hj|Hj].
      + left. unfold set_at. rewrite Ef. exact Hj.
      + right. split; [reflexivity|]. rewrite Ht in Hj. rewrite contains_empty in Hj.
        simpl in Hj. apply existsb_exists in Hj. destruct Hj as (s & Hin & Hf). eauto.
  Qed.

  (** Any property of (rule, byte) preserved by one application of a rule. *)
  Definition first_inv (P : nat -> ascii -> Prop) : Prop :=
    forall firsts i r s c,
      (forall j d, set_at firsts j d = true -> P j d) ->
      nth_error g i = Some r -> In s (r_tail r) ->
      form_has (first_of firsts) (seq_form s) c = true -> P i c.

  Lemma firsts_round_spec P idxs : forall firsts ch firsts' ch',
    first_inv P ->
    all_wf firsts -> length firsts = length g ->
    firsts_round g rm idxs firsts ch = Ok (firsts', ch') ->
    moves firsts ch firsts' ch' /\
    ((forall j d, set_at firsts j d = true -> P j d) ->
     (forall j d, set_at firsts' j d = true -> P j d)) /\
    (ch' = false -> forall i, In i idxs -> first_closed_at firsts i).
  Proof.
    induction idxs as [|i idxs IH]; intros firsts ch firsts' ch' HP W L H; cbn [firsts_round] in H.
    - injection H as <- <-. split; [apply moves_refl, W|]. split; [auto|]. intros _ i [].
    - destruct (ruleFirsts g rm i firsts ch) as [[f1 c1]| | |] eqn:E; try discriminate.
      cbn [gobind] in H. destruct (ruleFirsts_spec _ _ _ _ _ W L E) as (M1 & S1 & C1).
      pose proof M1 as (W1 & L1 & _).
      destruct (IH _ _ _ _ HP W1 (eq_trans L1 L) H) as (M2 & S2 & C2).
      split; [eapply moves_trans; eassumption|]. split.
      + intros H0. apply S2. intros j d Hj. destruct (S1 _ _ Hj) as [H1|(-> & r & s & Hr & Hs & Hf)].
        * apply H0, H1.
        * eapply HP; eassumption.
      + intros ->. destruct (moves_false _ _ _ M2) as [-> ->].
        destruct (moves_false _ _ _ M1) as [-> ->]. intros j [<-|Hj]; [apply C1; reflexivity|].
        apply C2; [reflexivity|exact Hj].
  Qed.

  Lemma findFirsts_spec P fuel : forall firsts out,
    first_inv P -> all_wf firsts -> length firsts = length g ->
    findFirsts g rm fuel firsts = Ok out ->
    all_wf out /\ length out = length g /\
    ((forall j d, set_at firsts j d = true -> P j d) ->
     (forall j d, set_at out j d = true -> P j d)) /\
    (forall i, i < length g -> first_closed_at out i).
  Proof.
    induction fuel as [|fuel IH]; intros firsts out HP W L H; cbn [findFirsts] in H; [discriminate|].
    destruct (firsts_round g rm (seq 0 (length g)) firsts false) as [[f1 c1]| | |] eqn:E;
      try discriminate. cbn [gobind] in H.
    destruct (firsts_round_spec P _ _ _ _ _ HP W L E) as (M & S & C).
    pose proof M as (W1 & L1 & _). destruct c1.
    - destruct (IH _ _ HP W1 (eq_trans L1 L) H) as (W2 & L2 & S2 & C2).
      split; [exact W2|]. split; [exact L2|]. split; [auto|exact C2].
    - injection H as <-. destruct (moves_false _ _ _ M) as [-> _].
      split; [exact W|]. split; [exact L|]. split; [auto|].
      intros i Hi. apply C; [reflexivity|]. apply in_seq. lia.
  Qed.

  (** Rounds are bounded. *)
  Lemma findFirsts_fuel fuel : forall firsts,
    all_wf firsts -> length firsts = length g ->
    length all_bytes * length g - total firsts < fuel ->
    findFirsts g rm fuel firsts <> NoFuel.
  Proof.
    assert (R : forall firsts s, sequenceFirsts rm firsts s <> NoFuel).
    { intros firsts s. unfold sequenceFirsts. generalize (length s) as tot, (bs_new []) as res, true as fd.
      induction s as [|x s IH]; intros tot res fd; cbn [sequenceFirsts_loop]; [discriminate|].
      destruct x as [v|t| |str].
      - destruct (rm_get rm v) as [i|]; [|discriminate]. unfold index.
        destruct (nth_error firsts i) as [f|]; cbn [gobind]; [|discriminate].
        destruct (bs_contains f EOS); cbn [negb]; [apply IH|discriminate].
      - destruct t; cbn [terminalFirsts gobind]; discriminate.
      - destruct (Nat.ltb 1 tot); discriminate.
      - discriminate. }
    assert (R2 : forall firsts seqs res, substitutionFirsts_loop rm firsts seqs res <> NoFuel).
    { intros firsts seqs. induction seqs as [|s seqs IH]; intros res; cbn [substitutionFirsts_loop];
        [discriminate|].
      specialize (R firsts s). destruct (sequenceFirsts rm firsts s); cbn [gobind]; try discriminate;
        [apply IH|congruence]. }
    assert (R3 : forall idxs firsts ch, firsts_round g rm idxs firsts ch <> NoFuel).
    { induction idxs as [|i idxs IH]; intros firsts ch; cbn [firsts_round]; [discriminate|].
      unfold ruleFirsts, substitutionFirsts, index.
      destruct (Nat.leb (ruleCount g) i); [discriminate|].
      destruct (nth_error g i) as [r|]; cbn [gobind]; [|discriminate].
      specialize (R2 firsts (r_tail r) (bs_new [])).
      destruct (substitutionFirsts_loop rm firsts (r_tail r) (bs_new [])) as [tmp| | |];
        cbn [gobind]; try discriminate; [|congruence].
      destruct (nth_error firsts i); cbn [gobind]; [|discriminate].
      destruct (bs_is_superset _ _); cbn [gobind]; apply IH. }
    induction fuel as [|fuel IH]; intros firsts W L Hf; [lia|]. cbn [findFirsts].
    specialize (R3 (seq 0 (length g)) firsts false).
    destruct (firsts_round g rm (seq 0 (length g)) firsts false) as [[f1 c1]| | |] eqn:E;
      cbn [gobind]; try discriminate; [|congruence].
    assert (HP : first_inv (fun _ _ => True)) by (intros ? ? ? ? ? ? ? ? ?; exact I).
    destruct (firsts_round_spec _ _ _ _ _ _ HP W L E) as (M & _ & _).
    destruct c1; [|discriminate]. destruct M as (W1 & L1 & [[_ Hc]|(_ & T & _)]); [discriminate|].
    apply IH; [exact W1|congruence|].
    pose proof (total_le f1). rewrite L1, L in H. lia.
  Qed.
End Gen.

(** ** The iteration computes the textbook sets *)
Section Exact.
  Variable g : grammar.
  Let rm := enumerate (heads g).

  (** The meaning of a mark in a FIRST set. *)
  Definition first_mark (u : form) (c : ascii) : Prop :=
    (c = NUL -> nullable g u) /\ (c <> NUL -> first g u c).

  Lemma form_nulfree_alt n s :
    terminals_nulfree g -> alternative g n s -> ~ In (Ch NUL) (seq_form s).
  Proof.
    intros N Ha Hin. unfold seq_form in Hin. apply in_flat_map in Hin.
    destruct Hin as (x & Hx & Hin). destruct x as [v|t| |str]; simpl in Hin.
    - destruct Hin as [H|[]]. discriminate.
    - apply in_map_iff in Hin. destruct Hin as (c & E & Hc). injection E as ->.
      eapply N; eassumption.
    - destruct Hin.
    - destruct Hin.
  Qed.

  Lemma form_has_sound (F : bytes -> ascii -> bool) u c :
    ~ In (Ch NUL) u -> (forall v d, F v d = true -> first_mark [NT v] d) ->
    form_has F u c = true -> first_mark u c.
  Proof.
    intros Hn HF. induction u as [|[v|a] u IH]; simpl; intros H.
    - apply Ascii.eqb_eq in H. subst. split; [intros _; apply nullable_nil|congruence].
    - change (NT v :: u) with ([NT v] ++ u).
      apply orb_true_iff in H. destruct H as [H|H]; apply andb_true_iff in H; destruct H as [H1 H2].
      + apply negb_true_iff, Ascii.eqb_neq in H2. split; [congruence|]. intros _.
        apply first_app. left. apply HF; assumption.
      + assert (IHu : first_mark u c) by (apply IH; [intros Hin; apply Hn; right; exact Hin|exact H2]).
        destruct (HF _ _ H1) as [N _]. specialize (N eq_refl). destruct IHu as [I1 I2]. split.
        * intros E. apply nullable_app. auto.
        * intros E. apply first_app. right. auto.
    - apply Ascii.eqb_eq in H. subst c. split; [|intros _; apply first_ch; reflexivity].
      intros ->. destruct Hn. left. reflexivity.
  Qed.

  Definition head_at (i : nat) : bytes := nth i (heads g) [].
  Lemma head_at_nth i r : nth_error g i = Some r -> head_at i = r_head r.
  Proof.
    intros H. unfold head_at, heads. apply nth_error_nth. rewrite nth_error_map, H. reflexivity.
  Qed.

  Lemma first_of_mark firsts v d :
    (forall j d, set_at firsts j d = true -> first_mark [NT (head_at j)] d) ->
    first_of g firsts v d = true -> first_mark [NT v] d.
  Proof.
    intros H0 Hv. unfold first_of in Hv. destruct (rm_get (enumerate (heads g)) v) as [j|] eqn:E; [|discriminate].
    apply H0 in Hv. apply rm_get_rule in E. destruct E as (r' & Hr' & <-).
    rewrite (head_at_nth _ _ Hr') in Hv. exact Hv.
  Qed.

  Lemma first_inv_sound :
    terminals_nulfree g -> first_inv g (fun i c => first_mark [NT (head_at i)] c).
  Proof.
    intros N firsts i r s c H0 Hr Hs Hf.
    assert (Ha : alternative g (r_head r) s).
    { exists r. split; [eapply nth_error_In; exact Hr|auto]. }
    apply form_has_sound in Hf.
    - rewrite (head_at_nth _ _ Hr). destruct Hf as [F1 F2]. split; intros E.
      + apply nullable_nt. eauto.
      + apply first_nt. eauto.
    - eapply form_nulfree_alt; eassumption.
    - intros v d Hv. eapply first_of_mark; eassumption.
  Qed.

  Lemma alternative_index n s :
    NoDup (heads g) -> alternative g n s ->
    exists i r, rm_get rm n = Some i /\ nth_error g i = Some r /\ r_head r = n /\ In s (r_tail r).
  Proof.
    intros N (r & Hin & <- & Hs). apply In_nth_error in Hin. destruct Hin as (i & Hi).
    exists i, r. split; [apply rm_get_nodup; assumption|auto].
  Qed.

  Lemma form_has_null (firsts : list ByteSet) u :
    NoDup (heads g) -> (forall i, i < length g -> first_closed_at g firsts i) ->
    nullr g u -> form_has (first_of g firsts) u NUL = true.
  Proof.
    intros N C H. induction H as [|n s rest Ha _ IH1 _ IH2]; [reflexivity|]. cbn [form_has].
    destruct (alternative_index _ _ N Ha) as (i & r & Hi & Hr & Hn & Hs).
    assert (E : first_of g firsts n NUL = true).
    { unfold first_of. fold rm. rewrite Hi. eapply C; [apply nth_error_Some; congruence|eassumption..]. }
    rewrite E, IH2. apply orb_true_r.
  Qed.

  Lemma form_has_first (firsts : list ByteSet) c u :
    NoDup (heads g) -> (forall i, i < length g -> first_closed_at g firsts i) ->
    c <> NUL -> firstr g c u -> form_has (first_of g firsts) u c = true.
  Proof.
    intros N C Hc H. induction H as [rest|n s rest Ha _ IH|n rest Hn _ IH].
    - simpl. apply Ascii.eqb_refl.
    - cbn [form_has]. destruct (alternative_index _ _ N Ha) as (i & r & Hi & Hr & Hn & Hs).
      assert (E : first_of g firsts n c = true).
      { unfold first_of. fold rm. rewrite Hi. eapply C; [apply nth_error_Some; congruence|eassumption..]. }
      rewrite E. apply Ascii.eqb_neq in Hc. rewrite Hc. reflexivity.
    - cbn [form_has]. apply (form_has_null firsts) in Hn; [|assumption..]. cbn [form_has] in Hn.
      change (Ascii.eqb NUL NUL) with true in Hn. cbn [negb] in Hn.
      rewrite andb_false_r in Hn. cbn [orb] in Hn. apply andb_true_iff in Hn. destruct Hn as [Hn _].
      rewrite Hn, IH. apply orb_true_r.
  Qed.

  (** What the FIRST iteration leaves: exact on forms. *)
  Record first_exact (firsts : list ByteSet) : Prop := {
    fe_wf : all_wf firsts;
    fe_length : length firsts = length g;
    fe_forms : forall u c, ~ In (Ch NUL) u ->
      (form_has (first_of g firsts) u c = true <-> first_mark u c);
    fe_rules : forall i c, i < length g ->
      (set_at firsts i c = true <-> first_mark [NT (head_at i)] c) }.

  Lemma findFirsts_exact fuel firsts :
    NoDup (heads g) -> terminals_nulfree g ->
    findFirsts g rm fuel (repeat (bs_new []) (length g)) = Ok firsts -> first_exact firsts.
  Proof.
    intros N T H.
    destruct (findFirsts_spec g _ _ _ _ (first_inv_sound T) (repeat_wf _) (repeat_length _ _) H)
      as (W & L & S & C).
    assert (S' : forall j d, set_at firsts j d = true -> first_mark [NT (head_at j)] d).
    { apply S. intros j d E. rewrite repeat_empty in E. discriminate. }
    assert (FF : forall u c, ~ In (Ch NUL) u ->
      (form_has (first_of g firsts) u c = true <-> first_mark u c)).
    { intros u c Hu. split.
      - apply form_has_sound; [exact Hu|]. intros v d. apply first_of_mark, S'.
      - intros [M1 M2]. destruct (ascii_dec c NUL) as [->|Hc].
        + apply form_has_null; [assumption..|]. apply nullr_nullable. auto.
        + apply form_has_first; [assumption..|]. apply firstr_first. auto. }
    split; [exact W|exact L|exact FF|].
    intros i c Hi. split; [apply S'|]. intros M.
    destruct (nth_error g i) as [r|] eqn:Er; [|apply nth_error_None in Er; lia].
    rewrite (head_at_nth _ _ Er) in M.
    assert (X : form_has (first_of g firsts) [NT (r_head r)] c = true).
    { apply FF; [|exact M]. intros [E|[]]. discriminate. }
    cbn [form_has] in X. unfold first_of in X. fold rm in X. unfold rm in X.
    rewrite (rm_get_nodup _ _ _ N Er) in X.
    apply orb_true_iff in X. destruct X as [X|X]; apply andb_true_iff in X; destruct X as [X1 X2];
      [exact X1|]. apply Ascii.eqb_eq in X2. subst c. exact X1.
  Qed.
End Exact.
