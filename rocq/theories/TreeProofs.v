(** * TreeProofs: consequences of Spec_Parse.derives. *)
From Verif Require Import Base Cst Parser Spec_Parse Spec_Tree ParserProofs.

Lemma cell_fun tbl n c o1 o2 : cell tbl n c o1 -> cell tbl n c o2 -> o1 = o2.
Proof. intros (r & H1 & H2) (r' & H3 & H4). congruence. Qed.

(** ** Derivations are unique *)

Lemma derives_fun_both tbl src :
  (forall op p t q, derives tbl src op p t q ->
     forall t' q', derives tbl src op p t' q' -> t = t' /\ q = q') /\
  (forall ops p ts q, derives_all tbl src ops p ts q ->
     forall ts' q', derives_all tbl src ops p ts' q' -> ts = ts' /\ q = q').
Proof.
  apply derives_both.
  - intros t p Hn Ht t' q' H. inversion H; subst; [auto|congruence].
  - intros p t' q' H. inversion H; subst; [congruence|auto].
  - intros n ops p childs q Hn Hc Hne _ IH t' q' H. inversion H; subst; try lia.
    + match goal with H1 : cell _ n _ ?o |- _ =>
        assert (o = ops) as -> by (eapply cell_fun; eassumption) end.
      match goal with H1 : derives_all _ _ ops p ?c q' |- _ =>
        destruct (IH _ _ H1) as [-> ->] end. auto.
    + match goal with H1 : cell _ n _ [] |- _ =>
        assert (ops = []) by (eapply cell_fun; eassumption) end. congruence.
  - intros n p Hn Hc t' q' H. inversion H; subst; try lia; [|auto].
    match goal with H1 : cell _ n _ ?o, H2 : ?o <> [] |- _ =>
        assert (o = []) by (eapply cell_fun; eassumption) end. congruence.
  - intros p Hb t' q' H. inversion H; subst; try lia; [auto|].
    match goal with H1 : byte_at _ _ = CR |- _ => rewrite Hb in H1; discriminate end.
  - intros p Hb Hb2 t' q' H. inversion H; subst; try lia; [|auto].
    match goal with H1 : byte_at _ _ = LF, H2 : byte_at _ _ = CR |- _ =>
      rewrite H1 in H2; discriminate end.
  - intros p ts' q' H. inversion H; subst. auto.
  - intros op ops p t m ts q _ IH1 _ IH2 ts' q' H. inversion H; subst.
    match goal with H1 : derives _ _ op p ?t1 ?m1 |- _ =>
      destruct (IH1 _ _ H1) as [-> ->] end.
    match goal with H1 : derives_all _ _ ops ?m1 ?t1 q' |- _ =>
      destruct (IH2 _ _ H1) as [-> ->] end. auto.
Qed.

Lemma derives_fun tbl src op p t q t' q' :
  derives tbl src op p t q -> derives tbl src op p t' q' -> t = t' /\ q = q'.
Proof. intros H. apply (proj1 (derives_fun_both tbl src) _ _ _ _ H). Qed.

Lemma derives_text_fun tbl src t t' : derives_text tbl src t -> derives_text tbl src t' -> t = t'.
Proof. intros (q & H & _) (q' & H' & _). eapply derives_fun; eassumption. Qed.

(** ** Shape and place of the derived node *)

Lemma derives_root tbl src op p t q :
  derives tbl src op p t q ->
  n_pos t = Z.of_nat p /\ n_end t = Z.of_nat q /\ p <= q.
Proof.
  intros H.
  enough (G : (forall op p t q, derives tbl src op p t q ->
             n_pos t = Z.of_nat p /\ n_end t = Z.of_nat q /\ p <= q) /\
          (forall ops p ts q, derives_all tbl src ops p ts q -> p <= q))
    by (eapply (proj1 G); exact H).
  apply derives_both; intros; simpl in *; try (repeat split; try reflexivity; lia).
Qed.

Lemma derives_all_adjacent tbl src ops p ts q :
  derives_all tbl src ops p ts q -> adjacent (Z.of_nat p) ts (Z.of_nat q) /\ p <= q.
Proof.
  induction 1 as [p|op ops p t m ts q Hd Hds [IH1 IH2]]; simpl; [split; [reflexivity|lia]|].
  apply derives_root in Hd. destruct Hd as (H1 & H2 & H3).
  rewrite H2. repeat split; [exact H1|exact IH1|lia].
Qed.

Lemma subnode_node n ty p q childs :
  subnode n (Node ty p q childs) ->
  n = Node ty p q childs \/ exists c, In c childs /\ subnode n c.
Proof. intros H. inversion H; subst; [left; reflexivity|right; eauto]. Qed.

Lemma nothing_placed p n : subnode n (nothing_at p) -> well_placed n.
Proof.
  intros H. apply subnode_node in H. destruct H as [->|(c & [] & _)].
  (split; [simpl; lia|split; [simpl; congruence|]]). intros _. right. split; reflexivity.
Qed.

Lemma literal_placed p q n : p < q -> subnode n (literal_at p q) -> well_placed n.
Proof.
  intros Hpq H. apply subnode_node in H. destruct H as [->|(c & [] & _)].
  (split; [simpl; lia|split; [simpl; congruence|]]). intros _. left. simpl. split; [reflexivity|lia].
Qed.

Lemma derives_placed_both tbl src :
  (forall op p t q, derives tbl src op p t q -> forall n, subnode n t -> well_placed n) /\
  (forall ops p ts q, derives_all tbl src ops p ts q ->
     forall t, In t ts -> forall n, subnode n t -> well_placed n).
Proof.
  apply derives_both.
  - intros t p Hn Ht n Hs. eapply literal_placed; [|exact Hs].
    destruct t; [congruence|simpl; lia].
  - intros p n Hs. apply subnode_node in Hs. destruct Hs as [->|(c & [<-|[]] & Hc)].
    + (split; [simpl; lia|split; [simpl; auto|discriminate]]).
    + eapply nothing_placed; exact Hc.
  - intros nt ops p childs q Hn Hc Hne Hall IH n Hs.
    apply subnode_node in Hs. destruct Hs as [->|(c & Hin & Hs)]; [|eapply IH; eassumption].
    pose proof (derives_all_length _ _ _ _ _ _ Hall) as L.
    destruct (derives_all_adjacent _ _ _ _ _ _ Hall) as [A B].
    (split; [simpl; lia|split; [simpl; auto|simpl]]).
    intros ->. destruct ops; [congruence|discriminate].
  - intros nt p Hn Hc n Hs. apply subnode_node in Hs. destruct Hs as [->|(c & [<-|[]] & Hc')].
    + (split; [simpl; lia|split; [simpl; auto|discriminate]]).
    + eapply nothing_placed; exact Hc'.
  - intros p Hb n Hs. apply subnode_node in Hs. destruct Hs as [->|(c & [<-|[]] & Hc)].
    + (split; [simpl; lia|split; [simpl; auto|discriminate]]).
    + eapply literal_placed; [|exact Hc]. lia.
  - intros p Hb Hb2 n Hs. apply subnode_node in Hs.
    destruct Hs as [->|(c & [<-|[<-|[]]] & Hc)].
    + (split; [simpl; lia|split; [simpl; auto|discriminate]]).
    + eapply literal_placed; [|exact Hc]. lia.
    + eapply literal_placed; [|exact Hc]. lia.
  - intros p t [].
  - intros op ops p t m ts q _ IH1 _ IH2 t' [<-|Hin] n Hs; [apply IH1; exact Hs|].
    eapply IH2; eassumption.
Qed.

(** ** Bounds *)

Lemma table_cell_nulfree tbl n c ops t :
  table_nulfree tbl -> cell tbl n c ops -> In (OpTerminal t) ops -> ~ In NUL t.
Proof.
  intros H (r & Hr & Hc) Hin. eapply H; [| |exact Hin].
  - eapply map_get_in; [apply Z.eqb_eq|exact Hr].
  - eapply map_get_in; [apply Ascii.eqb_eq|exact Hc].
Qed.

Lemma byte_at_out src k : length src <= k -> byte_at src k = NUL.
Proof. intros H. apply nth_overflow, H. Qed.

Lemma byte_at_in src k : byte_at src k <> NUL -> k < length src.
Proof.
  intros H. destruct (Nat.lt_ge_cases k (length src)) as [L|L]; [exact L|].
  rewrite byte_at_out in H by exact L. congruence.
Qed.

Lemma occurs_bound src p t :
  occurs_at src p t -> ~ In NUL t -> p <= length src -> p + length t <= length src.
Proof.
  intros H Hn Hp. destruct t as [|c t] using rev_ind; [simpl; lia|].
  rewrite app_length in *. simpl.
  specialize (H (length t)). rewrite app_length in H. simpl in H.
  assert (byte_at src (p + length t) = c) as E.
  { rewrite H by lia. rewrite app_nth2 by lia. rewrite Nat.sub_diag. reflexivity. }
  assert (p + length t < length src); [|lia].
  apply byte_at_in. rewrite E. intros ->. apply Hn, in_or_app. right. left. reflexivity.
Qed.

Definition op_nulfree (op : ParserOp) : Prop :=
  match op with OpTerminal t => ~ In NUL t | _ => True end.

Lemma cell_op_nulfree tbl n c ops :
  table_nulfree tbl -> cell tbl n c ops -> Forall op_nulfree ops.
Proof.
  intros H Hc. apply Forall_forall. intros op Hin. destruct op; simpl; auto.
  eapply table_cell_nulfree; eassumption.
Qed.

Lemma derives_bound_both tbl src :
  table_nulfree tbl ->
  (forall op p t q, derives tbl src op p t q ->
     op_nulfree op -> p <= length src -> q <= length src) /\
  (forall ops p ts q, derives_all tbl src ops p ts q ->
     Forall op_nulfree ops -> p <= length src -> q <= length src).
Proof.
  intros NF. apply derives_both; simpl; auto.
  - intros t p Hn Ht Hf Hp. apply occurs_bound; assumption.
  - intros n ops p childs q Hn Hc Hne _ IH _ Hp. apply IH; [|exact Hp].
    eapply cell_op_nulfree; eassumption.
  - intros p Hb _ Hp. assert (p < length src); [|lia]. apply byte_at_in. rewrite Hb. discriminate.
  - intros p Hb Hb2 _ Hp. assert (p + 1 < length src); [|lia].
    apply byte_at_in. rewrite Hb2. discriminate.
  - intros op ops p t m ts q _ IH1 _ IH2 HF Hp. inversion HF; subst. auto.
Qed.

(** All offsets of a tree lie between those of its root. *)
Lemma placed_inside t :
  (forall n, subnode n t -> well_placed n) ->
  forall n, subnode n t -> (n_pos t <= n_pos n)%Z /\ (n_end n <= n_end t)%Z.
Proof.
  intros W n Hs. induction Hs as [|ty p q childs c Hin Hs IH]; [lia|].
  assert (Wc : forall n, subnode n c -> well_placed n).
  { intros m Hm. apply W. econstructor; eassumption. }
  specialize (IH Wc).
  assert (G : (p <= n_pos c)%Z /\ (n_end c <= q)%Z); [|simpl in *; lia].
  destruct (W _ (sub_here _)) as (Hle & Hadj & _). simpl in Hle, Hadj.
  assert (Hne : childs <> []) by (intros ->; destruct Hin).
  specialize (Hadj Hne).
  assert (Wch : forall c, In c childs -> (n_pos c <= n_end c)%Z).
  { intros c' Hc'. apply W. eapply sub_child; [exact Hc'|constructor]. }
  clear -Hadj Hin Wch. revert p Hadj. induction childs as [|d l IHl]; intros p Hadj; [destruct Hin|].
  simpl in Hadj. destruct Hadj as [Hp Hadj].
  assert (Wl : forall c, In c l -> (n_pos c <= n_end c)%Z) by (intros; apply Wch; right; assumption).
  pose proof (Wch d (or_introl eq_refl)) as Hd.
  assert (Hend : forall p l q, (forall c, In c l -> (n_pos c <= n_end c)%Z) ->
            adjacent p l q -> (p <= q)%Z).
  { clear. intros p l. revert p. induction l as [|d l IHl]; intros p q W A; simpl in A; [lia|].
    destruct A as [A1 A2]. apply IHl in A2; [|intros; apply W; right; assumption].
    specialize (W d (or_introl eq_refl)). lia. }
  specialize (Hend _ _ _ Wl Hadj).
  destruct Hin as [->|Hin]; [lia|]. destruct (IHl Hin Wl _ Hadj). lia.
Qed.

(** ** Leaves spell the source *)

Lemma skipn_skipn_add {A} (l : list A) n m : skipn n (skipn m l) = skipn (m + n) l.
Proof.
  revert l. induction m as [|m IH]; intros l; [reflexivity|].
  destruct l as [|a l]; [destruct n; reflexivity|]. simpl. apply IH.
Qed.

Lemma firstn_skipn_split {A} (l : list A) a b c :
  a <= b -> b <= c ->
  firstn (c - a) (skipn a l) = firstn (b - a) (skipn a l) ++ firstn (c - b) (skipn b l).
Proof.
  intros H1 H2. replace (skipn b l) with (skipn (b - a) (skipn a l)).
  2:{ rewrite skipn_skipn_add. f_equal. lia. }
  generalize (skipn a l) as m. intros m.
  rewrite <- (firstn_skipn (b - a) (firstn (c - a) m)).
  rewrite firstn_firstn, skipn_firstn_comm. f_equal; f_equal; lia.
Qed.

Definition slice_nat (src : bytes) (p q : nat) : bytes := firstn (q - p) (skipn p src).

Lemma text_of_nat src p q : text_of src (Z.of_nat p) (Z.of_nat q) = slice_nat src p q.
Proof. unfold text_of, slice_nat. f_equal; [lia|]. f_equal. lia. Qed.

Lemma nth_firstn_lt {A} (d : A) l n i : i < n -> nth i (firstn n l) d = nth i l d.
Proof.
  revert l i. induction n as [|n IH]; intros l i H; [lia|].
  destruct l as [|a l]; [destruct i; reflexivity|]. destruct i as [|i]; [reflexivity|].
  simpl. apply IH. lia.
Qed.

Lemma nth_skipn {A} (d : A) l n i : nth i (skipn n l) d = nth (n + i) l d.
Proof.
  revert l. induction n as [|n IH]; intros l; [reflexivity|].
  destruct l as [|a l]; [destruct i; reflexivity|]. simpl. apply IH.
Qed.

Lemma occurs_slice src p t :
  occurs_at src p t -> p + length t <= length src -> slice_nat src p (p + length t) = t.
Proof.
  intros H Hb. unfold slice_nat. replace (p + length t - p) with (length t) by lia.
  apply nth_ext with (d := NUL) (d' := NUL).
  - rewrite firstn_length, skipn_length. lia.
  - intros i Hi. rewrite firstn_length, skipn_length in Hi.
    rewrite nth_firstn_lt, nth_skipn by lia. apply H. lia.
Qed.

Lemma slice_one src p c :
  byte_at src p = c -> p < length src -> slice_nat src p (p + 1) = [c].
Proof.
  intros H Hp. apply (occurs_slice src p [c]); [|simpl; lia].
  intros [|i] Hi; [rewrite Nat.add_0_r; exact H|simpl in Hi; lia].
Qed.

Definition lit_texts (src : bytes) (t : node) : list bytes :=
  map (fun n => text_of src (n_pos n) (n_end n)) (literals t).

Lemma derives_spell_both tbl src :
  table_nulfree tbl ->
  (forall op p t q, derives tbl src op p t q ->
     op_nulfree op -> p <= length src ->
     exists ts, built tbl op t ts /\ lit_texts src t = ts /\ concat ts = slice_nat src p q) /\
  (forall ops p l q, derives_all tbl src ops p l q ->
     Forall op_nulfree ops -> p <= length src ->
     exists ts, built_all tbl ops l ts /\ flat_map (lit_texts src) l = ts /\
                concat ts = slice_nat src p q).
Proof.
  intros NF. apply derives_both.
  - intros t p Hn Ht Hf Hp. exists [t]. split; [constructor|].
    assert (E : slice_nat src p (p + length t) = t).
    { apply occurs_slice; [exact Ht|]. apply occurs_bound; assumption. }
    split.
    + unfold lit_texts. simpl. rewrite text_of_nat, E. reflexivity.
    + simpl. rewrite app_nil_r, E. reflexivity.
  - intros p _ Hp. exists [[]]. split; [constructor|].
    assert (E : slice_nat src p p = []) by (unfold slice_nat; rewrite Nat.sub_diag; reflexivity).
    split; [unfold lit_texts; simpl; rewrite text_of_nat, E; reflexivity|].
    simpl. rewrite E. reflexivity.
  - intros n ops p childs q Hn Hc Hne Hds IH _ Hp.
    destruct (IH (cell_op_nulfree _ _ _ _ NF Hc) Hp) as (ts & Hb & Ht & Hs).
    exists ts. split; [econstructor; eassumption|]. split; [|exact Hs].
    rewrite <- Ht. unfold lit_texts. simpl.
    assert ((n =? -1)%Z = false) as -> by (apply Z.eqb_neq; lia).
    clear. induction childs as [|c l IH]; [reflexivity|]. simpl. rewrite map_app, IH. reflexivity.
  - intros n p Hn Hc _ Hp. exists []. split; [econstructor; eassumption|]. split.
    + unfold lit_texts. simpl. assert ((n =? -1)%Z = false) as -> by (apply Z.eqb_neq; lia).
      reflexivity.
    + unfold slice_nat. rewrite Nat.sub_diag. reflexivity.
  - intros p Hb _ Hp. exists [[LF]]. split; [constructor|].
    assert (L : p < length src) by (apply byte_at_in; rewrite Hb; discriminate).
    pose proof (slice_one src p LF Hb L) as E. split.
    + change (lit_texts src _) with [text_of src (Z.of_nat p) (Z.of_nat (p + 1))].
      rewrite text_of_nat, E. reflexivity.
    + simpl. rewrite E. reflexivity.
  - intros p Hb Hb2 _ Hp. exists [[CR]; [LF]]. split; [constructor|].
    assert (L : p + 1 < length src) by (apply byte_at_in; rewrite Hb2; discriminate).
    pose proof (slice_one src p CR Hb ltac:(lia)) as E1.
    pose proof (slice_one src (p + 1) LF Hb2 L) as E2.
    replace (p + 1 + 1) with (p + 2) in E2 by lia.
    split.
    + change (lit_texts src _) with [text_of src (Z.of_nat p) (Z.of_nat (p + 1));
        text_of src (Z.of_nat (p + 1)) (Z.of_nat (p + 2))].
      rewrite !text_of_nat, E1, E2. reflexivity.
    + simpl. unfold slice_nat in *. rewrite (firstn_skipn_split src p (p + 1) (p + 2)) by lia.
      rewrite E1, E2. reflexivity.
  - intros p _ _. exists []. split; [constructor|]. split; [reflexivity|].
    unfold slice_nat. rewrite Nat.sub_diag. reflexivity.
  - intros op ops p t m ts q Hd IH1 Hds IH2 HF Hp. inversion HF; subst.
    destruct (IH1 ltac:(assumption) Hp) as (ts1 & B1 & T1 & S1).
    pose proof (proj1 (derives_bound_both tbl src NF) _ _ _ _ Hd ltac:(assumption) Hp) as Hm.
    destruct (IH2 ltac:(assumption) Hm) as (ts2 & B2 & T2 & S2).
    exists (ts1 ++ ts2). split; [constructor; assumption|]. split.
    + simpl. rewrite T1, T2. reflexivity.
    + rewrite concat_app, S1, S2. unfold slice_nat.
      apply derives_root in Hd. apply derives_all_adjacent in Hds.
      rewrite (firstn_skipn_split src p m q) by lia. reflexivity.
Qed.

(** ** Shape of the nodes of type -2 (and no type below) *)

Definition eol_or_nothing (src : bytes) (n : node) : Prop :=
  (n_childs n = [] /\ n_pos n = n_end n) \/
  (exists p, n = mk (-2) p (p + 1) [literal_at p (p + 1)] /\ byte_at src p = LF) \/
  (exists p, n = mk (-2) p (p + 2) [literal_at p (p + 1); literal_at (p + 1) (p + 2)] /\
             byte_at src p = CR /\ byte_at src (p + 1) = LF).

Definition type_ok (src : bytes) (n : node) : Prop :=
  (-2 <= n_type n)%Z /\ (n_type n = (-2)%Z -> eol_or_nothing src n).

Lemma literal_type_ok src p q n : subnode n (literal_at p q) -> type_ok src n.
Proof.
  intros H. apply subnode_node in H. destruct H as [->|(c & [] & _)].
  split; simpl; [lia|lia].
Qed.
Lemma nothing_type_ok src p n : subnode n (nothing_at p) -> type_ok src n.
Proof.
  intros H. apply subnode_node in H. destruct H as [->|(c & [] & _)].
  split; simpl; [lia|]. intros _. left. split; reflexivity.
Qed.

Lemma derives_types_both tbl src :
  (forall op p t q, derives tbl src op p t q -> forall n, subnode n t -> type_ok src n) /\
  (forall ops p ts q, derives_all tbl src ops p ts q ->
     forall t, In t ts -> forall n, subnode n t -> type_ok src n).
Proof.
  apply derives_both.
  - intros t p _ _ n. apply literal_type_ok.
  - intros p n Hs. apply subnode_node in Hs. destruct Hs as [->|(c & [<-|[]] & Hc)].
    + split; simpl; lia.
    + eapply nothing_type_ok; exact Hc.
  - intros nt ops p childs q Hn Hc Hne Hall IH n Hs.
    apply subnode_node in Hs. destruct Hs as [->|(c & Hin & Hs)]; [|eapply IH; eassumption].
    split; simpl; lia.
  - intros nt p Hn Hc n Hs. apply subnode_node in Hs. destruct Hs as [->|(c & [<-|[]] & Hc')].
    + split; simpl; lia.
    + eapply nothing_type_ok; exact Hc'.
  - intros p Hb n Hs. apply subnode_node in Hs. destruct Hs as [->|(c & [<-|[]] & Hc)].
    + split; simpl; [lia|]. intros _. right. left. exists p. split; [reflexivity|exact Hb].
    + eapply literal_type_ok; exact Hc.
  - intros p Hb Hb2 n Hs. apply subnode_node in Hs.
    destruct Hs as [->|(c & [<-|[<-|[]]] & Hc)].
    + split; simpl; [lia|]. intros _. right. right. exists p. auto.
    + eapply literal_type_ok; exact Hc.
    + eapply literal_type_ok; exact Hc.
  - intros p t [].
  - intros op ops p t m ts q _ IH1 _ IH2 t' [<-|Hin] n Hs; [apply IH1; exact Hs|].
    eapply IH2; eassumption.
Qed.

(** ** Failures as rewriting *)

Section Rewriting.
  Variable tbl : table.
  Variable src : bytes.
  Variable names : names_map.
  Notation rw := (rewrites tbl src).
  Notation rws := (rewrites_star tbl src).

  Lemma rws_trans a b c : rws a b -> rws b c -> rws a c.
  Proof. induction 1; [auto|]. intros. econstructor; eauto. Qed.
  Lemma rws_one a b : rw a b -> rws a b.
  Proof. intros. econstructor; [eassumption|constructor]. Qed.

  Lemma items_app a b : items (a ++ b) = items a ++ items b.
  Proof. apply flat_map_app. Qed.

  Lemma occurs_rws t : forall p form,
    occurs_at src p t -> rws (p, map Byte t ++ form) (p + length t, form).
  Proof.
    induction t as [|c t IH]; intros p form H; simpl.
    - rewrite Nat.add_0_r. constructor.
    - apply occurs_cons in H. destruct H as [Hc Ht].
      econstructor; [apply rw_byte, Hc|]. rewrite Nat.add_succ_r. apply (IH (S p)), Ht.
  Qed.

  Lemma derives_rws_both :
    (forall op p t q, derives tbl src op p t q ->
       forall form, rws (p, items_of op ++ form) (q, form)) /\
    (forall ops p ts q, derives_all tbl src ops p ts q ->
       forall form, rws (p, items ops ++ form) (q, form)).
  Proof.
    apply derives_both.
    - intros t p _ Ht form. apply occurs_rws, Ht.
    - intros p form. constructor.
    - intros n ops p childs q Hn Hc _ _ IH form. simpl.
      econstructor; [apply rw_row; eassumption|]. apply IH.
    - intros n p Hn Hc form. simpl. econstructor; [apply rw_row; eassumption|]. constructor.
    - intros p Hb form. simpl. econstructor; [apply rw_eol_lf, Hb|].
      replace (p + 1) with (S p) by lia. apply rws_one, rw_byte, Hb.
    - intros p Hb Hb2 form. simpl. econstructor; [apply rw_eol_cr, Hb|].
      econstructor; [apply rw_byte, Hb|].
      replace (p + 2) with (S (S p)) by lia. apply rws_one, rw_byte.
      rewrite <- Hb2. f_equal. lia.
    - intros p form. constructor.
    - intros op ops p t m ts q _ IH1 _ IH2 form. simpl. rewrite <- app_assoc.
      eapply rws_trans; [apply IH1|apply IH2].
  Qed.

  Lemma fails_stuck_both :
    (forall op p k e, fails tbl src names op p k e ->
       forall form, exists form', rws (p, items_of op ++ form) (k, form') /\
                                  stuck tbl src names k form' e) /\
    (forall ops p k e, fails_all tbl src names ops p k e ->
       forall form, exists form', rws (p, items ops ++ form) (k, form') /\
                                  stuck tbl src names k form' e).
  Proof.
    apply fails_both.
    - intros t1 c t2 p H1 H2 form. simpl. rewrite map_app, <- app_assoc.
      eexists. split; [apply occurs_rws, H1|]. simpl. apply st_byte. exact H2.
    - intros n p Hn Hr form. eexists. split; [constructor|]. simpl. apply st_no_row; assumption.
    - intros n r p Hn Hr Hc form. eexists. split; [constructor|]. simpl.
      eapply st_no_cell; eassumption.
    - intros n ops p k e Hn Hc _ IH form. destruct (IH form) as (form' & H1 & H2).
      exists form'. split; [|exact H2]. simpl. econstructor; [apply rw_row; eassumption|exact H1].
    - intros p H1 H2 form. eexists. split; [constructor|]. simpl. apply st_eol; assumption.
    - intros p H1 H2 form. eexists. split.
      + simpl. econstructor; [apply rw_eol_cr, H1|].
        replace (p + 1) with (S p) by lia. apply rws_one, rw_byte, H1.
      + apply st_byte. exact H2.
    - intros n p H1 H2 form. eexists. split; [constructor|]. simpl. apply st_builtin; assumption.
    - intros op ops p k e _ IH form. simpl. rewrite <- app_assoc. apply IH.
    - intros op ops p t m k e Hd _ IH form. destruct (IH form) as (form' & H1 & H2).
      exists form'. split; [|exact H2]. simpl. rewrite <- app_assoc.
      eapply rws_trans; [apply (proj1 derives_rws_both _ _ _ _ Hd)|exact H1].
  Qed.

  Lemma rejects_refuses k e : rejects tbl src names k e -> refuses tbl src names k e.
  Proof.
    intros [F|(t & Hd & Hk & ->)].
    - destruct (proj1 fails_stuck_both _ _ _ _ F []) as (form' & H1 & H2).
      exists form'. split; [exact H1|exact H2].
    - exists []. split; [|constructor; exact Hk].
      apply (proj1 derives_rws_both _ _ _ _ Hd []).
  Qed.

  (** *** Conversely: a finished rewriting is a derivation or a failure *)

  Inductive chain : nat -> nat * list item -> nat * list item -> Prop :=
  | ch_0 c : chain 0 c c
  | ch_S n a b c : rw a b -> chain n b c -> chain (S n) a c.

  Lemma rws_chain a b : rws a b -> exists n, chain n a b.
  Proof.
    induction 1 as [c|a b c H _ (n & IH)]; [exists 0; constructor|].
    exists (S n). econstructor; eassumption.
  Qed.

  Definition final (k : nat) (form : list item) : Prop :=
    form = [] \/ (form <> [] /\ exists e, stuck tbl src names k form e).

  (** [ends op n p k form form']: what a chain starting with [op] looks like. *)
  Definition ends (op : ParserOp) (n p k : nat) (form form' : list item) : Prop :=
    (exists t m n', n' <= n /\ derives tbl src op p t m /\ chain n' (m, form) (k, form')) \/
    (exists e, form' <> [] /\ stuck tbl src names k form' e /\ fails tbl src names op p k e).
  Definition ends_all (ops : list ParserOp) (n p k : nat) (form form' : list item) : Prop :=
    (exists ts m n', n' <= n /\ derives_all tbl src ops p ts m /\ chain n' (m, form) (k, form')) \/
    (exists e, form' <> [] /\ stuck tbl src names k form' e /\ fails_all tbl src names ops p k e).

  Lemma stuck_irreducible k form e c : stuck tbl src names k form e -> ~ rw (k, form) c.
  Proof.
    intros S R.
    inversion S; subst; inversion R; subst; try congruence; try lia;
    repeat match goal with
    | H : cell _ _ _ _ |- _ => destruct H as (? & ? & ?)
    end; congruence.
  Qed.

  Lemma chain_inv n a c : chain n a c -> a = c \/ exists m b, n = S m /\ rw a b /\ chain m b c.
  Proof. inversion 1; subst; [left; reflexivity|right; eauto 6]. Qed.

  Lemma bytes_chain t : forall n p k form form',
    chain n (p, map Byte t ++ form) (k, form') -> final k form' ->
    (occurs_at src p t /\ exists n', n' <= n /\ chain n' (p + length t, form) (k, form')) \/
    (exists t1 c t2, t = t1 ++ c :: t2 /\ occurs_at src p t1 /\
       byte_at src (p + length t1) <> c /\ k = p + length t1 /\
       form' = map Byte (c :: t2) ++ form).
  Proof.
    induction t as [|c t IH]; intros n p k form form' Hch Hfin.
    - left. split; [intros i Hi; simpl in Hi; lia|]. exists n. rewrite Nat.add_0_r. split; [lia|].
      exact Hch.
    - apply chain_inv in Hch. destruct Hch as [E|(m & b & -> & R & Hch)].
      + injection E as <- <-. right. exists [], c, t. simpl. rewrite Nat.add_0_r.
        split; [reflexivity|]. split; [intros i Hi; simpl in Hi; lia|].
        split; [|split; reflexivity].
        destruct Hfin as [F|[_ (e & F)]]; [discriminate|]. inversion F; subst. assumption.
      + inversion R; subst.
        destruct (IH _ _ _ _ _ Hch Hfin) as [[H1 (n' & L & H2)]|(t1 & c & t2 & -> & H1 & H2 & -> & ->)].
        * left. split; [apply occurs_cons; split; [reflexivity|exact H1]|].
          exists n'. split; [lia|]. simpl. rewrite Nat.add_succ_r. exact H2.
        * right. exists (byte_at src p :: t1), c, t2. simpl length. rewrite Nat.add_succ_r.
          split; [reflexivity|]. split; [apply occurs_cons; split; [reflexivity|exact H1]|].
          split; [exact H2|]. split; reflexivity.
  Qed.

  Lemma terminal_derives t p :
    occurs_at src p t -> exists nd, derives tbl src (OpTerminal t) p nd (p + length t).
  Proof.
    intros H. destruct t as [|c t].
    - eexists. simpl. rewrite Nat.add_0_r. apply d_terminal_empty.
    - eexists. apply d_terminal; [discriminate|exact H].
  Qed.

  Lemma terminal_ends t n p k form form' :
    chain n (p, map Byte t ++ form) (k, form') -> final k form' ->
    ends (OpTerminal t) n p k form form'.
  Proof.
    intros Hch Hfin.
    destruct (bytes_chain _ _ _ _ _ _ Hch Hfin)
      as [[H1 (n' & L & H2)]|(t1 & c & t2 & -> & H1 & H2 & -> & ->)].
    - left. destruct (terminal_derives t p H1) as (nd & D). exists nd, (p + length t), n'. auto.
    - right. exists (EExpectedChar c (byte_at src (p + length t1))).
      split; [discriminate|]. split; [apply st_byte; exact H2|]. apply f_terminal; assumption.
  Qed.

  Hypothesis public : table_public tbl.

  Lemma all_ends n0 :
    (forall op n p k form form', n <= n0 -> op_public op = true ->
       chain n (p, items_of op ++ form) (k, form') -> final k form' -> ends op n p k form form') ->
    forall ops, Forall (fun op => op_public op = true) ops ->
    forall n p k form form', n <= n0 ->
      chain n (p, items ops ++ form) (k, form') -> final k form' -> ends_all ops n p k form form'.
  Proof.
    intros IH ops Hpub. induction Hpub as [|op ops Hop _ IHo]; intros n p k form form' Hn Hch Hfin.
    - left. exists [], p, n. split; [lia|]. split; [constructor|exact Hch].
    - simpl in Hch. rewrite <- app_assoc in Hch.
      destruct (IH _ _ _ _ _ _ Hn Hop Hch Hfin) as [(t & m & n1 & L1 & D1 & C1)|(e & N & S & F)].
      + destruct (IHo _ _ _ _ _ (Nat.le_trans _ _ _ L1 Hn) C1 Hfin)
          as [(ts & q & n2 & L2 & D2 & C2)|(e & N & S & F)].
        * left. exists (t :: ts), q, n2. split; [lia|]. split; [econstructor; eassumption|exact C2].
        * right. exists e. split; [exact N|]. split; [exact S|]. eapply f_tail; eassumption.
      + right. exists e. split; [exact N|]. split; [exact S|]. apply f_head, F.
  Qed.

  Lemma op_ends n0 : forall op n p k form form', n <= n0 -> op_public op = true ->
    chain n (p, items_of op ++ form) (k, form') -> final k form' -> ends op n p k form form'.
  Proof.
    induction n0 as [|n0 IH]; intros op n p k form form' Hn Hop Hch Hfin;
      (destruct op as [nt|t| | | | |]; try discriminate; [|apply terminal_ends; assumption]);
      simpl in Hch; apply chain_inv in Hch; destruct Hch as [E|(m & b & -> & R & Hch)].
    - injection E as <- <-. destruct Hfin as [F|[N (e & S)]]; [discriminate|].
      right. exists e. split; [exact N|]. split; [exact S|]. inversion S; subst.
      + apply f_no_row; assumption.
      + eapply f_no_cell; eassumption.
      + apply f_eol; assumption.
      + apply f_builtin; assumption.
    - lia.
    - injection E as <- <-. destruct Hfin as [F|[N (e & S)]]; [discriminate|].
      right. exists e. split; [exact N|]. split; [exact S|]. inversion S; subst.
      + apply f_no_row; assumption.
      + eapply f_no_cell; eassumption.
      + apply f_eol; assumption.
      + apply f_builtin; assumption.
    - inversion R; subst.
      + match goal with H : cell _ nt _ _ |- _ => rename H into Hcell end.
        destruct (all_ends n0 IH ops (cell_public _ _ _ _ public Hcell) m p k form form'
                    ltac:(lia) Hch Hfin) as [(ts & q & n2 & L2 & D2 & C2)|(e & N & S & F)].
        * left. destruct ops as [|op ops].
          -- inversion D2; subst. do 3 eexists.
             split; [|split; [apply d_nonterminal_empty; assumption|exact C2]]. lia.
          -- do 3 eexists.
             split; [|split; [eapply d_nonterminal; [assumption|exact Hcell|discriminate|exact D2]|exact C2]].
             lia.
        * right. exists e. split; [exact N|]. split; [exact S|]. eapply f_nonterminal; eassumption.
      + (* LF *)
        match goal with H : byte_at _ _ = LF |- _ => rename H into Hb end.
        destruct (bytes_chain [LF] _ _ _ _ _ Hch Hfin)
          as [[H1 (n' & L & H2)]|(t1 & c & t2 & E & H1 & H2 & -> & ->)].
        * left. do 3 eexists. split; [|split; [apply d_eol_lf, Hb|exact H2]]. lia.
        * destruct t1 as [|? [|? ?]]; try discriminate. injection E as <- <-.
          simpl in H2. rewrite Nat.add_0_r in H2. congruence.
      + match goal with H : byte_at _ _ = CR |- _ => rename H into Hb end.
        destruct (bytes_chain [CR; LF] _ _ _ _ _ Hch Hfin)
          as [[H1 (n' & L & H2)]|(t1 & c & t2 & E & H1 & H2 & -> & ->)].
        * left. do 3 eexists. split; [|split; [apply d_eol_crlf; [exact Hb|]|exact H2]]; [lia|].
          apply (H1 1). simpl. lia.
        * destruct t1 as [|a t1].
          -- injection E as <- <-. simpl in H2. rewrite Nat.add_0_r in H2. congruence.
          -- destruct t1 as [|? [|? ?]]; try discriminate. injection E as <- <- <-.
             right. exists (EExpectedChar LF (byte_at src (p + 1))).
             split; [discriminate|]. split; [apply st_byte; exact H2|]. apply f_eol_cr; assumption.
  Qed.

  Lemma stuck_final k form e : stuck tbl src names k form e -> final k form.
  Proof.
    intros S. destruct form; [left; reflexivity|right]. split; [discriminate|]. exists e. exact S.
  Qed.

  Lemma stuck_fun k form e e' : stuck tbl src names k form e -> stuck tbl src names k form e' -> e = e'.
  Proof. intros S S'. inversion S; subst; inversion S'; subst; congruence || lia. Qed.

  Lemma refuses_rejects k e : refuses tbl src names k e -> rejects tbl src names k e.
  Proof.
    intros (form & Hr & Hs). apply rws_chain in Hr. destruct Hr as (n & Hch).
    destruct (op_ends n (OpNonTerminal 0) n 0 k [] form (le_n _) eq_refl Hch (stuck_final _ _ _ Hs))
      as [(t & m & n' & L & D & C)|(e' & N & S & F)].
    - apply chain_inv in C. destruct C as [E|(m' & b & -> & R & _)]; [|inversion R].
      injection E as <- <-. right. exists t. inversion Hs; subst. auto.
    - left. rewrite (stuck_fun _ _ _ _ Hs S). exact F.
  Qed.

  Lemma derives_text_rws t :
    derives_text tbl src t -> exists q, rws (0, [Row 0]) (q, []) /\ byte_at src q = NUL.
  Proof.
    intros (q & D & Hq). exists q. split; [|exact Hq].
    apply (proj1 derives_rws_both _ _ _ _ D []).
  Qed.

  Lemma rws_derives_text q :
    rws (0, [Row 0]) (q, []) -> byte_at src q = NUL -> exists t, derives_text tbl src t.
  Proof.
    intros Hr Hq. apply rws_chain in Hr. destruct Hr as (n & Hch).
    destruct (op_ends n (OpNonTerminal 0) n 0 q [] [] (le_n _) eq_refl Hch (or_introl eq_refl))
      as [(t & m & n' & L & D & C)|(e' & N & S & F)]; [|congruence].
    apply chain_inv in C. destruct C as [E|(m' & b & -> & R & _)]; [|inversion R].
    injection E as <-. exists t, m. auto.
  Qed.
End Rewriting.

(** *** What has been matched is a viable prefix *)

Definition item_nulfree (i : item) : Prop := match i with Byte c => c <> NUL | Row _ => True end.

Lemma items_nulfree tbl n c ops :
  table_nulfree tbl -> cell tbl n c ops -> Forall item_nulfree (items ops).
Proof.
  intros NF Hc. pose proof (cell_op_nulfree _ _ _ _ NF Hc) as H. clear Hc.
  induction H as [|op ops Hop _ IH]; [constructor|]. simpl. apply Forall_app. split; [|exact IH].
  destruct op as [nt|t| | | | |]; simpl; try constructor; try exact I; [constructor|].
  apply Forall_forall. intros i Hi. apply in_map_iff in Hi. destruct Hi as (x & <- & Hx).
  simpl. intros ->. apply Hop, Hx.
Qed.

Lemma rewrites_matched tbl src a b :
  table_nulfree tbl -> rewrites_star tbl src a b ->
  Forall item_nulfree (snd a) -> fst a <= length src ->
  fst b <= length src /\
  forall f, generates tbl f (map Byte (firstn (fst a) src) ++ snd a) ->
            generates tbl f (map Byte (firstn (fst b) src) ++ snd b).
Proof.
  intros NF H. induction H as [c|a b c R _ IH]; intros HF Hle; [auto|].
  assert (G : Forall item_nulfree (snd b) /\ fst b <= length src /\
    forall f, generates tbl f (map Byte (firstn (fst a) src) ++ snd a) ->
              generates tbl f (map Byte (firstn (fst b) src) ++ snd b)).
  { inversion R; subst; cbn [fst snd] in *.
    - inversion HF as [|? ? Hc HF']; subst. simpl in Hc.
      pose proof (byte_at_in src k Hc) as L.
      split; [exact HF'|]. split; [lia|]. intros f Hg.
      assert (E : firstn (S k) src = firstn k src ++ [byte_at src k]).
      { unfold byte_at. clear -L. revert k L. induction src as [|x s IH]; intros k L; [simpl in L; lia|].
        destruct k as [|k]; [reflexivity|]. simpl in *. f_equal. apply IH. lia. }
      rewrite E, map_app, <- app_assoc. exact Hg.
    - inversion HF; subst. split.
      + apply Forall_app. split; [eapply items_nulfree; eassumption|assumption].
      + split; [exact Hle|]. intros f Hg. eapply g_row; eassumption.
    - inversion HF; subst. split; [constructor; [discriminate|assumption]|].
      split; [exact Hle|]. intros f Hg. apply g_lf, Hg.
    - inversion HF; subst. split; [repeat (constructor; [discriminate|]); assumption|].
      split; [exact Hle|]. intros f Hg. apply g_crlf, Hg. }
  destruct G as (G1 & G2 & G3). destruct (IH G1 G2) as [I1 I2].
  split; [exact I1|]. intros f Hg. apply I2, G3, Hg.
Qed.
