(** * TGMem: the table generator with memory and the one with values agree. *)
From Verif Require Import Base ByteSet Ast Parser SliceMem ParserMem TableGen TableGenMem
  Spec_Mem Spec_GenMem ParserMemProofs.

Local Ltac conj := repeat match goal with |- _ /\ _ => split end.

(** ** Reading *)
Lemma kept_refl {T} (h : heap T) : kept h h.
Proof. intros a arr H. exact H. Qed.
Lemma kept_trans {T} (a b c : heap T) : kept a b -> kept b c -> kept a c.
Proof. intros A B x arr H. apply B, A, H. Qed.
Lemma all_kept_refl m : all_kept m m.
Proof. repeat split; auto using kept_refl. Qed.
Lemma all_kept_trans a b c : all_kept a b -> all_kept b c -> all_kept a c.
Proof.
  intros (A1 & A2 & A3 & A4 & A5) (B1 & B2 & B3 & B4 & B5).
  split; [eapply untouched_trans; eassumption|]. repeat split; eapply kept_trans; eassumption.
Qed.


Lemma rules_in_kept m m' mrs g : all_kept m m' -> Forall2 (rule_in m) mrs g -> Forall2 (rule_in m') mrs g.
Proof.
  intros (_ & K1 & K2 & _) F.
  induction F as [|mr r mrs g (E & seqs & Hs & Fs) F IH]; constructor; [|exact IH].
  split; [exact E|]. exists seqs. split; [eapply holds_untouched; [exact K2|exact Hs]|].
  clear -K1 Fs. induction Fs; constructor; [|assumption].
  eapply holds_untouched; [exact K1|assumption].
Qed.

Lemma grammar_in_kept m m' mg g : all_kept m m' -> grammar_in m mg g -> grammar_in m' mg g.
Proof.
  intros K (mrs & H & F). exists mrs. split; [|eapply rules_in_kept; eassumption].
  destruct K as (_ & _ & _ & K & _). eapply holds_untouched; [exact K|exact H].
Qed.

Lemma holds_get {T} (h : heap T) s xs i :
  holds h s xs -> slice_get h s i = nth_error xs i.
Proof.
  intros (_ & L & G). destruct (nth_error xs i) as [x|] eqn:E; [apply G, E|].
  unfold slice_get. apply nth_error_None in E. destruct (Nat.ltb_spec i (sl_len s)); [lia|reflexivity].
Qed.

Lemma rd_eq {T} (h : gmem -> heap T) s xs i m :
  holds (h m) s xs -> rd h s i m = (index xs i, m).
Proof. intros H. unfold rd, index. rewrite (holds_get _ _ _ _ H). reflexivity. Qed.

Lemma skipn_nth {A} (l : list A) : forall i x, nth_error l i = Some x -> skipn i l = x :: skipn (S i) l.
Proof.
  induction l as [|y l IH]; intros [|i] x; cbn [nth_error]; try discriminate.
  - intros [= ->]. reflexivity.
  - intros H. exact (IH i x H).
Qed.

Lemma list_set_upd {A} (l : list A) : forall i x, list_set l i x = upd l i x.
Proof. induction l as [|y l IH]; intros [|i] x; simpl; try rewrite IH; reflexivity. Qed.

Lemma Forall2_length {A B} (R : A -> B -> Prop) l l' : Forall2 R l l' -> length l = length l'.
Proof. induction 1; simpl; congruence. Qed.

(** ** Cells *)
Lemma holds_arr_lt {T} (h : heap T) s xs : holds h s xs -> sl_cap s <> 0 -> sl_arr s < length h.
Proof.
  intros ((_ & [C|(arr & E & _)]) & _) N; [contradiction|]. apply nth_error_Some. congruence.
Qed.

Definition room (s : slice) : bool := negb (Nat.eqb (sl_cap s) 0).
Lemma room_true s : room s = true <-> sl_cap s <> 0.
Proof. unfold room. destruct (Nat.eqb_spec (sl_cap s) 0); cbn; split; intros; congruence. Qed.

Lemma own_split base l1 l2 : own_cells base (l1 ++ l2) <->
  Forall (fun s => sl_cap s = 0 \/ base <= sl_arr s) l1 /\
  Forall (fun s => sl_cap s = 0 \/ base <= sl_arr s) l2 /\
  NoDup (map sl_arr (filter room l1) ++ map sl_arr (filter room l2)).
Proof.
  unfold own_cells. fold room. rewrite Forall_app, filter_app, map_app. tauto.
Qed.

(** Replacing the slice [s] by what append returned. *)
Lemma own_replace {T} (h : heap T) base X s Y s' :
  own_cells base (X ++ s :: Y) ->
  (forall c, In c (X ++ Y) -> sl_cap c <> 0 -> sl_arr c < length h) ->
  base <= sl_arr s' ->
  (forall a, a < length h -> (sl_cap s = 0 \/ a <> sl_arr s) -> a <> sl_arr s') ->
  own_cells base (X ++ s' :: Y).
Proof.
  intros (F & N) V B Fr. split.
  - apply Forall_app in F. destruct F as [F1 F2]. inversion F2; subst. apply Forall_app. split; [exact F1|].
    constructor; [right; exact B|assumption].
  - fold room in *. rewrite filter_app, map_app in *. cbn [filter] in *.
    assert (N' : NoDup (map sl_arr (filter room X) ++ map sl_arr (filter room Y))).
    { destruct (room s); [exact (NoDup_remove_1 _ _ _ N)|exact N]. }
    destruct (room s'); [|exact N']. cbn [map].
    apply NoDup_Add with (a := sl_arr s') (l := map sl_arr (filter room X) ++ map sl_arr (filter room Y)).
    + apply Add_app.
    + split; [exact N'|]. intros I. rewrite <- map_app, <- filter_app in I.
      apply in_map_iff in I. destruct I as (c & Ec & Ic). apply filter_In in Ic. destruct Ic as [Ic Rc].
      apply room_true in Rc.
      refine (Fr (sl_arr c) (V c Ic Rc) _ Ec).
      destruct (room s) eqn:Rs.
      * right. cbn [map] in N. intros E. apply (NoDup_remove_2 _ _ _ N). rewrite <- E.
        rewrite <- map_app, <- filter_app. apply in_map, filter_In. split; [exact Ic|apply room_true, Rc].
      * left. unfold room in Rs. destruct (Nat.eqb_spec (sl_cap s) 0); [assumption|discriminate].
Qed.

(** Two rows in step: either neither has the key, or both have it at the same
    place. *)
Lemma row_split h (res : mrow) (r : row) b :
  Forall2 (fun mc c => fst mc = fst c /\ holds h (snd mc) (snd c)) res r ->
  (mrow_get b res = None /\ row_get b r = None /\
   (forall v, map_set Ascii.eqb b v res = res ++ [(b, v)]) /\
   (forall w, map_set Ascii.eqb b w r = r ++ [(b, w)])) \/
  (exists m1 s m2 n1 ops n2,
     res = m1 ++ (b, s) :: m2 /\ r = n1 ++ (b, ops) :: n2 /\
     Forall2 (fun mc c => fst mc = fst c /\ holds h (snd mc) (snd c)) m1 n1 /\
     Forall2 (fun mc c => fst mc = fst c /\ holds h (snd mc) (snd c)) m2 n2 /\
     holds h s ops /\ mrow_get b res = Some s /\ row_get b r = Some ops /\
     (forall v, map_set Ascii.eqb b v res = m1 ++ (b, v) :: m2) /\
     (forall w, map_set Ascii.eqb b w r = n1 ++ (b, w) :: n2)).
Proof.
  unfold mrow_get, row_get.
  induction 1 as [|[k s] [k' ops] res r [Ek Hs] F IH].
  - left. conj; reflexivity.
  - cbn in Ek, Hs. subst k'. cbn [map_get map_set]. destruct (Ascii.eqb_spec b k) as [->|Ne].
    + right. exists [], s, res, [], ops, r. conj; auto; constructor.
    + destruct IH as [(A & B & C & D)|(m1 & s1 & m2 & n1 & o1 & n2 & -> & -> & F1 & F2 & H1 & G1 & G2 & C & D)].
      * left. conj; auto; intros; cbn; [rewrite C|rewrite D]; reflexivity.
      * right. exists ((k, s) :: m1), s1, m2, ((k, ops) :: n1), o1, n2.
        conj; auto; try (constructor; [split; auto|assumption]);
          intros; cbn; [rewrite C|rewrite D]; reflexivity.
Qed.

Lemma row_frame (h h' : heap ParserOp) (m : mrow) (n : row) :
  Forall2 (fun mc c => fst mc = fst c /\ holds h (snd mc) (snd c)) m n ->
  (forall s, In s (map snd m) -> sl_cap s <> 0 -> nth_error h' (sl_arr s) = nth_error h (sl_arr s)) ->
  Forall2 (fun mc c => fst mc = fst c /\ holds h' (snd mc) (snd c)) m n.
Proof.
  induction 1 as [|[k s] [k' o] m n [Ek Hs] F IH]; intros Fr; constructor.
  - split; [exact Ek|]. cbn in *. eapply holds_frame; [exact Hs|].
    destruct (Nat.eq_dec (sl_cap s) 0) as [C|C]; [left; exact C|right]. apply Fr; [left; reflexivity|exact C].
  - apply IH. intros s' I. apply Fr. right. exact I.
Qed.

Lemma table_frame m m' mt t :
  table_in m mt t ->
  (forall s, In s (cells mt) -> sl_cap s <> 0 ->
     nth_error (m_ops m') (sl_arr s) = nth_error (m_ops m) (sl_arr s)) ->
  table_in m' mt t.
Proof.
  induction 1 as [|[k mr] [k' r] mt t [Ek Hr] F IH]; intros Fr; constructor.
  - split; [exact Ek|]. cbn in *. eapply row_frame; [exact Hr|]. intros s I. apply Fr.
    apply in_or_app. left. exact I.
  - apply IH. intros s I. apply Fr. unfold cells. cbn. apply in_or_app. right. exact I.
Qed.

Lemma row_cells_lt h (m : mrow) (n : row) s :
  Forall2 (fun mc c => fst mc = fst c /\ holds h (snd mc) (snd c)) m n ->
  In s (map snd m) -> sl_cap s <> 0 -> sl_arr s < length h.
Proof.
  induction 1 as [|[k s'] [k' o] m n [Ek Hs] F IH]; cbn; [contradiction|].
  intros [<-|I] C; [eapply holds_arr_lt; [exact Hs|exact C]|auto].
Qed.
Lemma table_cells_lt m mt t s :
  table_in m mt t -> In s (cells mt) -> sl_cap s <> 0 -> sl_arr s < length (m_ops m).
Proof.
  induction 1 as [|[k mr] [k' r] mt t [Ek Hr] F IH]; [contradiction|].
  intros I. unfold cells in I. cbn in I. apply in_app_or in I. destruct I as [I|I].
  - eapply row_cells_lt; [exact Hr|exact I].
  - apply IH, I.
Qed.

Lemma Forall2_snoc {A B} (R : A -> B -> Prop) l l' x y :
  Forall2 R l l' -> R x y -> Forall2 R (l ++ [x]) (l' ++ [y]).
Proof. intros F H. apply Forall2_app; [exact F|]. constructor; [exact H|constructor]. Qed.

(** Addresses of other cells differ from the one appended to. *)
Lemma own_apart base X s Y c : own_cells base (X ++ s :: Y) -> In c (X ++ Y) -> sl_cap c <> 0 ->
  sl_cap s = 0 \/ sl_arr c <> sl_arr s.
Proof.
  intros (_ & N) I C. fold room in N. rewrite filter_app, map_app in N. cbn [filter] in N.
  destruct (Nat.eq_dec (sl_cap s) 0) as [Z|Z]; [left; exact Z|right].
  apply room_true in Z. rewrite Z in N. cbn [map] in N. intros E. apply (NoDup_remove_2 _ _ _ N).
  rewrite <- E, <- map_app, <- filter_app. apply in_map, filter_In. split; [exact I|apply room_true, C].
Qed.

(** ** Outcomes *)
Section Sim.
  Variable m0 : gmem.

  Definition out {A B} (Q : A -> B -> gmem -> Prop) (x : tgres A * gmem) (y : tgres B) : Prop :=
    match fst x, y with
    | Ok a, Ok b => Q a b (snd x)
    | Err e, Err e' => e = e' /\ all_kept m0 (snd x)
    | Panic p, Panic p' => p = p' /\ all_kept m0 (snd x)
    | NoFuel, NoFuel => all_kept m0 (snd x)
    | _, _ => False
    end.

  Lemma out_bind {A B C D} (Q : A -> B -> gmem -> Prop) (Q' : C -> D -> gmem -> Prop)
      (x : gmm A) (f : A -> gmm C) (y : tgres B) (k : B -> tgres D) m :
    out Q (x m) y -> (forall a b m', Q a b m' -> out Q' (f a m') (k b)) ->
    out Q' (mbind x f m) (gobind y k).
  Proof.
    intros H K. unfold mbind. destruct (x m) as [[a|e|p|] m'], y as [b|e'|p'|]; cbn in H; try contradiction;
      cbn; auto.
  Qed.

  Lemma out_read {A C D} (Q' : C -> D -> gmem -> Prop)
      (x : gmm A) (f : A -> gmm C) (y : tgres A) (k : A -> tgres D) m :
    x m = (y, m) -> all_kept m0 m -> (forall a, y = Ok a -> out Q' (f a m) (k a)) ->
    out Q' (mbind x f m) (gobind y k).
  Proof.
    intros E U K. unfold mbind. rewrite E. destruct y as [a|e|p|]; cbn; auto.
  Qed.

  Lemma out_do {A B} (Q : A -> B -> gmem -> Prop) (x : A) (y : B) m : Q x y m -> out Q (mdo (Ok x) m) (Ok y).
  Proof. intros H. exact H. Qed.
  Lemma out_err {A B} (Q : A -> B -> gmem -> Prop) e m : all_kept m0 m -> out Q (mdo (Err e) m) (Err e).
  Proof. intros H. split; [reflexivity|exact H]. Qed.
  Lemma out_weak {A B} (Q Q' : A -> B -> gmem -> Prop) x y :
    out Q x y -> (forall a b m, Q a b m -> Q' a b m) -> out Q' x y.
  Proof. intros H K. destruct x as [[a|e|p|] m], y as [b|e'|p'|]; cbn in *; auto. Qed.

  (** ** The generator *)
  Variable grow : nat -> nat.
  Variable mg : slice.
  Variable mrs : list mrule.
  Variable g : grammar.
  Hypothesis Hrules : holds (gm_rules m0) mg mrs.
  Hypothesis Hgram : Forall2 (rule_in m0) mrs g.
  Variable rm : list (bytes * nat).
  Variable sfi sfo : slice.
  Let base := length (gm_sets m0).

  (** The sets of the generator are in arrays of their own. *)
  Definition ST (fi fo : list ByteSet) (m : gmem) : Prop :=
    all_kept m0 m /\ holds (gm_sets m) sfi fi /\ holds (gm_sets m) sfo fo /\
    (sl_cap sfi = 0 \/ base <= sl_arr sfi) /\ (sl_cap sfo = 0 \/ base <= sl_arr sfo) /\
    (sl_cap sfi = 0 \/ sl_cap sfo = 0 \/ sl_arr sfi <> sl_arr sfo).

  Lemma ST_kept fi fo m : ST fi fo m -> all_kept m0 m.
  Proof. intros H. apply H. Qed.
  Lemma ST_rules fi fo m : ST fi fo m -> holds (gm_rules m) mg mrs.
  Proof. intros ((_ & _ & _ & K & _) & _). eapply holds_untouched; [exact K|exact Hrules]. Qed.
  Lemma ST_gram fi fo m : ST fi fo m -> Forall2 (rule_in m) mrs g.
  Proof. intros (K & _). eapply rules_in_kept; [exact K|exact Hgram]. Qed.

  Lemma rules_length : length mrs = length g.
  Proof. exact (Forall2_length _ _ _ Hgram). Qed.
  Lemma mg_len : sl_len mg = length g.
  Proof. rewrite <- rules_length. apply Hrules. Qed.

  (** Rule [i] in memory. *)
  Lemma rule_nth fi fo m i : ST fi fo m ->
    (nth_error mrs i = None /\ nth_error g i = None) \/
    (exists mr r seqs, nth_error mrs i = Some mr /\ nth_error g i = Some r /\ fst mr = r_head r /\
       holds (gm_seqs m) (snd mr) seqs /\ Forall2 (fun s syms => holds (gm_syms m) s syms) seqs (r_tail r)).
  Proof.
    intros H. pose proof (ST_gram _ _ _ H) as F. clear -F. revert i.
    induction F as [|mr r mrs g (E & seqs & Hs & Fs) F IH]; intros [|i]; cbn [nth_error]; auto.
    right. exists mr, r, seqs. auto.
  Qed.

  (** Element [i] of related lists. *)
  Lemma seq_nth m seqs tail i :
    Forall2 (fun s syms => holds (gm_syms m) s syms) seqs tail ->
    (nth_error seqs i = None /\ nth_error tail i = None) \/
    (exists s syms, nth_error seqs i = Some s /\ nth_error tail i = Some syms /\ holds (gm_syms m) s syms).
  Proof.
    intros F. revert i. induction F as [|s syms seqs tail Hs F IH]; intros [|i]; cbn [nth_error]; auto.
    right. exists s, syms. auto.
  Qed.

  Lemma write_first fi fo m i x : ST fi fo m -> i < length fi ->
    exists m', wr_set sfi i x m = (Ok tt, m') /\ ST (upd fi i x) fo m'.
  Proof.
    intros (K & Hi & Ho & B1 & B2 & D) L.
    destruct (holds_set _ _ _ i x Hi L) as (h' & E & H' & Lh & Fr).
    exists (set_gsets m h'). unfold wr_set. rewrite E. split; [reflexivity|].
    destruct (Nat.eq_dec (sl_cap sfi) 0) as [C0|C0].
    { destruct Hi as ((V & _) & Ll & _). lia. }
    destruct B1 as [B1|B1]; [contradiction|]. destruct D as [D|D]; [contradiction|].
    split; [|split; [|split; [|split; [|split]]]].
    - destruct K as (K1 & K2 & K3 & K4 & K5). repeat split; try apply K1; try assumption.
      cbn. intros a arr Ea. rewrite Fr; [apply K5, Ea|].
      assert (a < base) by (apply nth_error_Some; congruence). lia.
    - cbn. rewrite <- list_set_upd. exact H'.
    - cbn. eapply holds_frame; [exact Ho|]. destruct D as [D|D]; [left; exact D|right].
      apply Fr. congruence.
    - right. exact B1.
    - exact B2.
    - right. exact D.
  Qed.

  Lemma write_follow fi fo m i x : ST fi fo m -> i < length fo ->
    exists m', wr_set sfo i x m = (Ok tt, m') /\ ST fi (upd fo i x) m'.
  Proof.
    intros (K & Hi & Ho & B1 & B2 & D) L.
    destruct (holds_set _ _ _ i x Ho L) as (h' & E & H' & Lh & Fr).
    exists (set_gsets m h'). unfold wr_set. rewrite E. split; [reflexivity|].
    destruct (Nat.eq_dec (sl_cap sfo) 0) as [C0|C0].
    { destruct Ho as ((V & _) & Ll & _). lia. }
    destruct B2 as [B2|B2]; [contradiction|].
    split; [|split; [|split; [|split; [|split]]]].
    - destruct K as (K1 & K2 & K3 & K4 & K5). repeat split; try apply K1; try assumption.
      cbn. intros a arr Ea. rewrite Fr; [apply K5, Ea|].
      assert (a < base) by (apply nth_error_Some; congruence). lia.
    - cbn. eapply holds_frame; [exact Hi|]. destruct D as [D|[D|D]]; [left; exact D|contradiction|right].
      apply Fr. exact D.
    - cbn. rewrite <- list_set_upd. exact H'.
    - exact B1.
    - right. exact B2.
    - exact D.
  Qed.

  (** *** FIRST *)
  Lemma msequenceFirsts_loop_eq fi fo m seq syms : ST fi fo m -> holds (gm_syms m) seq syms ->
    forall n i res found, i + n = length syms ->
    msequenceFirsts_loop rm sfi seq n res found m =
    (sequenceFirsts_loop rm fi (length syms) (skipn i syms) res found, m).
  Proof.
    intros H Hs. assert (Ls : sl_len seq = length syms) by apply Hs.
    induction n as [|n IH]; intros i res found L.
    - rewrite skipn_all2 by lia. reflexivity.
    - destruct (nth_error syms i) as [x|] eqn:Ex;
        [|apply nth_error_None in Ex; lia].
      rewrite (skipn_nth _ _ _ Ex). cbn [msequenceFirsts_loop sequenceFirsts_loop].
      unfold mbind at 1. rewrite (rd_eq _ _ syms) by exact Hs.
      replace (sl_len seq - S n) with i by lia. unfold index at 1. rewrite Ex.
      destruct x as [v|t| |u].
      + destruct (rm_get rm v) as [ri|]; [|reflexivity].
        unfold mbind. rewrite (rd_eq _ _ fi) by apply H. destruct (index fi ri) as [f|e|p|]; try reflexivity.
        cbn [gobind]. destruct (negb (bs_contains f EOS)); [reflexivity|]. apply IH. lia.
      + unfold mdo. reflexivity.
      + rewrite Ls. destruct (Nat.ltb 1 (length syms)); reflexivity.
      + reflexivity.
  Qed.

  Lemma msequenceFirsts_eq fi fo m seq syms : ST fi fo m -> holds (gm_syms m) seq syms ->
    msequenceFirsts rm sfi seq m = (sequenceFirsts rm fi syms, m).
  Proof.
    intros H Hs. unfold msequenceFirsts, sequenceFirsts.
    rewrite (msequenceFirsts_loop_eq fi fo m seq syms H Hs (sl_len seq) 0); [reflexivity|]. apply Hs.
  Qed.

  Lemma msubstitutionFirsts_eq fi fo m mseqs seqs tail : ST fi fo m -> holds (gm_seqs m) mseqs seqs ->
    Forall2 (fun s syms => holds (gm_syms m) s syms) seqs tail ->
    forall n i res, i + n = length tail ->
    msubstitutionFirsts_loop rm sfi mseqs n res m =
    (substitutionFirsts_loop rm fi (skipn i tail) res, m).
  Proof.
    intros H Hs F. assert (Ls : sl_len mseqs = length tail) by (rewrite <- (Forall2_length _ _ _ F); apply Hs).
    induction n as [|n IH]; intros i res L.
    - rewrite skipn_all2 by lia. reflexivity.
    - destruct (seq_nth m seqs tail i F) as [[_ E]|(s & syms & Es & Et & Hq)].
      { apply nth_error_None in E. lia. }
      rewrite (skipn_nth _ _ _ Et). cbn [msubstitutionFirsts_loop substitutionFirsts_loop].
      unfold mbind at 1. rewrite (rd_eq _ _ seqs) by exact Hs.
      replace (sl_len mseqs - S n) with i by lia. unfold index at 1. rewrite Es.
      unfold mbind at 1. rewrite (msequenceFirsts_eq fi fo m s syms H Hq).
      destruct (sequenceFirsts rm fi syms) as [f|e|p|]; try reflexivity. cbn [gobind].
      apply IH. lia.
  Qed.

  Lemma mruleFirsts_sim fi fo m i ch : ST fi fo m -> length fi = length g ->
    out (fun c p m' => c = snd p /\ ST (fst p) fo m' /\ length (fst p) = length g)
      (mruleFirsts mg (length g) rm sfi i ch m) (ruleFirsts g rm i fi ch).
  Proof.
    intros H Lf. unfold mruleFirsts, ruleFirsts, ruleCount, collectRuleHeads. rewrite map_length.
    destruct (Nat.leb_spec (length g) i) as [L|L]; [apply out_err; apply H|].
    destruct (rule_nth fi fo m i H) as [[_ E]|(mr & r & seqs & Em & Er & Eh & Hs & F)].
    { apply nth_error_None in E. lia. }
    unfold mbind at 1. rewrite (rd_eq _ _ mrs) by (eapply ST_rules; exact H).
    unfold index at 1. rewrite Em. unfold index at 1. rewrite Er. cbn [gobind].
    assert (Es : msubstitutionFirsts_loop rm sfi (snd mr) (sl_len (snd mr)) (bs_new []) m =
                 (substitutionFirsts rm fi (r_tail r), m)).
    { rewrite (msubstitutionFirsts_eq fi fo m (snd mr) seqs (r_tail r) H Hs F (sl_len (snd mr)) 0).
      - reflexivity.
      - rewrite <- (Forall2_length _ _ _ F). apply Hs. }
    eapply out_read; [exact Es|apply H|]. intros tr _.
    eapply out_read; [apply rd_eq; apply H|apply H|]. intros f Ef.
    destruct (bs_is_superset f tr).
    - apply out_do. cbn. repeat split; auto; apply H.
    - destruct (write_first fi fo m i (bs_union f tr) H) as (m' & Ew & H'); [lia|].
      unfold mbind. rewrite Ew. apply out_do. cbn. split; [reflexivity|]. split; [exact H'|].
      rewrite <- list_set_upd, list_set_length. exact Lf.
  Qed.

  Lemma mfirsts_round_sim : forall idxs fi fo m ch, ST fi fo m -> length fi = length g ->
    out (fun c p m' => c = snd p /\ ST (fst p) fo m' /\ length (fst p) = length g)
      (mfirsts_round mg (length g) rm sfi idxs ch m) (firsts_round g rm idxs fi ch).
  Proof.
    induction idxs as [|i idxs IH]; intros fi fo m ch H Lf.
    - apply out_do. cbn. auto.
    - cbn [mfirsts_round firsts_round]. eapply out_bind; [apply mruleFirsts_sim; eassumption|].
      intros a [fi' c'] m' (E & H' & L'). cbn in *. subst a. apply IH; assumption.
  Qed.

  Lemma mfindFirsts_sim : forall fuel fi fo m, ST fi fo m -> length fi = length g ->
    out (fun _ fi' m' => ST fi' fo m' /\ length fi' = length g)
      (mfindFirsts mg (length g) rm sfi fuel m) (findFirsts g rm fuel fi).
  Proof.
    induction fuel as [|fuel IH]; intros fi fo m H Lf.
    - exact (ST_kept _ _ _ H).
    - cbn [mfindFirsts findFirsts]. rewrite mg_len.
      eapply out_bind; [apply mfirsts_round_sim; eassumption|].
      intros a [fi' c'] m' (E & H' & L'). cbn in *. subst a. destruct c'.
      + apply IH; assumption.
      + apply out_do. auto.
  Qed.

  (** *** FOLLOW *)
  Lemma msymbolFirsts_eq fi fo m s : ST fi fo m ->
    msymbolFirsts rm sfi s m = (symbolFirsts rm fi s, m).
  Proof.
    intros H. destruct s as [v|t| |u]; cbn [msymbolFirsts symbolFirsts]; try reflexivity.
    - destruct (rm_get rm v) as [i|]; [|reflexivity]. apply rd_eq, H.
    - destruct (Nat.eqb (length t) 0); reflexivity.
  Qed.

  Lemma madd_follows_sim fi fo m i x : ST fi fo m -> length fo = length g ->
    out (fun (a : bool) (o : option (list ByteSet)) m' =>
           match o with
           | None => a = false /\ ST fi fo m'
           | Some fo' => a = true /\ ST fi fo' m' /\ length fo' = length g
           end)
      (madd_follows sfo i x m) (add_follows fo i x).
  Proof.
    intros H L. unfold madd_follows, add_follows.
    eapply out_read; [apply rd_eq; apply H|apply H|]. intros f Ef.
    destruct (bs_is_superset f x); [apply out_do; auto|].
    assert (Li : i < length fo).
    { unfold index in Ef. apply nth_error_Some. destruct (nth_error fo i); congruence. }
    destruct (write_follow fi fo m i (bs_union f x) H Li) as (m' & Ew & H').
    unfold mbind. rewrite Ew. apply out_do. split; [reflexivity|]. split; [exact H'|].
    rewrite <- list_set_upd, list_set_length. exact L.
  Qed.

  Definition QF (fi : list ByteSet) (c : bool) (p : list ByteSet * bool) (m' : gmem) : Prop :=
    c = snd p /\ ST fi (fst p) m' /\ length (fst p) = length g.

  (** A rule read from memory. *)
  Lemma out_rule {C D} (Q : C -> D -> gmem -> Prop) fi fo m i (f : mrule -> gmm C) (k : rule -> tgres D) :
    ST fi fo m ->
    (forall mr r seqs, fst mr = r_head r -> holds (gm_seqs m) (snd mr) seqs ->
       Forall2 (fun s syms => holds (gm_syms m) s syms) seqs (r_tail r) -> nth_error g i = Some r ->
       out Q (f mr m) (k r)) ->
    out Q (mbind (rd gm_rules mg i) f m) (gobind (index g i) k).
  Proof.
    intros H K. unfold mbind. rewrite (rd_eq _ _ mrs) by (eapply ST_rules; exact H). unfold index.
    destruct (rule_nth fi fo m i H) as [[-> ->]|(mr & r & seqs & -> & Er & Eh & Hs & F)].
    - split; [reflexivity|apply H].
    - rewrite Er. apply (K mr r seqs); assumption.
  Qed.

  Lemma mfollows_inner_sim fi m0' seq syms ri sri :
    (forall m, all_kept m0' m -> holds (gm_syms m) seq syms) ->
    forall i fo m ch, ST fi fo m -> length fo = length g -> all_kept m0' m0 ->
    out (QF fi) (mfollows_inner mg rm sfi sfo ri seq sri i ch m)
      (follows_inner g rm ri syms sri fi i fo ch).
  Proof.
    intros Hs. induction i as [|i IH]; intros fo m ch H L K0.
    - apply out_do. unfold QF. auto.
    - cbn [mfollows_inner follows_inner].
      assert (Hsm : forall fo m, ST fi fo m -> holds (gm_syms m) seq syms).
      { intros fo' m' H'. apply Hs. eapply all_kept_trans; [exact K0|apply H']. }
      eapply out_read; [apply rd_eq, (Hsm _ _ H)|apply H|]. intros sym _.
      eapply out_rule; [exact H|]. intros mr r seqs Eh _ _ _. rewrite Eh.
      destruct (negb (is_nonterminal_named sym (r_head r))); [apply IH; assumption|].
      eapply out_read; [apply rd_eq, (Hsm _ _ H)|apply H|]. intros next _.
      eapply out_read; [eapply msymbolFirsts_eq; exact H|apply H|]. intros nf _.
      eapply out_bind with (Q := QF fi).
      + destruct (bs_contains nf EOS && negb (Nat.eqb ri sri)); [|apply out_do; unfold QF; auto].
        eapply out_read; [apply rd_eq; apply H|apply H|]. intros rf _.
        eapply out_bind; [apply madd_follows_sim; eassumption|].
        intros a [fo'|] m' Hm; cbn in Hm.
        * destruct Hm as (-> & Hm & L'). apply out_do. unfold QF. auto.
        * destruct Hm as (-> & Hm). apply out_do. unfold QF. auto.
      + intros c [fo' c'] m' (E & H' & L'). cbn in *. subst c'.
        eapply out_bind; [apply madd_follows_sim; eassumption|].
        intros a [fo''|] m'' Hm; cbn in Hm.
        * destruct Hm as (-> & Hm & L''). apply IH; assumption.
        * destruct Hm as (-> & Hm). apply IH; assumption.
  Qed.

  Lemma mruleFollowsInSequence_sim fi fo m seq syms ri sri ch :
    holds (gm_syms m0) seq syms -> ST fi fo m -> length fo = length g ->
    out (QF fi) (mruleFollowsInSequence mg rm sfi sfo ri seq sri ch m)
      (ruleFollowsInSequence g rm ri syms sri fi fo ch).
  Proof.
    intros Hs H L. unfold mruleFollowsInSequence, ruleFollowsInSequence.
    assert (Ls : sl_len seq = length syms) by apply Hs. rewrite Ls.
    destruct (Nat.eqb (length syms) 0); [apply out_err; apply H|].
    assert (Hsm : forall m, all_kept m0 m -> holds (gm_syms m) seq syms).
    { intros m' (_ & K & _). eapply holds_untouched; [exact K|exact Hs]. }
    assert (R : forall fo m ch, ST fi fo m -> length fo = length g ->
      out (QF fi) (mfollows_inner mg rm sfi sfo ri seq sri (length syms - 1) ch m)
        (follows_inner g rm ri syms sri fi (length syms - 1) fo ch)).
    { intros fo' m' ch' H' L'. eapply mfollows_inner_sim; try eassumption. apply all_kept_refl. }
    destruct (negb (Nat.eqb ri sri)); [|apply R; assumption].
    eapply out_read; [apply rd_eq, Hsm; apply H|apply H|]. intros sym _.
    eapply out_rule; [exact H|]. intros mr r seqs Eh _ _ _. rewrite Eh.
    destruct (is_nonterminal_named sym (r_head r)); [|apply R; assumption].
    eapply out_read; [apply rd_eq; apply H|apply H|]. intros rf _.
    eapply out_bind; [apply madd_follows_sim; eassumption|].
    intros a [fo'|] m' Hm; cbn in Hm.
    - destruct Hm as (-> & Hm & L'). apply out_do. unfold QF. auto.
    - destruct Hm as (-> & Hm). apply R; assumption.
  Qed.

  (** The sequences of a rule, in the memory the call began with. *)
  Lemma mfollows_sequences_sim fi ri ari mseqs seqs tail :
    holds (gm_seqs m0) mseqs seqs ->
    Forall2 (fun s syms => holds (gm_syms m0) s syms) seqs tail ->
    forall n i fo m ch, i + n = length tail -> ST fi fo m -> length fo = length g ->
    out (QF fi) (mfollows_sequences mg rm sfi sfo ri mseqs n ari ch m)
      (follows_sequences g rm ri (skipn i tail) ari fi fo ch).
  Proof.
    intros Hs F. assert (Ls : sl_len mseqs = length tail) by (rewrite <- (Forall2_length _ _ _ F); apply Hs).
    induction n as [|n IH]; intros i fo m ch L H Lf.
    - rewrite skipn_all2 by lia. apply out_do. unfold QF. auto.
    - destruct (seq_nth m0 seqs tail i F) as [[_ E]|(s & syms & Es & Et & Hq)].
      { apply nth_error_None in E. lia. }
      rewrite (skipn_nth _ _ _ Et). cbn [mfollows_sequences follows_sequences].
      unfold mbind at 1. rewrite (rd_eq _ _ seqs).
      2:{ destruct H as ((_ & _ & K & _) & _). eapply holds_untouched; [exact K|exact Hs]. }
      replace (sl_len mseqs - S n) with i by lia. unfold index at 1. rewrite Es.
      eapply out_bind; [apply mruleFollowsInSequence_sim; eassumption|].
      intros c [fo' c'] m' (E & H' & L'). cbn [fst snd] in *. subst c'. apply IH; auto; lia.
  Qed.

  Lemma ST_m0_rule i r : nth_error g i = Some r ->
    exists mr seqs, nth_error mrs i = Some mr /\ fst mr = r_head r /\
      holds (gm_seqs m0) (snd mr) seqs /\ Forall2 (fun s syms => holds (gm_syms m0) s syms) seqs (r_tail r).
  Proof.
    clear -Hgram. revert i. induction Hgram as [|mr r' mrs' g' (E & seqs & Hs & Fs) F IH]; intros [|i]; cbn; try discriminate.
    - intros [= <-]. exists mr, seqs. auto.
    - intros H. apply IH; assumption.
  Qed.

  (** The same, for code that reads the rule. *)
  Lemma out_rule0 {C D} (Q : C -> D -> gmem -> Prop) fi fo m i (f : mrule -> gmm C) (k : rule -> tgres D) :
    ST fi fo m ->
    (forall mr r seqs, fst mr = r_head r -> holds (gm_seqs m0) (snd mr) seqs ->
       Forall2 (fun s syms => holds (gm_syms m0) s syms) seqs (r_tail r) -> nth_error g i = Some r ->
       out Q (f mr m) (k r)) ->
    out Q (mbind (rd gm_rules mg i) f m) (gobind (index g i) k).
  Proof.
    intros H K. unfold mbind. rewrite (rd_eq _ _ mrs) by (eapply ST_rules; exact H). unfold index.
    destruct (nth_error g i) as [r|] eqn:Er.
    - destruct (ST_m0_rule i r Er) as (mr & seqs & -> & Eh & Hs & F). apply (K mr r seqs); auto.
    - assert (E : nth_error mrs i = None).
      { apply nth_error_None. apply nth_error_None in Er. rewrite rules_length. exact Er. }
      rewrite E. split; [reflexivity|apply H].
  Qed.

  Lemma mruleFollowsInRule_sim fi fo m ri ari ch : ST fi fo m -> length fo = length g ->
    out (QF fi) (mruleFollowsInRule mg (length g) rm sfi sfo ri ari ch m)
      (ruleFollowsInRule g rm ri ari fi fo ch).
  Proof.
    intros H L. unfold mruleFollowsInRule, ruleFollowsInRule, ruleCount, collectRuleHeads. rewrite map_length.
    destruct (Nat.leb (length g) ri); [apply out_err; apply H|].
    destruct (Nat.leb (length g) ari); [apply out_err; apply H|].
    eapply out_rule0; [exact H|]. intros mr r seqs Eh Hs F _.
    apply (mfollows_sequences_sim fi ri ari (snd mr) seqs (r_tail r) Hs F _ 0); auto.
    rewrite <- (Forall2_length _ _ _ F). apply Hs.
  Qed.

  Lemma mfollows_round_sim fi : forall pairs fo m ch, ST fi fo m -> length fo = length g ->
    out (QF fi) (mfollows_round mg (length g) rm sfi sfo pairs ch m)
      (follows_round g rm pairs fi fo ch).
  Proof.
    induction pairs as [|[i j] pairs IH]; intros fo m ch H L.
    - apply out_do. unfold QF. auto.
    - cbn [mfollows_round follows_round]. eapply out_bind; [apply mruleFollowsInRule_sim; eassumption|].
      intros c [fo' c'] m' (E & H' & L'). cbn in *. subst c'. apply IH; assumption.
  Qed.

  Lemma mfollows_loop_sim fi : forall fuel fo m, ST fi fo m -> length fo = length g ->
    out (fun _ fo' m' => ST fi fo' m' /\ length fo' = length g)
      (mfollows_loop mg (length g) rm sfi sfo fuel m) (follows_loop g rm fuel fi fo).
  Proof.
    induction fuel as [|fuel IH]; intros fo m H L.
    - exact (ST_kept _ _ _ H).
    - cbn [mfollows_loop follows_loop]. unfold all_pairs. rewrite mg_len.
      eapply out_bind; [apply mfollows_round_sim; eassumption|].
      intros c [fo' c'] m' (E & H' & L'). cbn in *. subst c'. destruct c.
      + apply IH; assumption.
      + apply out_do. auto.
  Qed.

  Lemma mfindFollows_sim fi fuel fo m : ST fi fo m -> length fo = length g ->
    out (fun _ fo' m' => ST fi fo' m' /\ length fo' = length g)
      (mfindFollows mg (length g) rm sfi sfo fuel m) (findFollows g rm fuel fi fo).
  Proof.
    intros H L. unfold mfindFollows, findFollows.
    eapply out_read; [apply rd_eq; apply H|apply H|]. intros f0 Ef.
    assert (Li : 0 < length fo).
    { unfold index in Ef. apply nth_error_Some. destruct (nth_error fo 0); congruence. }
    destruct (write_follow fi fo m 0 (bs_add f0 EOS) H Li) as (m' & Ew & H').
    unfold mbind at 1. rewrite Ew. apply mfollows_loop_sim; [exact H'|].
    rewrite <- list_set_upd, list_set_length. exact L.
  Qed.

  (** *** The table *)
  Let obase := length (m_ops (gm_mem m0)).

  Definition TB fi fo (mt : mtable) (t : table) (res : mrow) (r : row) (m : gmem) : Prop :=
    ST fi fo m /\ table_in (gm_mem m) mt t /\ row_in (gm_mem m) res r /\
    own_cells obase (cells mt ++ map snd res).

  Lemma obase_le m : all_kept m0 m -> obase <= length (m_ops (gm_mem m)).
  Proof. intros ((U & _) & _). exact (nth_incl_length _ _ U). Qed.

  Lemma own_nil L : own_cells obase L -> own_cells obase (L ++ [nil_slice]).
  Proof.
    intros (F & N). split.
    - apply Forall_app. split; [exact F|]. constructor; [left; reflexivity|constructor].
    - rewrite filter_app. cbn. rewrite app_nil_r. exact N.
  Qed.

  (** What an append to one of several slices does to memory. *)
  Lemma append_cell fi fo mt t m X s Y ops op h' s' :
    ST fi fo m -> table_in (gm_mem m) mt t ->
    own_cells obase (cells mt ++ X ++ s :: Y) ->
    (forall c, In c (X ++ Y) -> sl_cap c <> 0 -> sl_arr c < length (m_ops (gm_mem m))) ->
    holds (m_ops (gm_mem m)) s ops ->
    slice_append OpNil grow (m_ops (gm_mem m)) s [op] = (h', s') ->
    ST fi fo (set_gops m h') /\ table_in (gm_mem (set_gops m h')) mt t /\
    holds h' s' (ops ++ [op]) /\ own_cells obase (cells mt ++ X ++ s' :: Y) /\
    (forall c, In c (X ++ Y) -> sl_cap c <> 0 ->
       nth_error h' (sl_arr c) = nth_error (m_ops (gm_mem m)) (sl_arr c)).
  Proof.
    intros H Ht Own Lt Hs Ea.
    assert (Bs : sl_cap s = 0 \/ obase <= sl_arr s).
    { destruct Own as (F & _). rewrite Forall_forall in F. apply F.
      apply in_or_app. right. apply in_or_app. right. left. reflexivity. }
    pose proof (obase_le m (ST_kept _ _ _ H)) as Lb.
    destruct (append_one OpNil grow (m_ops (gm_mem m)) s ops op h' s' obase Hs Lb Bs Ea) as (H' & B' & Lh & Fr).
    assert (Ap : forall c, In c (cells mt ++ X ++ Y) -> sl_cap c <> 0 ->
              nth_error h' (sl_arr c) = nth_error (m_ops (gm_mem m)) (sl_arr c)).
    { intros c I C. apply Fr.
      - apply in_app_or in I. destruct I as [I|I]; [eapply table_cells_lt; eassumption|apply Lt; assumption].
      - rewrite app_assoc in Own. rewrite app_assoc in I. eapply own_apart; eassumption. }
    split; [|split; [|split; [exact H'|split]]].
    - destruct H as (((U1 & U2 & U3) & K2 & K3 & K4 & K5) & H). split; [|exact H].
      split; [|repeat split; assumption]. split; [|split; assumption]. cbn. intros a arr E.
      destruct (Fr a) as [-> _].
      + assert (a < obase) by (apply nth_error_Some; congruence). lia.
      + destruct Bs as [Bs|Bs]; [left; exact Bs|right].
        assert (a < obase) by (apply nth_error_Some; congruence). lia.
      + apply U1, E.
    - eapply table_frame; [exact Ht|]. cbn. intros c I C. apply Ap; [apply in_or_app; left; exact I|exact C].
    - rewrite app_assoc in *. eapply own_replace with (h := m_ops (gm_mem m)); [exact Own| |exact B'|].
      + intros c I C. rewrite <- app_assoc in I. apply in_app_or in I. destruct I as [I|I].
        * eapply table_cells_lt; eassumption.
        * apply Lt; assumption.
      + intros a La Na. apply Fr; assumption.
    - intros c I C. apply Ap; [apply in_or_app; right; exact I|exact C].
  Qed.

  Lemma mrow_append_sim fi fo mt t res r b op m : TB fi fo mt t res r m ->
    exists res' m', mrow_append grow b op res m = (Ok res', m') /\ TB fi fo mt t res' (row_append b op r) m'.
  Proof.
    intros (H & Ht & Hr & Own). unfold mrow_append, row_append.
    destruct (row_split _ res r b Hr) as
      [(-> & -> & C & D)|(m1 & s & m2 & n1 & ops & n2 & -> & -> & F1 & F2 & Hs & -> & -> & C & D)].
    - destruct (slice_append OpNil grow (m_ops (gm_mem m)) nil_slice [op]) as [h' s'] eqn:Ea.
      assert (Lt : forall c, In c (map snd res ++ []) -> sl_cap c <> 0 -> sl_arr c < length (m_ops (gm_mem m))).
      { intros c I. rewrite app_nil_r in I. eapply row_cells_lt; [exact Hr|exact I]. }
      destruct (append_cell fi fo mt t m (map snd res) nil_slice [] [] op h' s' H Ht) as (A1 & A2 & A3 & A4 & A5);
        [rewrite app_assoc; apply own_nil, Own|exact Lt|apply holds_nil_slice|exact Ea|].
      eexists _, _. split; [reflexivity|]. rewrite C, D. split; [exact A1|]. split; [exact A2|].
      split; [|rewrite map_app; exact A4].
      unfold row_in. apply Forall2_snoc; [|split; [reflexivity|exact A3]].
      eapply row_frame; [exact Hr|]. intros s I. apply A5. apply in_or_app. left. exact I.
    - destruct (slice_append OpNil grow (m_ops (gm_mem m)) s [op]) as [h' s'] eqn:Ea.
      rewrite map_app in Own. cbn [map snd] in Own.
      assert (Lt : forall c, In c (map snd m1 ++ map snd m2) -> sl_cap c <> 0 -> sl_arr c < length (m_ops (gm_mem m))).
      { intros c I. apply in_app_or in I. destruct I as [I|I]; [eapply row_cells_lt; [exact F1|exact I]|eapply row_cells_lt; [exact F2|exact I]]. }
      destruct (append_cell fi fo mt t m (map snd m1) s (map snd m2) ops op h' s' H Ht Own Lt Hs Ea) as (A1 & A2 & A3 & A4 & A5).
      eexists _, _. split; [reflexivity|]. rewrite C, D. split; [exact A1|]. split; [exact A2|].
      split; [|rewrite map_app; exact A4].
      unfold row_in. apply Forall2_app.
      + eapply row_frame; [exact F1|]. intros c I. apply A5. apply in_or_app. left. exact I.
      + constructor; [split; [reflexivity|exact A3]|].
        eapply row_frame; [exact F2|]. intros c I. apply A5. apply in_or_app. right. exact I.
  Qed.

  Lemma ST_syms fi fo m s syms : ST fi fo m -> holds (gm_syms m0) s syms -> holds (gm_syms m) s syms.
  Proof. intros ((_ & K & _) & _) H. eapply holds_untouched; [exact K|exact H]. Qed.

  Lemma mfill_symbols_sim fi fo mt t term seq syms : holds (gm_syms m0) seq syms ->
    forall n i res r m, i + n = length syms -> TB fi fo mt t res r m ->
    out (TB fi fo mt t) (mfill_symbols grow rm term seq n res m) (fill_symbols rm term (skipn i syms) r).
  Proof.
    intros Hs. assert (Ls : sl_len seq = length syms) by apply Hs.
    induction n as [|n IH]; intros i res r m L H.
    - rewrite skipn_all2 by lia. apply out_do. exact H.
    - destruct (nth_error syms i) as [x|] eqn:Ex; [|apply nth_error_None in Ex; lia].
      rewrite (skipn_nth _ _ _ Ex). cbn [mfill_symbols fill_symbols].
      unfold mbind at 1. rewrite (rd_eq _ _ syms) by (eapply ST_syms; [apply H|exact Hs]).
      replace (sl_len seq - S n) with i by lia. unfold index at 1. rewrite Ex.
      destruct x as [v|b| |u].
      + destruct (rm_get rm v) as [ri|]; [|apply out_err; apply H].
        destruct (mrow_append_sim fi fo mt t res r term (OpNonTerminal (Z.of_nat ri)) m H) as (res' & m' & E & H').
        unfold mbind. rewrite E. apply IH; [lia|exact H'].
      + destruct (mrow_append_sim fi fo mt t res r term (OpTerminal b) m H) as (res' & m' & E & H').
        unfold mbind. rewrite E. apply IH; [lia|exact H'].
      + split; [reflexivity|apply H].
      + split; [reflexivity|apply H].
  Qed.

  Lemma mfill_firsts_sim fi fo mt t seq syms : holds (gm_syms m0) seq syms ->
    forall terms res r m, TB fi fo mt t res r m ->
    out (TB fi fo mt t) (mfill_firsts grow rm terms seq res m) (fill_firsts rm terms syms r).
  Proof.
    intros Hs. induction terms as [|b terms IH]; intros res r m H.
    - apply out_do. exact H.
    - cbn [mfill_firsts fill_firsts]. eapply out_bind.
      + apply (mfill_symbols_sim fi fo mt t b seq syms Hs (sl_len seq) 0 res r m); [apply Hs|exact H].
      + intros a r' m' H'. apply IH, H'.
  Qed.

  Lemma mfill_follows_sim fi fo mt t : forall terms res r m, TB fi fo mt t res r m ->
    out (TB fi fo mt t) (mfill_follows terms res m) (fill_follows terms r).
  Proof.
    induction terms as [|b terms IH]; intros res r m H.
    - apply out_do. exact H.
    - cbn [mfill_follows fill_follows]. destruct H as (H & Ht & Hr & Own).
      destruct (row_split _ res r b Hr) as
        [(-> & -> & C & D)|(m1 & s & m2 & n1 & ops & n2 & _ & _ & _ & _ & _ & -> & -> & _ & _)].
      + rewrite C, D. apply IH. split; [exact H|]. split; [exact Ht|]. split.
        * apply Forall2_snoc; [exact Hr|]. split; [reflexivity|apply holds_nil_slice].
        * rewrite map_app, app_assoc. apply own_nil, Own.
      + apply out_err, H.
  Qed.

  Lemma mrow_loop_sim fi fo mt t ri ruleFollows mseqs seqs tail :
    index fo ri = Ok ruleFollows ->
    holds (gm_seqs m0) mseqs seqs ->
    Forall2 (fun s syms => holds (gm_syms m0) s syms) seqs tail ->
    forall n i res r m, i + n = length tail -> TB fi fo mt t res r m ->
    out (TB fi fo mt t) (mrow_loop grow rm sfi sfo ri mseqs n res m)
      (row_loop rm fi ruleFollows (skipn i tail) r).
  Proof.
    intros Ef Hs F. assert (Ls : sl_len mseqs = length tail) by (rewrite <- (Forall2_length _ _ _ F); apply Hs).
    induction n as [|n IH]; intros i res r m L H.
    - rewrite skipn_all2 by lia. apply out_do. exact H.
    - destruct (seq_nth m0 seqs tail i F) as [[_ E]|(s & syms & Es & Et & Hq)].
      { apply nth_error_None in E. lia. }
      rewrite (skipn_nth _ _ _ Et). cbn [mrow_loop row_loop].
      unfold mbind at 1. rewrite (rd_eq _ _ seqs).
      2:{ destruct H as (((_ & _ & K & _) & _) & _). eapply holds_untouched; [exact K|exact Hs]. }
      replace (sl_len mseqs - S n) with i by lia. unfold index at 1. rewrite Es.
      assert (Hqm : forall res r m, TB fi fo mt t res r m -> holds (gm_syms m) s syms).
      { intros res' r' m' H'. eapply ST_syms; [apply H'|exact Hq]. }
      eapply out_read; [eapply msequenceFirsts_eq; [apply H|eapply Hqm, H]|apply H|]. intros sf _.
      eapply out_bind with (Q := fun (a : mrow * ByteSet) (b : row * ByteSet) m' =>
                                   snd a = snd b /\ TB fi fo mt t (fst a) (fst b) m').
      + destruct (bs_contains sf EOS); [|apply out_do; cbn; auto].
        unfold mbind at 1. rewrite (rd_eq _ _ fo) by apply H. rewrite Ef.
        eapply out_read; [reflexivity|apply H|]. intros terms _.
        eapply out_bind; [apply mfill_follows_sim; exact H|]. intros a b m' H'. apply out_do. cbn. auto.
      + intros [res1 sf1] [r1 sf2] m1 [E1 H1]. cbn [fst snd] in *. subst sf2.
        eapply out_read; [reflexivity|apply H1|]. intros terms _.
        eapply out_bind; [eapply mfill_firsts_sim; [exact Hq|exact H1]|].
        intros res2 r2 m2 H2. apply IH; [lia|exact H2].
  Qed.

  Lemma mmakeTableRow_sim fi fo mt t i m : ST fi fo m -> length fo = length g ->
    table_in (gm_mem m) mt t -> own_cells obase (cells mt) ->
    out (TB fi fo mt t) (mmakeTableRow grow mg rm sfi sfo i m) (makeTableRow g rm fi fo i).
  Proof.
    intros H L Ht Own. unfold mmakeTableRow, makeTableRow.
    eapply out_rule0; [exact H|]. intros mr r seqs Eh Hs F Er.
    destruct (index fo i) as [rf|e|p|] eqn:Ef; unfold index in Ef;
      try (destruct (nth_error fo i) eqn:En; [discriminate|]; apply nth_error_None in En;
           assert (i < length g) by (apply nth_error_Some; congruence); lia).
    cbn [gobind]. apply (mrow_loop_sim fi fo mt t i rf (snd mr) seqs (r_tail r) Ef Hs F _ 0).
    - rewrite <- (Forall2_length _ _ _ F). apply Hs.
    - split; [exact H|]. split; [exact Ht|]. split; [constructor|]. cbn. rewrite app_nil_r. exact Own.
  Qed.

  Lemma map_set_new {V} (k : Z) (v : V) m : (forall kv, In kv m -> fst kv <> k) ->
    map_set Z.eqb k v m = m ++ [(k, v)].
  Proof.
    induction m as [|[k' v'] m IH]; intros H; [reflexivity|]. cbn.
    destruct (Z.eqb_spec k k') as [->|Ne]; [exfalso; eapply H; [left; reflexivity|reflexivity]|].
    rewrite IH; [reflexivity|]. intros kv I. apply H. right. exact I.
  Qed.

  Lemma mmakeTable_loop_sim fi fo : length fo = length g -> forall n i mt t m,
    ST fi fo m -> table_in (gm_mem m) mt t -> own_cells obase (cells mt) ->
    (forall kv, In kv mt -> (fst kv < Z.of_nat i)%Z) -> (forall kv, In kv t -> (fst kv < Z.of_nat i)%Z) ->
    out (fun mt' t' m' => all_kept m0 m' /\ table_in (gm_mem m') mt' t' /\ own_cells obase (cells mt'))
      (mmakeTable_loop grow mg rm sfi sfo (seq i n) mt m) (makeTable_loop g rm fi fo (seq i n) t).
  Proof.
    intros L. induction n as [|n IH]; intros i mt t m H Ht Own Km Kt.
    - apply out_do. split; [apply H|]. auto.
    - cbn [seq mmakeTable_loop makeTable_loop]. eapply out_bind; [eapply mmakeTableRow_sim; eassumption|].
      intros res r m' (H' & Ht' & Hr' & Own').
      rewrite !map_set_new; try (intros kv I E; apply Km in I || apply Kt in I; lia).
      apply IH.
      + exact H'.
      + apply Forall2_snoc; [exact Ht'|]. split; [reflexivity|exact Hr'].
      + unfold cells in *. rewrite flat_map_app. cbn. rewrite app_nil_r. exact Own'.
      + intros kv I. apply in_app_or in I. destruct I as [I|[<-|[]]]; [apply Km in I|cbn]; lia.
      + intros kv I. apply in_app_or in I. destruct I as [I|[<-|[]]]; [apply Kt in I|cbn]; lia.
  Qed.

  Lemma mRun_sim fuel fi fo m : ST fi fo m -> length fi = length g -> length fo = length g ->
    out (fun mt t m' => all_kept m0 m' /\ table_in (gm_mem m') mt t /\ own_cells obase (cells mt))
      (mRun grow mg (length g) rm sfi sfo fuel m) (Run g rm fuel fi fo).
  Proof.
    intros H Li Lo. unfold mRun, Run.
    eapply out_bind; [eapply mfindFirsts_sim; eassumption|]. intros _ fi' m1 [H1 L1].
    eapply out_bind; [eapply mfindFollows_sim; eassumption|]. intros _ fo' m2 [H2 L2].
    unfold makeTable. rewrite mg_len. apply mmakeTable_loop_sim; auto.
    - constructor.
    - split; constructor.
    - contradiction.
    - contradiction.
  Qed.
End Sim.

(** ** FromGrammar *)
Lemma mcollect_eq m mg mrs g : holds (gm_rules m) mg mrs -> Forall2 (rule_in m) mrs g ->
  forall n i, i + n = length g -> mcollect mg n m = (Ok (map r_head (skipn i g)), m).
Proof.
  intros H F. assert (L : sl_len mg = length g) by (rewrite <- (Forall2_length _ _ _ F); apply H).
  induction n as [|n IH]; intros i E.
  - rewrite skipn_all2 by lia. reflexivity.
  - destruct (nth_error g i) as [r|] eqn:Er; [|apply nth_error_None in Er; lia].
    rewrite (skipn_nth _ _ _ Er). cbn [mcollect map].
    unfold mbind at 1. rewrite (rd_eq _ _ mrs) by exact H.
    replace (sl_len mg - S n) with i by lia. unfold index.
    assert (K : exists mr, nth_error mrs i = Some mr /\ fst mr = r_head r).
    { clear -F Er. revert i Er. induction F as [|mr r' mrs g (Eh & _) F IH]; intros [|i]; cbn; try discriminate.
      - intros [= <-]. eauto.
      - apply IH. }
    destruct K as (mr & -> & Eh). unfold mbind. rewrite (IH (S i)) by lia. rewrite Eh. reflexivity.
Qed.

Lemma mFromGrammar_sim grow order fuel m mg g : grammar_in m mg g ->
  out m (fun a b m' => all_kept m m' /\ table_in (gm_mem m') (fst a) (fst b) /\
           own_cells (length (m_ops (gm_mem m))) (cells (fst a)) /\ snd a = snd b)
    (mFromGrammar grow order fuel mg m) (FromGrammar_order order fuel g).
Proof.
  intros (mrs & H & F). unfold mFromGrammar, FromGrammar_order, mcollectRuleHeads, collectRuleHeads.
  assert (L : sl_len mg = length g) by (rewrite <- (Forall2_length _ _ _ F); apply H).
  rewrite L. unfold mbind at 1. rewrite (mcollect_eq m mg mrs g H F (length g) 0) by lia.
  cbn [skipn]. rewrite !map_length. cbv zeta.
  unfold mbind at 1, make_sets at 1, heap_alloc at 1.
  unfold mbind at 1, make_sets at 1, heap_alloc at 1.
  cbn [gm_sets set_gsets gm_mem gm_syms gm_seqs gm_rules].
  set (fi := repeat (bs_new []) (length g)).
  set (m2 := set_gsets _ _). set (sfi := mkSlice _ _ _ _). set (sfo := mkSlice _ _ _ _).
  assert (K2 : all_kept m m2).
  { split; [apply untouched_refl|]. repeat split; auto using kept_refl. cbn.
    intros a arr E. rewrite nth_error_app1.
    - rewrite nth_error_app1; [exact E|]. apply nth_error_Some. congruence.
    - rewrite app_length. assert (a < length (gm_sets m)) by (apply nth_error_Some; congruence). lia. }
  assert (St : ST m sfi sfo fi fi m2).
  { split; [exact K2|]. split; [|split; [|split; [|split]]].
    - subst m2 sfi. cbn [set_gsets gm_sets]. eapply holds_frame; [apply holds_whole|].
      right. cbn. rewrite nth_error_app1; [reflexivity|]. rewrite app_length. cbn. lia.
    - subst m2 sfo. cbn [set_gsets gm_sets]. apply holds_whole.
    - right. cbn. apply le_n.
    - right. cbn. rewrite app_length. lia.
    - right. right. cbn. rewrite app_length. cbn. lia. }
  eapply out_bind.
  - apply (mRun_sim m grow mg mrs g H F (enumerate (map r_head g)) sfi sfo fuel fi fi m2 St); apply repeat_length.
  - intros mt t m' (K & Ht & Own). apply out_do. cbn. auto.
Qed.
