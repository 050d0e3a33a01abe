(** * ParserConcInv: calls of Parse among others, step by step. *)
From Verif Require Import Base Cst Parser SliceMem ParserMem ParserConc
  Spec_Mem Spec_ParserConc ParserMemProofs ParserConcProofs ParserConcRel.

(** ** Heaps *)
Definition dom (r : adr) : list nat := map fst r.
Definition ran (r : adr) : list nat := map snd r.

Lemma Forall2_nth {A B} (P : A -> B -> Prop) l l' i : Forall2 P l l' ->
  match nth_error l i, nth_error l' i with Some a, Some b => P a b | None, None => True | _, _ => False end.
Proof. intros F. revert i. induction F as [|a b l l' H F IH]; intros [|i]; cbn; auto. apply IH. Qed.
Lemma Forall2_set {A B} (P : A -> B -> Prop) l l' i x y : Forall2 P l l' -> P x y -> Forall2 P (list_set l i x) (list_set l' i y).
Proof. intros F H. revert i. induction F as [|a b l l' H' F IH]; intros [|i]; cbn; constructor; auto. Qed.
Lemma Forall2_skipn {A B} (P : A -> B -> Prop) n : forall l l', Forall2 P l l' -> Forall2 P (skipn n l) (skipn n l').
Proof. induction n as [|n IH]; intros l l' F; [exact F|]. destruct F; [constructor|]. cbn. apply IH, F. Qed.
Lemma Forall2_firstn {A B} (P : A -> B -> Prop) n : forall l l', Forall2 P l l' -> Forall2 P (firstn n l) (firstn n l').
Proof. induction n as [|n IH]; intros l l' F; [constructor|]. destruct F; [constructor|]. cbn. constructor; auto. Qed.
Lemma Forall2_repeat {A B} (P : A -> B -> Prop) x y n : P x y -> Forall2 P (repeat x n) (repeat y n).
Proof. intros H. induction n; constructor; auto. Qed.
Lemma Forall2_mono {A B} (P Q : A -> B -> Prop) l l' : (forall a b, P a b -> Q a b) -> Forall2 P l l' -> Forall2 Q l l'.
Proof. intros H F. induction F; constructor; auto. Qed.
Lemma Forall2_len {A B} (P : A -> B -> Prop) l l' : Forall2 P l l' -> length l = length l'.
Proof. induction 1; cbn; congruence. Qed.
Lemma Forall2_same {A} (l : list A) : Forall2 eq l l.
Proof. induction l; constructor; auto. Qed.

Lemma NoDup_fst_inj (r : adr) a b b' : NoDup (dom r) -> In (a, b) r -> In (a, b') r -> b = b'.
Proof.
  induction r as [|[x y] r IH]; [contradiction|]. unfold dom in *. cbn. intros N I J. inversion N as [|? ? X Y]; subst.
  destruct I as [I|I], J as [J|J].
  - congruence.
  - injection I as -> ->. destruct X. change a with (fst (a, b')). apply in_map, J.
  - injection J as -> ->. destruct X. change a with (fst (a, b)). apply in_map, I.
  - apply IH; assumption.
Qed.
Lemma NoDup_snd_inj (r : adr) a a' b : NoDup (ran r) -> In (a, b) r -> In (a', b) r -> a = a'.
Proof.
  induction r as [|[x y] r IH]; [contradiction|]. unfold ran in *. cbn. intros N I J. inversion N as [|? ? X Y]; subst.
  destruct I as [I|I], J as [J|J].
  - congruence.
  - injection I as -> ->. destruct X. change b with (snd (a', b)). apply in_map, J.
  - injection J as -> ->. destruct X. change b with (snd (a, b)). apply in_map, I.
  - apply IH; assumption.
Qed.

(** What a step may do to the memory of the others. *)
Definition heff {T} (r r' : adr) (H H' : heap T) : Prop :=
  length H <= length H' /\
  (forall b, b < length H -> ~ In b (ran r) -> nth_error H' b = nth_error H b) /\
  (forall b, In b (ran r') -> In b (ran r) \/ length H <= b).
Lemma heff_refl {T} r (H : heap T) : heff r r H H.
Proof. split; [lia|]. split; auto. Qed.

Section Heaps.
  Context {T : Type}.
  Variable base : nat.

  Definition hrel (P : T -> T -> Prop) (r : adr) (h H : heap T) : Prop :=
    NoDup (dom r) /\ NoDup (ran r) /\
    forall a b, In (a, b) r -> base <= a /\ base <= b /\
      exists arr arr', nth_error h a = Some arr /\ nth_error H b = Some arr' /\ Forall2 P arr arr'.

  (** What a step does to the memory alone. *)
  Definition hkeep (h h' : heap T) : Prop :=
    length h <= length h' /\ forall a, a < base -> nth_error h' a = nth_error h a.
  Lemma hkeep_refl h : hkeep h h.
  Proof. split; [lia|auto]. Qed.

  Variable P : T -> T -> Prop.

  Lemma hrel_mono (Q : T -> T -> Prop) r h H : (forall a b, P a b -> Q a b) -> hrel P r h H -> hrel Q r h H.
  Proof.
    intros I (N1 & N2 & C). split; [exact N1|]. split; [exact N2|]. intros a b J. destruct (C _ _ J) as (A & B & arr & arr' & D & E & F).
    split; [exact A|]. split; [exact B|]. exists arr, arr'. split; [exact D|]. split; [exact E|]. eapply Forall2_mono; eassumption.
  Qed.

  Lemma hrel_lt r h H : hrel P r h H -> forall b, In b (ran r) -> base <= b < length H.
  Proof.
    intros (_ & _ & C) b I. apply in_map_iff in I. destruct I as ([a b'] & <- & I). cbn.
    destruct (C _ _ I) as (_ & L & arr & arr' & _ & E & _). split; [exact L|]. apply nth_error_Some. congruence.
  Qed.
  Lemma hrel_dom_lt r h H : hrel P r h H -> forall a, In a (dom r) -> a < length h.
  Proof.
    intros (_ & _ & C) a I. apply in_map_iff in I. destruct I as ([a' b'] & <- & I). cbn.
    destruct (C _ _ I) as (_ & L & arr & arr' & E & _). apply nth_error_Some. congruence.
  Qed.

  Lemma hrel_get r h H s s' i : hrel P r h H -> srel r s s' -> orel P (slice_get h s i) (slice_get H s' i).
  Proof.
    intros (_ & _ & C) (E1 & E2 & E3 & E4). unfold slice_get. rewrite <- E1, <- E2.
    destruct (Nat.ltb_spec i (sl_len s)) as [L|L]; [|exact I].
    destruct E4 as [[_ Z]|J]; [lia|]. destruct (C _ _ J) as (_ & _ & arr & arr' & -> & -> & F).
    pose proof (Forall2_nth P arr arr' (sl_off s + i) F) as G.
    destruct (nth_error arr _), (nth_error arr' _); exact G.
  Qed.
  Lemma hrel_elems r h H s s' : hrel P r h H -> srel r s s' -> Forall2 P (slice_elems h s) (slice_elems H s').
  Proof.
    intros (_ & _ & C) (E1 & E2 & E3 & E4). unfold slice_elems. rewrite <- E1, <- E2.
    destruct E4 as [[_ L]|J].
    - rewrite L. destruct (nth_error h (sl_arr s)), (nth_error H (sl_arr s')); constructor.
    - destruct (C _ _ J) as (_ & _ & arr & arr' & -> & -> & F). apply Forall2_firstn, Forall2_skipn, F.
  Qed.

  Lemma hrel_write r h H a b j x y : hrel P r h H -> In (a, b) r -> P x y ->
    hrel P r (heap_write h a j x) (heap_write H b j y) /\ heff r r H (heap_write H b j y) /\ hkeep h (heap_write h a j x).
  Proof.
    intros (N1 & N2 & C) J Hxy. split; [|split].
    - split; [exact N1|]. split; [exact N2|]. intros a1 b1 I1. destruct (C _ _ I1) as (B1 & B2 & arr & arr' & E1 & E2 & F).
      split; [exact B1|]. split; [exact B2|]. destruct (Nat.eq_dec a1 a) as [->|Na].
      + assert (b1 = b) as -> by exact (NoDup_fst_inj r a b1 b N1 I1 J).
        exists (list_set arr j x), (list_set arr' j y). split; [apply heap_write_same, E1|]. split; [apply heap_write_same, E2|].
        apply Forall2_set; assumption.
      + assert (b1 <> b) as Nb by (intros ->; apply Na; exact (NoDup_snd_inj r a1 a b N2 I1 J)).
        exists arr, arr'. rewrite !heap_write_other by assumption. auto.
    - split; [rewrite heap_write_length; lia|]. split; [|auto]. intros c _ Nc. apply heap_write_other.
      intros ->. apply Nc. change b with (snd (a, b)). apply in_map, J.
    - split; [rewrite heap_write_length; lia|]. intros c L. apply heap_write_other. destruct (C _ _ J) as (B & _). lia.
  Qed.

  Lemma hrel_set r h H s s' i x y : hrel P r h H -> srel r s s' -> P x y ->
    match slice_set h s i x, slice_set H s' i y with
    | Some h', Some H' => hrel P r h' H' /\ heff r r H H' /\ hkeep h h'
    | None, None => True
    | _, _ => False
    end.
  Proof.
    intros R (E1 & E2 & E3 & E4) Hxy. unfold slice_set. rewrite <- E2, <- E1.
    destruct (Nat.ltb_spec i (sl_len s)) as [L|L]; [|exact I]. destruct E4 as [[_ E4]|E4]; [lia|].
    apply hrel_write; assumption.
  Qed.

  Lemma hrel_alloc r h H arr arr' : hrel P r h H -> base <= length h -> base <= length H -> Forall2 P arr arr' ->
    hrel P ((length h, length H) :: r) (h ++ [arr]) (H ++ [arr']) /\
    heff r ((length h, length H) :: r) H (H ++ [arr']) /\ hkeep h (h ++ [arr]).
  Proof.
    intros R B1 B2 F0. pose proof R as (N1 & N2 & C). split; [split; [|split]|split].
    - constructor; [|exact N1]. intros J. pose proof (hrel_dom_lt _ _ _ R _ J). cbn in *. lia.
    - constructor; [|exact N2]. intros J. pose proof (hrel_lt _ _ _ R _ J). cbn in *. lia.
    - intros a b [J|J].
      + injection J as <- <-. split; [exact B1|]. split; [exact B2|]. exists arr, arr'.
        rewrite !nth_error_app2, !Nat.sub_diag by lia. auto.
      + destruct (C _ _ J) as (X1 & X2 & ar & ar' & E1 & E2 & F). split; [exact X1|]. split; [exact X2|]. exists ar, ar'.
        assert (a < length h) by (apply nth_error_Some; congruence). assert (b < length H) by (apply nth_error_Some; congruence).
        rewrite !nth_error_app1 by assumption. auto.
    - split; [rewrite app_length; lia|]. split.
      + intros b L _. apply nth_error_app1, L.
      + intros b [<-|J]; [right; cbn; lia|left; exact J].
    - split; [rewrite app_length; lia|]. intros a L. apply nth_error_app1. lia.
  Qed.

  Lemma hrel_append zero grow r h H s s' x y h' t : P zero zero -> P x y ->
    hrel P r h H -> srel r s s' -> base <= length h -> base <= length H ->
    slice_append zero grow h s [x] = (h', t) ->
    exists r' H' t', slice_append zero grow H s' [y] = (H', t') /\ incl r r' /\
      srel r' t t' /\ hrel P r' h' H' /\ heff r r' H H' /\ hkeep h h'.
  Proof.
    intros Hz Hxy R S B1 B2. pose proof S as (E1 & E2 & E3 & E4). unfold slice_append. rewrite <- E2, <- E3, <- E1.
    cbn [length]. destruct (Nat.leb_spec (sl_len s + 1) (sl_cap s)) as [L|L]; intros [= <- <-].
    - destruct E4 as [[E4 _]|E4]; [lia|]. cbn [heap_write_all].
      destruct (hrel_write r h H (sl_arr s) (sl_arr s') (sl_off s + sl_len s) x y R E4 Hxy) as (R' & F & K).
      exists r. do 2 eexists. split; [reflexivity|]. split; [apply incl_refl|]. split; [|split; [exact R'|split; [exact F|exact K]]].
      repeat split. right. exact E4.
    - set (z := repeat zero (Nat.max (sl_len s + 1) (grow (sl_len s + 1)) - (sl_len s + 1))).
      destruct (hrel_alloc r h H (slice_elems h s ++ [x] ++ z) (slice_elems H s' ++ [y] ++ z) R B1 B2) as (R' & F & K).
      { apply Forall2_app; [eapply hrel_elems; eassumption|]. apply Forall2_app; [constructor; [exact Hxy|constructor]|].
        apply Forall2_repeat, Hz. }
      eexists. do 2 eexists. split; [reflexivity|]. split; [apply incl_tl, incl_refl|]. split; [|split; [exact R'|split; [exact F|exact K]]].
      repeat split. right. left. reflexivity.
  Qed.

  Lemma hrel_frame r h H H' : hrel P r h H -> (forall b, In b (ran r) -> nth_error H' b = nth_error H b) -> hrel P r h H'.
  Proof.
    intros (N1 & N2 & C) F. split; [exact N1|]. split; [exact N2|]. intros a b J. destruct (C _ _ J) as (X & Y & arr & arr' & E1 & E2 & E3).
    split; [exact X|]. split; [exact Y|]. exists arr, arr'. split; [exact E1|]. split; [|exact E3]. rewrite F; [exact E2|].
    change b with (snd (a, b)). apply in_map, J.
  Qed.
End Heaps.

Lemma hrel_eq_get {T} base r (h H : heap T) s s' i : hrel base eq r h H -> srel r s s' -> slice_get h s i = slice_get H s' i.
Proof.
  intros R S. pose proof (hrel_get base eq r h H s s' i R S) as G.
  destruct (slice_get h s i), (slice_get H s' i); cbn in G; try contradiction; congruence.
Qed.

Lemma nth_incl_len {T} (h h' : heap T) :
  (forall a arr, nth_error h a = Some arr -> nth_error h' a = Some arr) -> length h <= length h'.
Proof.
  intros K. destruct (Nat.le_gt_cases (length h) (length h')) as [L|L]; [exact L|].
  apply nth_error_Some in L. destruct (nth_error h (length h')) as [arr|] eqn:E; [|congruence].
  pose proof (K _ _ E) as X. assert (length h' < length h') by (apply nth_error_Some; congruence). lia.
Qed.

Lemma holds_base {T} (h : heap T) s xs : holds h s xs -> base_ok (length h) s.
Proof.
  intros ((L & V) & _). destruct V as [Z|(arr & E & _)]; [left; lia|right]. apply nth_error_Some. congruence.
Qed.

(** ** Memories *)
Section Mem.
  Variable m0 : mem.
  Let bo := length (m_ops m0).
  Let bn := length (m_nodes m0).
  Let bb := length (m_bytes m0).

  Record msim (w : world) (m M : mem) : Prop := mkSim {
    si_ops : hrel bo eq (w_o w) (m_ops m) (m_ops M);
    si_nodes : hrel bn (onrel w) (w_n w) (m_nodes m) (m_nodes M);
    si_bytes : hrel bb eq (w_b w) (m_bytes m) (m_bytes M);
    si_kept : untouched m0 m }.

  Record meff (w w' : world) (M M' : mem) : Prop := mkEff {
    ef_ops : heff (w_o w) (w_o w') (m_ops M) (m_ops M');
    ef_nodes : heff (w_n w) (w_n w') (m_nodes M) (m_nodes M');
    ef_bytes : heff (w_b w) (w_b w') (m_bytes M) (m_bytes M') }.
  Lemma meff_refl w M : meff w w M M.
  Proof. split; apply heff_refl. Qed.

  Lemma bsrel_get {T} base r (h0 h H : heap T) s s' i : base = length h0 ->
    (forall a arr, nth_error h0 a = Some arr -> nth_error h a = Some arr) ->
    (forall a arr, nth_error h0 a = Some arr -> nth_error H a = Some arr) ->
    hrel base eq r h H -> bsrel base r s s' -> slice_get h s i = slice_get H s' i.
  Proof.
    intros Eb K1 K2 R [S|[<- B]]; [eapply hrel_eq_get; eassumption|]. unfold slice_get.
    destruct (Nat.ltb_spec i (sl_len s)) as [L|L]; [|reflexivity]. destruct B as [B|B]; [lia|].
    rewrite Eb in B. apply nth_error_Some in B. destruct (nth_error h0 (sl_arr s)) as [arr|] eqn:E; [|congruence].
    rewrite (K1 _ _ E), (K2 _ _ E). reflexivity.
  Qed.

  Lemma keep_kept {T} (h0 h h' : heap T) : hkeep (length h0) h h' ->
    (forall a arr, nth_error h0 a = Some arr -> nth_error h a = Some arr) ->
    (forall a arr, nth_error h0 a = Some arr -> nth_error h' a = Some arr).
  Proof. intros [_ K] F a arr E. rewrite K; [apply F, E|]. apply nth_error_Some. congruence. Qed.

  (** One step, alone and among others. *)
  Lemma step_rel {A} (R : world -> A -> A -> Prop) w p p' m M :
    qrel bo bb R w p p' -> msim w m M -> untouched m0 M ->
    exists w', wle w w' /\ qrel bo bb R w' (fst (qstep p m)) (fst (qstep p' M)) /\
      msim w' (snd (qstep p m)) (snd (qstep p' M)) /\ meff w w' M (snd (qstep p' M)).
  Proof.
    intros H S U. pose proof U as (U1 & U2 & U3). pose proof S as [S1 S2 S3 S4]. pose proof S4 as (V1 & V2 & V3).
    assert (L1 : bo <= length (m_ops m)) by exact (nth_incl_len _ _ V1).
    assert (L2 : bn <= length (m_nodes m)) by exact (nth_incl_len _ _ V2).
    assert (L3 : bb <= length (m_bytes m)) by exact (nth_incl_len _ _ V3).
    assert (M1 : bo <= length (m_ops M)) by exact (nth_incl_len _ _ U1).
    assert (M2 : bn <= length (m_nodes M)) by exact (nth_incl_len _ _ U2).
    assert (M3 : bb <= length (m_bytes M)) by exact (nth_incl_len _ _ U3).
    destruct H as [w a b Hr|w s s' i k k' Hs K|w s s' i k k' Hs K|w s s' i k k' Hs K
      |w g s s' o k k' Hs K|w g s s' n n' k k' Hs N K|w s s' i n n' k k' Hs N K|w arr arr' k k' F K|w arr k k' K]; cbn [qstep].
    - exists w. cbn [fst snd]. split; [apply wle_refl|]. split; [constructor; assumption|]. split; [exact S|apply meff_refl].
    - exists w. cbn [fst snd]. split; [apply wle_refl|]. split; [|split; [exact S|apply meff_refl]].
      rewrite (bsrel_get bo (w_o w) (m_ops m0) _ _ s s' i eq_refl V1 U1 S1 Hs). apply K.
    - exists w. cbn [fst snd]. split; [apply wle_refl|]. split; [|split; [exact S|apply meff_refl]].
      rewrite (bsrel_get bb (w_b w) (m_bytes m0) _ _ s s' i eq_refl V3 U3 S3 Hs). apply K.
    - exists w. cbn [fst snd]. split; [apply wle_refl|]. split; [|split; [exact S|apply meff_refl]].
      apply K. eapply hrel_get; eassumption.
    - destruct (slice_append OpNil g (m_ops m) s [o]) as [h t] eqn:E.
      destruct (hrel_append bo eq OpNil g _ _ _ s s' o o h t eq_refl eq_refl S1 Hs L1 M1 E) as (r' & H' & t' & E' & I & T & R' & F & Kp).
      rewrite E'. cbn [fst snd]. exists (mkW r' (w_n w) (w_b w)).
      assert (L : wle w (mkW r' (w_n w) (w_b w))) by (split; [exact I|split; apply incl_refl]).
      split; [exact L|]. split; [apply K; [exact L|exact T]|split].
      + split; cbn; auto.
        split; [eapply keep_kept; eassumption|split; assumption].
      + split; [exact F|apply heff_refl|apply heff_refl].
    - destruct (slice_append None g (m_nodes m) s [n]) as [h t] eqn:E.
      destruct (hrel_append bn (onrel w) None g _ _ _ s s' n n' h t I N S2 Hs L2 M2 E) as (r' & H' & t' & E' & J & T & R' & F & Kp).
      rewrite E'. cbn [fst snd]. exists (mkW (w_o w) r' (w_b w)).
      assert (L : wle w (mkW (w_o w) r' (w_b w))) by (split; [apply incl_refl|split; [exact J|apply incl_refl]]).
      split; [exact L|]. split; [apply K; [exact L|exact T]|split].
      + split; cbn; auto.
        * eapply hrel_mono; [|exact R']. intros a b. apply onrel_le, L.
        * split; [assumption|split; [eapply keep_kept; eassumption|assumption]].
      + split; [apply heff_refl|exact F|apply heff_refl].
    - pose proof (hrel_set bn (onrel w) _ _ _ _ _ i n n' S2 Hs N) as W. exists w. split; [apply wle_refl|].
      destruct (slice_set (m_nodes m) s i n) as [h|], (slice_set (m_nodes M) s' i n') as [h'|]; try contradiction; cbn [fst snd].
      + destruct W as (W1 & W2 & W3). split; [apply K|]. split.
        * split; cbn; auto. split; [assumption|split; [eapply keep_kept; eassumption|assumption]].
        * split; [apply heff_refl|exact W2|apply heff_refl].
      + split; [apply K|]. split; [exact S|apply meff_refl].
    - destruct (hrel_alloc bn (onrel w) (w_n w) (m_nodes m) (m_nodes M) arr arr' S2 L2 M2 F) as (R' & E & Kp).
      unfold heap_alloc. cbn [fst snd]. exists (mkW (w_o w) ((length (m_nodes m), length (m_nodes M)) :: w_n w) (w_b w)).
      assert (L : wle w (mkW (w_o w) ((length (m_nodes m), length (m_nodes M)) :: w_n w) (w_b w)))
        by (split; [apply incl_refl|split; [apply incl_tl, incl_refl|apply incl_refl]]).
      split; [exact L|]. split; [apply K; [exact L|]|split].
      + repeat split; cbn; [exact (Forall2_len _ _ _ F)|exact (Forall2_len _ _ _ F)|]. right. left. reflexivity.
      + split; cbn; auto.
        * eapply hrel_mono; [|exact R']. intros a b. apply onrel_le, L.
        * split; [assumption|split; [eapply keep_kept; eassumption|assumption]].
      + split; [apply heff_refl|exact E|apply heff_refl].
    - destruct (hrel_alloc bb eq (w_b w) (m_bytes m) (m_bytes M) arr arr S3 L3 M3 (Forall2_same arr)) as (R' & E & Kp).
      unfold heap_alloc. cbn [fst snd]. exists (mkW (w_o w) (w_n w) ((length (m_bytes m), length (m_bytes M)) :: w_b w)).
      assert (L : wle w (mkW (w_o w) (w_n w) ((length (m_bytes m), length (m_bytes M)) :: w_b w)))
        by (split; [apply incl_refl|split; [apply incl_refl|apply incl_tl, incl_refl]]).
      split; [exact L|]. split; [apply K; [exact L|]|split].
      + repeat split. right. left. reflexivity.
      + split; cbn; auto.
        split; [assumption|split; [assumption|eapply keep_kept; eassumption]].
      + split; [apply heff_refl|apply heff_refl|exact E].
  Qed.

  (** A step of one call and the relation of another. *)
  Definition apart (w v : world) : Prop :=
    (forall b, In b (ran (w_o w)) -> ~ In b (ran (w_o v))) /\
    (forall b, In b (ran (w_n w)) -> ~ In b (ran (w_n v))) /\
    (forall b, In b (ran (w_b w)) -> ~ In b (ran (w_b v))).
  Lemma apart_sym w v : apart w v -> apart v w.
  Proof. intros (A & B & C). repeat split; intros b I J; [exact (A b J I)|exact (B b J I)|exact (C b J I)]. Qed.

  Lemma msim_other w w' v mi M M' : meff w w' M M' -> apart w v -> msim v mi M ->
    msim v mi M' /\ apart w' v.
  Proof.
    intros [F1 F2 F3] (A1 & A2 & A3) [S1 S2 S3 S4].
    destruct F1 as (F1 & F1' & F1''). destruct F2 as (F2 & F2' & F2''). destruct F3 as (F3 & F3' & F3''). split; [split|split; [|split]].
    - eapply hrel_frame; [exact S1|]. intros b I. apply F1'; [eapply hrel_lt; eassumption|]. intros J. exact (A1 b J I).
    - eapply hrel_frame; [exact S2|]. intros b I. apply F2'; [eapply hrel_lt; eassumption|]. intros J. exact (A2 b J I).
    - eapply hrel_frame; [exact S3|]. intros b I. apply F3'; [eapply hrel_lt; eassumption|]. intros J. exact (A3 b J I).
    - exact S4.
    - intros b I J. destruct (F1'' b I) as [K|K]; [exact (A1 b K J)|]. pose proof (hrel_lt _ _ _ _ _ S1 b J). lia.
    - intros b I J. destruct (F2'' b I) as [K|K]; [exact (A2 b K J)|]. pose proof (hrel_lt _ _ _ _ _ S2 b J). lia.
    - intros b I J. destruct (F3'' b I) as [K|K]; [exact (A3 b K J)|]. pose proof (hrel_lt _ _ _ _ _ S3 b J). lia.
  Qed.

  Lemma heff_kept {T} (P : T -> T -> Prop) r r' (h0 h H H' : heap T) : heff r r' H H' -> hrel (length h0) P r h H ->
    (forall a arr, nth_error h0 a = Some arr -> nth_error H a = Some arr) ->
    (forall a arr, nth_error h0 a = Some arr -> nth_error H' a = Some arr).
  Proof.
    intros (_ & F & _) R K a arr E. rewrite F; [apply K, E| |].
    - apply nth_error_Some. rewrite (K a arr E). discriminate.
    - intros I. pose proof (hrel_lt _ _ _ _ _ R a I). assert (a < length h0) by (apply nth_error_Some; congruence). lia.
  Qed.

  Lemma eff_kept w w' mi M M' : meff w w' M M' -> msim w mi M -> untouched m0 M -> untouched m0 M'.
  Proof.
    intros [F1 F2 F3] [S1 S2 S3 S4] (K1 & K2 & K3). split; [|split]; eapply heff_kept; eassumption.
  Qed.

  (** ** A call alone *)
  Definition qsolo1 (c : qcall * mem) : qcall * mem := qstep (fst c) (snd c).
  Fixpoint qsolo (n : nat) (c : qcall * mem) : qcall * mem :=
    match n with O => c | S n' => qsolo1 (qsolo n' c) end.

  Lemma solo_ret r m n : qsolo n (QRet r, m) = (QRet r, m).
  Proof. induction n as [|n IH]; [reflexivity|]. cbn. rewrite IH. reflexivity. Qed.
  Lemma solo_add a b c : qsolo (a + b) c = qsolo a (qsolo b c).
  Proof. induction a as [|a IH]; [reflexivity|]. cbn. rewrite IH. reflexivity. Qed.

  (** Steps until the end, and the function of ParserMem. *)
  Lemma solo_end (p : qcall) : forall m, exists n,
    qsolo n (p, m) = (QRet (fst (qrun p m)), snd (qrun p m)).
  Proof.
    assert (X : forall (q : qcall) m c, qsolo1 c = (q, m) ->
      (exists n, qsolo n (q, m) = (QRet (fst (qrun q m)), snd (qrun q m))) ->
      exists n, qsolo n c = (QRet (fst (qrun q m)), snd (qrun q m))).
    { intros q m c E (n & H). exists (n + 1). rewrite solo_add. cbn [qsolo]. rewrite E. exact H. }
    induction p as [a|s i k IH|s i k IH|s i k IH|g s o k IH|g s n k IH|s i n k IH|arr k IH|arr k IH]; intros m; cbn [qrun].
    - exists 0. reflexivity.
    - eapply X; [reflexivity|apply IH].
    - eapply X; [reflexivity|apply IH].
    - eapply X; [reflexivity|apply IH].
    - destruct (slice_append OpNil g (m_ops m) s [o]) as [h t] eqn:E.
      eapply X; [|apply IH]. unfold qsolo1. cbn [fst snd qstep]. rewrite E. reflexivity.
    - destruct (slice_append None g (m_nodes m) s [n]) as [h t] eqn:E.
      eapply X; [|apply IH]. unfold qsolo1. cbn [fst snd qstep]. rewrite E. reflexivity.
    - destruct (slice_set (m_nodes m) s i n) as [h|] eqn:E.
      + eapply X; [|apply IH]. unfold qsolo1. cbn [fst snd qstep]. rewrite E. reflexivity.
      + eapply X; [|apply IH]. unfold qsolo1. cbn [fst snd qstep]. rewrite E. reflexivity.
    - destruct (heap_alloc (m_nodes m) arr) as [h t] eqn:E.
      eapply X; [|apply IH]. unfold qsolo1. cbn [fst snd qstep]. rewrite E. reflexivity.
    - destruct (heap_alloc (m_bytes m) arr) as [h t] eqn:E.
      eapply X; [|apply IH]. unfold qsolo1. cbn [fst snd qstep]. rewrite E. reflexivity.
  Qed.

  (** Whenever it has ended, it has ended like this. *)
  Lemma solo_outcome (p : qcall) m n r m' : qsolo n (p, m) = (QRet r, m') -> (r, m') = qrun p m.
  Proof.
    intros H. destruct (solo_end p m) as (k & E).
    assert (X : qsolo k (qsolo n (p, m)) = qsolo n (qsolo k (p, m))) by (rewrite <- !solo_add; f_equal; lia).
    rewrite H, E, !solo_ret in X. injection X as -> ->. destruct (qrun p m); reflexivity.
  Qed.

  (** ** All calls *)
  Variable jobs : list qjob.
  Hypothesis jobs_ok : jobs_in m0 jobs.

  Lemma job_start i j w : nth_error jobs i = Some j -> qrel bo bb outrel w (qstart j) (qstart j).
  Proof.
    intros E. apply nth_error_In in E. unfold jobs_in in jobs_ok. rewrite Forall_forall in jobs_ok.
    destruct (jobs_ok j E) as (t & s & Ht & Hs). apply rel_Parse.
    - intros n row c cell En Ec. revert En. unfold mtable_get. induction Ht as [|[n1 mr] [n2 r] mt t [E1 Hr] Ht IH]; [discriminate|].
      cbn [map_get]. destruct (Z.eqb n n1); [|exact IH]. intros [= ->]. clear -Hr Ec. cbn in Hr.
      revert Ec. unfold mrow_get. induction Hr as [|[c1 s1] [c2 xs] mr r [F1 Hc] Hr IH]; [discriminate|].
      cbn [map_get]. destruct (Ascii.eqb c c1); [|exact IH]. intros [= ->]. eapply holds_base. exact Hc.
    - destruct (q_source j) as [| |x|[x|]|rd|], s as [| |y|[y|]|rd'|]; cbn in *; try contradiction; try exact I; eapply holds_base; exact Hs.
  Qed.

  Record qinv (sched : list nat) (ws : list world) (c : qconfig) : Prop := mkInv {
    qi_len : length (qc_calls c) = length jobs;
    qi_lenw : length ws = length jobs;
    qi_kept : untouched m0 (qc_mem c);
    qi_calls : forall i j, nth_error jobs i = Some j -> exists w p,
      nth_error ws i = Some w /\ nth_error (qc_calls c) i = Some p /\
      qrel bo bb outrel w (fst (qsolo (qturns i sched) (qstart j, m0))) p /\
      msim w (snd (qsolo (qturns i sched) (qstart j, m0))) (qc_mem c);
    qi_apart : forall i k w v, i <> k -> nth_error ws i = Some w -> nth_error ws k = Some v -> apart w v }.

  Lemma turns_snoc i sched k : qturns i (sched ++ [k]) = (if Nat.eqb i k then 1 else 0) + qturns i sched.
  Proof.
    unfold qturns. rewrite count_occ_app. cbn. destruct (Nat.eq_dec k i), (Nat.eqb_spec i k); try congruence; lia.
  Qed.

  Lemma qinv_init : qinv [] (map (fun _ => mkW [] [] []) jobs) (qall_start jobs m0).
  Proof.
    split; cbn.
    - apply map_length.
    - apply map_length.
    - apply untouched_refl.
    - intros i j E. exists (mkW [] [] []), (qstart j). rewrite !nth_error_map, E. split; [reflexivity|]. split; [reflexivity|].
      split; [eapply job_start; eassumption|]. split; try apply untouched_refl;
        (split; [constructor|split; [constructor|intros a b []]]).
    - intros i k w v _ E1 E2. rewrite nth_error_map in E1, E2. destruct (nth_error jobs i), (nth_error jobs k); try discriminate.
      injection E1 as <-. injection E2 as <-. repeat split; intros b [].
  Qed.

  Lemma qinv_step sched ws c k : qinv sched ws c -> exists ws', qinv (sched ++ [k]) ws' (qturn c k).
  Proof.
    intros [I1 I2 I3 I4 I5]. unfold qturn. destruct (nth_error (qc_calls c) k) as [p|] eqn:Ep.
    2: { exists ws. split; auto. intros i j E. destruct (I4 i j E) as (w & q & A & B & C).
      exists w, q. rewrite turns_snoc. destruct (Nat.eqb_spec i k) as [->|_]; [congruence|]. auto. }
    assert (Lk : k < length jobs) by (rewrite <- I1; apply nth_error_Some; congruence).
    destruct (nth_error jobs k) as [jk|] eqn:Ejk; [|apply nth_error_None in Ejk; lia].
    destruct (I4 k jk Ejk) as (w & p' & Ew & Ep' & Rp & Sp). rewrite Ep in Ep'. injection Ep' as <-.
    destruct (step_rel outrel w _ p _ (qc_mem c) Rp Sp I3) as (w' & L & R' & S' & F).
    destruct (qstep p (qc_mem c)) as [q M'] eqn:E. cbn [fst snd] in R', S', F.
    exists (list_set ws k w'). split; cbn.
    - rewrite list_set_length. exact I1.
    - rewrite list_set_length. exact I2.
    - eapply eff_kept; eassumption.
    - intros i j Ei. rewrite turns_snoc, !list_set_nth. destruct (Nat.eqb_spec k i) as [<-|Nk].
      + rewrite Ejk in Ei. injection Ei as <-. rewrite Nat.eqb_refl.
        destruct (Nat.ltb_spec k (length ws)); [|lia]. destruct (Nat.ltb_spec k (length (qc_calls c))); [|lia].
        exists w', q. auto.
      + destruct (Nat.eqb_spec i k); [congruence|]. destruct (I4 i j Ei) as (v & pi & A & B & C & D).
        exists v, pi. cbn [Nat.add]. split; [exact A|]. split; [exact B|]. split; [exact C|].
        eapply msim_other; [exact F| |exact D]. eapply I5; [|exact Ew|exact A]. exact Nk.
    - assert (X : forall i v, i <> k -> nth_error ws i = Some v -> apart w' v).
      { intros i v Ni Ev. assert (i < length jobs) by (rewrite <- I2; apply nth_error_Some; congruence).
        destruct (nth_error jobs i) as [ji|] eqn:Ej; [|apply nth_error_None in Ej; lia].
        destruct (I4 i ji Ej) as (v' & pi & A & B & C & D). rewrite Ev in A. injection A as <-.
        eapply msim_other; [exact F| |exact D]. eapply (I5 k i); [congruence|exact Ew|exact Ev]. }
      intros i l a b Nil. rewrite !list_set_nth. destruct (Nat.eqb_spec k i) as [<-|Nk], (Nat.eqb_spec k l) as [<-|Nl].
      + congruence.
      + destruct (Nat.ltb k (length ws)); [|discriminate]. intros [= <-] Eb. eapply X; [|exact Eb]. congruence.
      + destruct (Nat.ltb k (length ws)); [|discriminate]. intros Ea [= <-]. apply apart_sym. eapply X; [|exact Ea]. congruence.
      + intros Ea Eb. exact (I5 i l a b Nil Ea Eb).
  Qed.

  Lemma qinv_all sched : exists ws, qinv sched ws (qafter jobs m0 sched).
  Proof.
    induction sched as [|k sched IH] using rev_ind.
    - exists (map (fun _ => mkW [] [] []) jobs). apply qinv_init.
    - destruct IH as (ws & IH). unfold qafter. rewrite fold_left_app. exact (qinv_step _ _ _ k IH).
  Qed.
End Mem.
