(** * TGAlloc: how large the tables of FromGrammar are, and what it allocates. *)
From Verif Require Import Base ByteSet ByteSetProofs Ast Parser SliceMem ParserMem Spec_Mem Spec_Alloc TableGen TableGenMem
  Spec_Grammar Spec_GenMem Spec_TableSize ParserMemProofs ParserAlloc NulProofs TGFirsts TGTable TGCells TGMain TGMem.

Lemma ls_cons a b : list_sum (a :: b) = a + list_sum b.
Proof. reflexivity. Qed.

(** ** A set has at most 256 bytes *)
Lemma realBytes_length : forall fuel v o acc l, realBytes fuel v o acc = Some l -> length l <= length acc + fuel.
Proof.
  induction fuel as [|fuel IH]; intros v o acc l; cbn [realBytes]; destruct (v =? 0)%N.
  - intros [= <-]. lia.
  - discriminate.
  - intros [= <-]. lia.
  - destruct (log2pow2n _); [|discriminate]. intros H. apply IH in H. rewrite app_length in H. cbn in H. lia.
Qed.
Lemma bs_bytes_length s l : bs_bytes s = Some l -> length l <= 256.
Proof.
  unfold bs_bytes. destruct (realBytes 64 (data0 s) _ _) as [r0|] eqn:E0; [|discriminate].
  destruct (realBytes 64 (data1 s) _ _) as [r1|] eqn:E1; [|discriminate].
  destruct (realBytes 64 (data2 s) _ _) as [r2|] eqn:E2; [|discriminate]. intros E3.
  apply realBytes_length in E0, E1, E2, E3. cbn [length] in E0. lia.
Qed.
Lemma bs_range_length s l : bs_range s = Ok l -> length l <= 256.
Proof. unfold bs_range. destruct (bs_bytes s) as [x|] eqn:E; intros H; [|discriminate]. injection H as <-. eapply bs_bytes_length, E. Qed.

(** ** Sums over maps *)
Section Sum.
  Context {K V : Type} (eqb : K -> K -> bool) (f : V -> nat).
  Definition msum (m : list (K * V)) : nat := list_sum (map (fun c => f (snd c)) m).
  Lemma msum_cons c m : msum (c :: m) = f (snd c) + msum m.
  Proof. reflexivity. Qed.
  Lemma msum_set k v m :
    msum (map_set eqb k v m) + match map_get eqb k m with Some w => f w | None => 0 end = msum m + f v.
  Proof.
    induction m as [|[k1 v1] m IH]; cbn [map_set map_get].
    - unfold msum. cbn. lia.
    - destruct (eqb k k1); rewrite !msum_cons; cbn [snd]; [lia|]. lia.
  Qed.
  Lemma msum_app m m' : msum (m ++ m') = msum m + msum m'.
  Proof. unfold msum. rewrite map_app, list_sum_app. reflexivity. Qed.
End Sum.

(** ** Values *)
Lemma row_append_nodup b op (res : row) : NoDup (map fst res) -> NoDup (map fst (row_append b op res)).
Proof. apply map_set_nodup. intros x y. apply Ascii.eqb_eq. Qed.
Lemma fill_symbols_nodup rm t : forall s res res', fill_symbols rm t s res = Ok res' ->
  NoDup (map fst res) -> NoDup (map fst res').
Proof.
  induction s as [|x s IH]; intros res res'; cbn [fill_symbols].
  - intros [= <-]. auto.
  - destruct x as [n|n| |k]; try discriminate.
    + destruct (rm_get rm n); [|discriminate]. intros H N. eapply IH; [exact H|]. apply row_append_nodup, N.
    + intros H N. eapply IH; [exact H|]. apply row_append_nodup, N.
Qed.
Lemma fill_firsts_nodup rm s : forall ts res res', fill_firsts rm ts s res = Ok res' ->
  NoDup (map fst res) -> NoDup (map fst res').
Proof.
  induction ts as [|t ts IH]; intros res res'; cbn [fill_firsts].
  - intros [= <-]. auto.
  - destruct (fill_symbols rm t s res) as [r| | |] eqn:E; cbn [gobind]; try discriminate. intros H N.
    eapply IH; [exact H|]. eapply fill_symbols_nodup; eassumption.
Qed.
Lemma fill_follows_nodup : forall ts res res', fill_follows ts res = Ok res' -> NoDup (map fst res) -> NoDup (map fst res').
Proof.
  induction ts as [|t ts IH]; intros res res'; cbn [fill_follows].
  - intros [= <-]. auto.
  - destruct (row_get t res) eqn:E; [discriminate|]. intros H N. eapply IH; [exact H|].
    apply map_set_nodup; [intros x y; apply Ascii.eqb_eq|exact N].
Qed.
Lemma row_loop_nodup rm fi fol : forall seqs res res', row_loop rm fi fol seqs res = Ok res' ->
  NoDup (map fst res) -> NoDup (map fst res').
Proof.
  induction seqs as [|s seqs IH]; intros res res'; cbn [row_loop].
  - intros [= <-]. auto.
  - destruct (sequenceFirsts rm fi s) as [sf| | |]; cbn [gobind]; try discriminate.
    assert (X : forall r1 f2, (go terms <- bs_range f2; go res <- fill_firsts rm terms s r1; row_loop rm fi fol seqs res) = Ok res' ->
      NoDup (map fst r1) -> NoDup (map fst res')).
    { intros r1 f2. destruct (bs_range f2) as [ts| | |] eqn:E; cbn [gobind]; try discriminate.
      destruct (fill_firsts rm ts s r1) as [r2| | |] eqn:E2; cbn [gobind]; try discriminate.
      intros H N. eapply IH; [exact H|]. eapply fill_firsts_nodup; eassumption. }
    destruct (bs_contains sf EOS); cbn [gobind]; [|apply X].
    destruct (bs_range fol) as [ts| | |] eqn:E; cbn [gobind]; try discriminate.
    destruct (fill_follows ts res) as [r1| | |] eqn:E1; cbn [gobind]; try discriminate.
    intros H N. eapply X; [exact H|]. eapply fill_follows_nodup; eassumption.
Qed.

Lemma ops_of_length g s : length (ops_of g s) <= length s.
Proof.
  unfold ops_of. induction s as [|x s IH]; [cbn; lia|]. cbn [flat_map length]. rewrite app_length.
  assert (length (op_of g x) <= 1); [|lia]. unfold op_of. destruct x as [v|t| |k]; cbn; try lia. destruct (rm_get _ v); cbn; lia.
Qed.
Lemma cell_of_length g fi fol seqs b ops : cell_of g fi fol seqs b = Some ops ->
  length ops <= list_sum (map (@length symbol) seqs).
Proof.
  unfold cell_of. intros H.
  assert (L : length ops <= list_sum (map (@length symbol) (filter (takes g fi b) seqs))).
  { assert (X : forall l, length (flat_map (ops_of g) l) <= list_sum (map (@length symbol) l)).
    { clear. induction l as [|y l IH]; [cbn; lia|]. cbn [flat_map map]. rewrite app_length.
      rewrite ?ls_cons. pose proof (ops_of_length g y). lia. }
    destruct (filter (takes g fi b) seqs) as [|x l].
    - destruct (_ && _); [|discriminate]. injection H as <-. cbn. lia.
    - assert (E : ops = flat_map (ops_of g) (x :: l)) by congruence. rewrite E. apply X. }
  etransitivity; [exact L|]. clear. induction seqs as [|y l IH]; [cbn; lia|]. cbn [filter map].
  destruct (takes g fi b y); cbn [map]; rewrite ?ls_cons; lia.
Qed.

Definition row_fits (r : rule) (p : Z * row) : Prop :=
  NoDup (map fst (snd p)) /\ forall c ops, In (c, ops) (snd p) -> length ops <= rule_symbols r.
Lemma Forall2_from_nth {A B} (R : A -> B -> Prop) : forall l l', length l' = length l ->
  (forall i x y, nth_error l i = Some x -> nth_error l' i = Some y -> R x y) -> Forall2 R l l'.
Proof.
  induction l as [|x l IH]; intros [|y l'] L H; try discriminate; constructor.
  - apply (H 0); reflexivity.
  - apply IH; [injection L as L; exact L|]. intros i. apply (H (S i)).
Qed.
Lemma table_fits order fuel g tbl names : FromGrammar_order order fuel g = Ok (tbl, names) ->
  Forall2 row_fits g tbl.
Proof.
  intros H. destruct (FromGrammar_generated _ _ _ _ _ H) as (fi & fo & Efi & Efo & G & _).
  rewrite FromGrammar_unfold, Efi in H. cbn [gobind] in H. rewrite Efo in H. cbn [gobind] in H.
  destruct (makeTable g (enumerate (heads g)) fi fo) as [tbl'| | |] eqn:E; try discriminate. cbn [gobind] in H.
  injection H as -> _. unfold makeTable in E.
  destruct (makeTable_loop_spec g _ _ _ _ 0 [] tbl eq_refl E) as (K & _ & X). cbn [Nat.add] in K, X.
  assert (L : length tbl = length g) by (apply (f_equal (@length Z)) in K; rewrite !map_length, seq_length in K; exact K).
  assert (N : NoDup (map fst tbl)) by (rewrite K; apply FinFun.Injective_map_NoDup; [intros x y; lia|apply seq_NoDup]).
  apply Forall2_from_nth; [exact L|]. intros i r p Er Ep.
  assert (Li : i < length g) by (apply nth_error_Some; congruence).
  assert (Ek : p = (Z.of_nat i, snd p)).
  { pose proof (map_nth_error fst i tbl Ep) as Y.
    assert (Ej : nth_error (seq 0 (length g)) i = Some i).
    { destruct (nth_error (seq 0 (length g)) i) as [j|] eqn:Ej; [|apply nth_error_None in Ej; rewrite seq_length in Ej; lia].
      apply (nth_error_nth (seq 0 (length g)) i 0) in Ej. rewrite List.seq_nth in Ej by exact Li. cbn in Ej. congruence. }
    rewrite K, (map_nth_error Z.of_nat i _ Ej) in Y. injection Y as ->. destruct p; reflexivity. }
  assert (Eg : map_get Z.eqb (Z.of_nat i) tbl = Some (snd p)).
  { apply map_get_nodup; [intros x y; apply Z.eqb_eq|exact N|]. rewrite <- Ek. eapply nth_error_In, Ep. }
  destruct (X i) as (rw & Erw & Em); [lia|]. rewrite Eg in Erw. injection Erw as <-.
  unfold makeTableRow, index in Em. rewrite Er in Em. cbn [gobind] in Em.
  destruct (nth_error fo i) as [fol|] eqn:Ef; [|discriminate]. cbn [gobind] in Em.
  assert (D : NoDup (map fst (snd p))) by (eapply row_loop_nodup; [exact Em|constructor]).
  split; [exact D|]. intros c ops I.
  destruct (gn_rows _ _ _ _ G i r Er) as (rw & fol' & E1 & _ & C & _). rewrite Eg in E1. injection E1 as <-.
  eapply cell_of_length. rewrite <- C. unfold row_get. apply map_get_nodup; [intros x y; apply Ascii.eqb_eq|exact D|exact I].
Qed.
Lemma row_fits_cells r p : row_fits r p -> length (snd p) <= 256 /\ row_operands (snd p) <= 256 * rule_symbols r.
Proof.
  intros (N & F). assert (L : length (snd p) <= 256) by (rewrite <- (map_length fst); apply all_bytes_length, N).
  split; [exact L|]. assert (row_operands (snd p) <= length (snd p) * rule_symbols r); [|nia].
  clear -F. destruct p as (z & w). cbn [snd] in *. unfold row_operands. induction w as [|(c, ops) w IH]; [cbn; lia|].
  cbn [map length snd]. rewrite ?ls_cons.
  pose proof (F c ops (or_introl eq_refl)). assert (list_sum (map (fun c => length (snd c)) w) <= length w * rule_symbols r); [|lia].
  apply IH. intros c' o' I. apply (F c' o'). right. exact I.
Qed.
Lemma table_fits_total g tbl : Forall2 row_fits g tbl ->
  table_cells tbl <= 256 * length g /\ table_operands tbl <= 256 * grammar_symbols g.
Proof.
  induction 1 as [|r p g tbl F _ (I1 & I2)]; [cbn; lia|]. apply row_fits_cells in F. destruct F as (F1 & F2).
  unfold table_cells, table_operands, grammar_symbols in *. cbn [map length].
  rewrite ?ls_cons. split; [eapply Nat.le_trans; [apply Nat.add_le_mono; [exact F1|exact I1]|lia]|lia].
Qed.

(** ** Memory *)
(** Steps that allocate nothing: they may write sets. *)
Definition code_kept (m m' : gmem) : Prop :=
  gm_syms m' = gm_syms m /\ gm_seqs m' = gm_seqs m /\ gm_rules m' = gm_rules m.
Definition same_size (m m' : gmem) : Prop :=
  code_kept m m' /\ gm_mem m' = gm_mem m /\ Spec_Alloc.cells (gm_sets m') = Spec_Alloc.cells (gm_sets m).
Definition quiet {A} (x : gmm A) : Prop := forall m, same_size m (snd (x m)).

Lemma code_kept_refl m : code_kept m m.
Proof. repeat split. Qed.
Lemma code_kept_trans m m' m'' : code_kept m m' -> code_kept m' m'' -> code_kept m m''.
Proof. intros (a & b & c) (d & e & f). repeat split; congruence. Qed.
Lemma same_size_refl m : same_size m m.
Proof. repeat split. Qed.
Lemma same_size_trans m m' m'' : same_size m m' -> same_size m' m'' -> same_size m m''.
Proof. intros (a & b & c) (d & e & f). split; [eapply code_kept_trans; eassumption|]. split; congruence. Qed.

Lemma quiet_do {A} (x : tgres A) : quiet (mdo x).
Proof. intros m. apply same_size_refl. Qed.
Lemma quiet_rd {T} (h : gmem -> heap T) s i : quiet (rd h s i).
Proof. intros m. apply same_size_refl. Qed.
Lemma quiet_wr s i x : quiet (wr_set s i x).
Proof.
  intros m. unfold wr_set, slice_set. destruct (Nat.ltb i (sl_len s)); cbn; [|apply same_size_refl].
  repeat split. cbn. apply cells_write.
Qed.
Lemma quiet_bind {A B} (x : gmm A) (f : A -> gmm B) : quiet x -> (forall a, quiet (f a)) -> quiet (mbind x f).
Proof.
  intros Q F m. unfold mbind. specialize (Q m). destruct (x m) as [[a|e|p|] m']; cbn in *; try exact Q.
  eapply same_size_trans; [exact Q|apply F].
Qed.
Create HintDb quiet.
#[local] Hint Resolve quiet_do quiet_rd quiet_wr quiet_bind : quiet.

Section Quiet.
  Variables (mg : slice) (n : nat) (rm : list (bytes * nat)) (sfi sfo : slice).
  Ltac q := repeat match goal with
    | |- quiet (mbind _ _) => apply quiet_bind; [|intros]
    | |- quiet (if ?b then _ else _) => destruct b
    | |- quiet (match ?x with _ => _ end) => destruct x
    | |- quiet (let _ := _ in _) => cbv zeta
    | _ => solve [auto with quiet]
    end.
  Lemma q_seqFirsts_loop s : forall k r f, quiet (msequenceFirsts_loop rm sfi s k r f).
  Proof. induction k as [|k IH]; intros r f; cbn [msequenceFirsts_loop]; q. Qed.
  Lemma q_seqFirsts s : quiet (msequenceFirsts rm sfi s).
  Proof. apply q_seqFirsts_loop. Qed.
  Hint Resolve q_seqFirsts : quiet.
  Lemma q_subFirsts s : forall k r, quiet (msubstitutionFirsts_loop rm sfi s k r).
  Proof. induction k as [|k IH]; intros r; cbn [msubstitutionFirsts_loop]; q. Qed.
  Hint Resolve q_subFirsts : quiet.
  Lemma q_firsts_round : forall l b, quiet (mfirsts_round mg n rm sfi l b).
  Proof.
    induction l as [|i l IH]; intros b; cbn [mfirsts_round]; q.
    unfold mruleFirsts. q.
  Qed.
  Hint Resolve q_firsts_round : quiet.
  Lemma q_findFirsts : forall fuel, quiet (mfindFirsts mg n rm sfi fuel).
  Proof. induction fuel as [|fuel IH]; cbn [mfindFirsts]; q. Qed.
  Lemma q_symbolFirsts x : quiet (msymbolFirsts rm sfi x).
  Proof. unfold msymbolFirsts. q. Qed.
  Lemma q_add i x : quiet (madd_follows sfo i x).
  Proof. unfold madd_follows. q. Qed.
  Hint Resolve q_symbolFirsts q_add : quiet.
  Lemma q_inner i s r : forall k b, quiet (mfollows_inner mg rm sfi sfo i s r k b).
  Proof. induction k as [|k IH]; intros b; cbn [mfollows_inner]; q. Qed.
  Hint Resolve q_inner : quiet.
  Lemma q_inSequence i s r b : quiet (mruleFollowsInSequence mg rm sfi sfo i s r b).
  Proof. unfold mruleFollowsInSequence. q. Qed.
  Hint Resolve q_inSequence : quiet.
  Lemma q_sequences i s r : forall k b, quiet (mfollows_sequences mg rm sfi sfo i s k r b).
  Proof. induction k as [|k IH]; intros b; cbn [mfollows_sequences]; q. Qed.
  Hint Resolve q_sequences : quiet.
  Lemma q_round : forall l b, quiet (mfollows_round mg n rm sfi sfo l b).
  Proof. induction l as [|(i, j) l IH]; intros b; cbn [mfollows_round]; q. unfold mruleFollowsInRule. q. Qed.
  Hint Resolve q_round : quiet.
  Lemma q_floop : forall fuel, quiet (mfollows_loop mg n rm sfi sfo fuel).
  Proof. induction fuel as [|fuel IH]; cbn [mfollows_loop]; q. Qed.
  Hint Resolve q_floop : quiet.
  Lemma q_findFollows fuel : quiet (mfindFollows mg n rm sfi sfo fuel).
  Proof. unfold mfindFollows. q. Qed.
  Lemma q_collect s : forall k, quiet (mcollect s k).
  Proof. induction k as [|k IH]; cbn [mcollect]; q. Qed.
End Quiet.

Section Fill.
  Variable a : nat.
  Variable grow : nat -> nat.
  Hypothesis Steady : steady a grow.
  Variables (mg : slice) (rm : list (bytes * nat)) (sfi sfo : slice).

  Notation opcells m := (Spec_Alloc.cells (m_ops (gm_mem m))).
  Definition keep (m m' : gmem) : Prop :=
    code_kept m m' /\ m_nodes (gm_mem m') = m_nodes (gm_mem m) /\ m_bytes (gm_mem m') = m_bytes (gm_mem m) /\
    Spec_Alloc.cells (gm_sets m') = Spec_Alloc.cells (gm_sets m).
  Lemma keep_refl m : keep m m.
  Proof. repeat split. Qed.
  Lemma keep_trans m m' m'' : keep m m' -> keep m' m'' -> keep m m''.
  Proof. intros (A & B & C & D) (A' & B' & C' & D'). split; [eapply code_kept_trans; eassumption|]. repeat split; congruence. Qed.

  (** The row so far: what it took ([C] cells were there before), and how many
      operands it holds at most. *)
  Definition INV (C U : nat) (res : mrow) (m : gmem) : Prop :=
    opcells m <= C + 5 * msum sl_cap res /\
    (forall c, In c res -> sl_len (snd c) <= sl_cap (snd c) /\ sl_cap (snd c) <= a * sl_len (snd c)) /\
    msum sl_len res <= U.
  Definition post {A} (L : nat) (Q : A -> gmem -> Prop) (m : gmem) (x : tgres A * gmem) : Prop :=
    keep m (snd x) /\ opcells (snd x) <= L /\ match fst x with Ok v => Q v (snd x) | _ => True end.

  Lemma INV_cells C U res m : INV C U res m -> opcells m <= C + 5 * a * U.
  Proof.
    intros (H1 & H2 & H3). assert (msum sl_cap res <= a * msum sl_len res); [|nia].
    clear -H2. induction res as [|c res IH]; [cbn; lia|]. rewrite !msum_cons, Nat.mul_add_distr_l.
    pose proof (H2 c (or_introl eq_refl)). assert (msum sl_cap res <= a * msum sl_len res); [|lia].
    apply IH. intros d I. apply H2. right. exact I.
  Qed.
  Lemma INV_more C U U' res m : INV C U res m -> U <= U' -> INV C U' res m.
  Proof. intros (H1 & H2 & H3) L. split; [exact H1|]. split; [exact H2|lia]. Qed.
  Lemma post_bind {A B} L (Q : A -> gmem -> Prop) (Q' : B -> gmem -> Prop) (x : gmm A) (f : A -> gmm B) m :
    post L Q m (x m) -> (forall v m', keep m m' -> opcells m' <= L -> Q v m' -> post L Q' m' (f v m')) ->
    post L Q' m (mbind x f m).
  Proof.
    unfold mbind. intros (K & B1 & H) F. destruct (x m) as [[v|e|p|] m']; cbn [fst snd] in *; try (split; [exact K|split; [exact B1|exact I]]).
    destruct (F v m' K B1 H) as (K' & H'). split; [eapply keep_trans; eassumption|exact H'].
  Qed.
  Lemma post_weak {A} L L' (Q Q' : A -> gmem -> Prop) m x : post L Q m x -> L <= L' -> (forall v m', Q v m' -> Q' v m') -> post L' Q' m x.
  Proof. intros (K & B & H) LL F. split; [exact K|]. split; [lia|]. destruct (fst x); auto. Qed.
  Lemma post_do {A} L (Q : A -> gmem -> Prop) m v : opcells m <= L -> Q v m -> post L Q m (mdo (Ok v) m).
  Proof. intros B H. split; [apply keep_refl|]. split; [exact B|exact H]. Qed.
  Lemma post_quiet {A} L (x : gmm A) m : quiet x -> opcells m <= L -> post L (fun v m' => same_size m m' /\ x m = (Ok v, m')) m (x m).
  Proof.
    intros Q B. specialize (Q m). destruct (x m) as [r m'] eqn:E; cbn [fst snd] in *. pose proof Q as (A1 & A2 & A3). split.
    - split; [exact A1|]. cbn [snd]. rewrite A2. repeat split. exact A3.
    - split; [cbn [snd]; rewrite A2; exact B|]. cbn [fst]. destruct r; auto.
  Qed.
  Lemma INV_same C U res m m' : same_size m m' -> INV C U res m -> INV C U res m'.
  Proof. intros (_ & E & _) (H & R). split; [rewrite E; exact H|exact R]. Qed.

  Lemma map_set_in' b (s : slice) (res : mrow) c : In c (map_set Ascii.eqb b s res) -> In c res \/ snd c = s.
  Proof.
    induction res as [|(k, v) res IH]; cbn [map_set].
    - intros [<-|[]]. right. reflexivity.
    - destruct (Ascii.eqb b k).
      + intros [<-|I]; [right; reflexivity|left; right; exact I].
      + intros [<-|I]; [left; left; reflexivity|]. destruct (IH I) as [J|J]; [left; right; exact J|right; exact J].
  Qed.
  Lemma mrow_append_post C U b op res m : INV C U res m ->
    post (C + 5 * a * S U) (INV C (S U)) m (mrow_append grow b op res m).
  Proof.
    intros (H1 & H2 & H3). unfold mrow_append, mrow_get.
    set (cur := match map_get Ascii.eqb b res with Some s => s | None => nil_slice end).
    destruct (slice_append OpNil grow (m_ops (gm_mem m)) cur [op]) as [h s] eqn:E.
    assert (Cur : sl_len cur <= sl_cap cur /\ sl_cap cur <= a * sl_len cur).
    { unfold cur. destruct (map_get Ascii.eqb b res) as [s'|] eqn:G; [|cbn; lia].
      apply map_get_In' in G. destruct G as (k' & I). exact (H2 _ I). }
    pose proof (msum_set Ascii.eqb sl_cap b s res) as X1. pose proof (msum_set Ascii.eqb sl_len b s res) as X2.
    assert (Y : forall f : slice -> nat, f nil_slice = 0 -> match map_get Ascii.eqb b res with Some w => f w | None => 0 end = f cur).
    { intros f F. unfold cur. destruct (map_get Ascii.eqb b res); [reflexivity|symmetry; exact F]. }
    rewrite Y in X1, X2 by reflexivity.
    assert (N : Spec_Alloc.cells h + 5 * sl_cap cur <= opcells m + 5 * sl_cap s /\ sl_len s = S (sl_len cur) /\
                sl_len s <= sl_cap s /\ sl_cap s <= a * sl_len s).
    { clear -Steady E Cur. unfold slice_append in E. cbn [length heap_write_all] in E.
      destruct (Nat.leb_spec (sl_len cur + 1) (sl_cap cur)) as [K|K]; injection E as <- <-; cbn [sl_cap sl_len].
      - rewrite cells_write. nia.
      - destruct Steady as (G0 & G). destruct (G (sl_len cur + 1)) as (G1 & G2); [lia|].
        set (n := sl_len cur + 1) in *. set (c := Nat.max n (grow n)).
        assert (Hc : c <= a * n) by (unfold c; nia).
        rewrite cells_app, cells_one, app_length. cbn [app length]. rewrite repeat_length.
        pose proof (elems_le (m_ops (gm_mem m)) cur) as Le. assert (n <= c /\ 4 * grow n <= 4 * c) by (unfold c; lia).
        assert (sl_cap cur = n - 1) by (unfold n in *; lia). unfold n in *. lia. }
    assert (J : INV C (S U) (map_set Ascii.eqb b s res) (set_gops m h)).
    { split; [cbn [gm_mem set_gops set_ops m_ops]; lia|]. split; [|lia].
      intros c I. apply map_set_in' in I. destruct I as [I| ->]; [apply H2, I|lia]. }
    split; [repeat split|]. split; [|exact J]. apply INV_cells with (res := map_set Ascii.eqb b s res). exact J.
  Qed.

  Lemma fail_post {A} L (Q : A -> gmem -> Prop) m x : opcells m <= L -> (forall v, x <> Ok v) -> post L Q m (mdo x m).
  Proof. intros B N. split; [apply keep_refl|]. split; [exact B|]. cbn. destruct x; auto. contradiction (N a0). reflexivity. Qed.

  Lemma mfill_symbols_post C t s : forall n U res m, INV C U res m ->
    post (C + 5 * a * (U + n)) (INV C (U + n)) m (mfill_symbols grow rm t s n res m).
  Proof.
    induction n as [|n IH]; intros U res m H; cbn [mfill_symbols].
    - rewrite Nat.add_0_r. apply post_do; [eapply INV_cells, H|exact H].
    - assert (B : opcells m <= C + 5 * a * (U + S n)) by (pose proof (INV_cells _ _ _ _ H); nia).
      eapply post_bind; [apply post_quiet; [apply quiet_rd|exact B]|].
      intros x m1 K1 B1 (Sz & _). pose proof (INV_same _ _ _ _ _ Sz H) as H'.
      assert (G : forall op, post (C + 5 * a * (U + S n)) (INV C (U + S n)) m1
                 (mbind (mrow_append grow t op res) (fun r => mfill_symbols grow rm t s n r) m1)).
      { intros op. eapply post_bind.
        - eapply post_weak; [apply mrow_append_post, H'|nia|]. intros v m' X. exact X.
        - intros r m2 K2 B2 H2. replace (U + S n) with (S U + n) by lia. apply IH, H2. }
      destruct x as [v|v| |k].
      + destruct (rm_get rm v); [apply G|]. apply fail_post; [exact B1|discriminate].
      + apply G.
      + apply fail_post; [exact B1|discriminate].
      + apply fail_post; [exact B1|discriminate].
  Qed.
  Lemma mfill_firsts_post C s : forall ts U res m, INV C U res m ->
    post (C + 5 * a * (U + length ts * sl_len s)) (INV C (U + length ts * sl_len s)) m (mfill_firsts grow rm ts s res m).
  Proof.
    induction ts as [|t ts IH]; intros U res m H; cbn [mfill_firsts length].
    - rewrite Nat.mul_0_l, Nat.add_0_r. apply post_do; [eapply INV_cells, H|exact H].
    - change (S (length ts) * sl_len s) with (sl_len s + length ts * sl_len s). eapply post_bind.
      + eapply post_weak; [apply mfill_symbols_post, H|nia|]. intros v m' X. exact X.
      + intros r m1 _ _ H1. rewrite Nat.add_assoc. apply IH, H1.
  Qed.
  Lemma mfill_follows_post C U : forall ts res m, INV C U res m ->
    post (C + 5 * a * U) (INV C U) m (mfill_follows ts res m).
  Proof.
    induction ts as [|t ts IH]; intros res m H; cbn [mfill_follows].
    - apply post_do; [eapply INV_cells, H|exact H].
    - destruct (mrow_get t res) eqn:E; [apply fail_post; [eapply INV_cells, H|discriminate]|].
      apply IH. destruct H as (H1 & H2 & H3). unfold mrow_get in E.
      pose proof (msum_set Ascii.eqb sl_cap t nil_slice res) as X1. pose proof (msum_set Ascii.eqb sl_len t nil_slice res) as X2.
      rewrite E in X1, X2. cbn [sl_cap sl_len nil_slice] in X1, X2. split; [lia|]. split; [|lia].
      intros c I. apply map_set_in' in I. destruct I as [I| ->]; [apply H2, I|cbn; lia].
  Qed.

  (** The alternatives of one rule; [syms] are those not yet looked at. *)
  Lemma mrow_loop_post C ri seqs (l : list slice) : forall n U res m,
    holds (gm_seqs m) seqs l -> n <= sl_len seqs -> INV C U res m ->
    let N := U + 256 * list_sum (map sl_len (skipn (sl_len seqs - n) l)) in
    post (C + 5 * a * N) (INV C N) m (mrow_loop grow rm sfi sfo ri seqs n res m).
  Proof.
    induction n as [|n IH]; intros U res m Hs Ln H; cbn [mrow_loop]; cbv zeta.
    - assert (E : skipn (sl_len seqs - 0) l = []) by (apply skipn_all2; destruct Hs as (_ & -> & _); lia).
      rewrite E. cbn [map list_sum fold_right]. rewrite Nat.mul_0_r, Nat.add_0_r.
      apply post_do; [eapply INV_cells, H|exact H].
    - set (N := U + _). assert (LN : U <= N) by (unfold N; lia).
      assert (B : opcells m <= C + 5 * a * N) by (pose proof (INV_cells _ _ _ _ H); nia).
      assert (Lt : sl_len seqs - S n < length l) by (destruct Hs as (_ & E & _); lia).
      destruct (nth_error l (sl_len seqs - S n)) as [s|] eqn:Es; [|apply nth_error_None in Es; lia].
      assert (EN : N = U + 256 * sl_len s + 256 * list_sum (map sl_len (skipn (sl_len seqs - n) l))).
      { unfold N. replace (sl_len seqs - n) with (S (sl_len seqs - S n)) by lia.
        rewrite (skipn_nth _ _ _ Es). cbn [map]. rewrite ls_cons. lia. }
      clearbody N. eapply post_bind; [apply post_quiet; [apply quiet_rd|exact B]|].
      intros s' m1 K1 B1 (Sz & Es'). unfold rd in Es'. destruct Hs as (V & Lg & Hn). rewrite (Hn _ _ Es) in Es'.
      injection Es' as <- <-. clear K1 Sz B1.
      eapply post_bind; [apply post_quiet; [apply q_seqFirsts|exact B]|].
      intros sf m2 K2 B2 (Sz2 & _). pose proof (INV_same _ _ _ _ _ Sz2 H) as H2.
      eapply post_bind with (Q := fun v m' => INV C U (fst v) m').
      { destruct (bs_contains sf EOS); [|apply post_do; [exact B2|exact H2]].
        eapply post_bind; [apply post_quiet; [apply quiet_rd|exact B2]|]. intros fol m3 K3 B3 (Sz3 & _).
        eapply post_bind; [apply post_quiet; [apply quiet_do|exact B3]|]. intros ts m4 K4 B4 (Sz4 & _).
        eapply post_bind.
        - eapply post_weak; [apply mfill_follows_post; eapply INV_same; [exact Sz4|eapply INV_same; [exact Sz3|exact H2]]|nia|].
          intros v m' X. exact X.
        - intros r m5 K5 B5 H5. apply post_do; [exact B5|exact H5]. }
      intros (r1, f2) m3 K3 B3 H3. cbn [fst] in H3.
      eapply post_bind; [apply post_quiet; [apply quiet_do|exact B3]|]. intros ts m4 K4 B4 (Sz4 & Et).
      unfold mdo in Et. injection Et as Et _. apply bs_range_length in Et. pose proof (INV_same _ _ _ _ _ Sz4 H3) as H4.
      eapply post_bind.
      + eapply post_weak; [apply mfill_firsts_post, H4| |].
        * assert (length ts * sl_len s <= 256 * sl_len s) by nia. nia.
        * intros v m' X. exact X.
      + intros r2 m5 K5 B5 H5.
        assert (Es5 : gm_seqs m5 = gm_seqs m).
        { destruct K2 as ((_ & e2 & _) & _), K3 as ((_ & e3 & _) & _), K4 as ((_ & e4 & _) & _), K5 as ((_ & e5 & _) & _). congruence. }
        assert (H6 : INV C (U + 256 * sl_len s) r2 m5).
        { eapply INV_more; [exact H5|]. assert (length ts * sl_len s <= 256 * sl_len s) by nia. lia. }
        rewrite EN. apply IH; [|lia|exact H6]. split; [|split; [exact Lg|]]; rewrite Es5; [exact V|exact Hn].
  Qed.
End Fill.

Section Whole.
  Variable a : nat.
  Variable grow : nat -> nat.
  Hypothesis Steady : steady a grow.
  Variables (m0 : gmem) (mg : slice) (mrs : list mrule) (g : grammar).
  Hypothesis Hr : holds (gm_rules m0) mg mrs.
  Hypothesis Hg : Forall2 (rule_in m0) mrs g.
  Notation opcells m := (Spec_Alloc.cells (m_ops (gm_mem m))).

  Lemma lens_symbols (seqs : list slice) (tail : substitution) :
    Forall2 (fun s syms => holds (gm_syms m0) s syms) seqs tail ->
    list_sum (map sl_len seqs) = list_sum (map (@length symbol) tail).
  Proof.
    induction 1 as [|s y l l' (_ & E & _) _ IH]; [reflexivity|]. cbn [map]. rewrite !ls_cons, IH, E. reflexivity.
  Qed.
  Lemma mmakeTableRow_post rm sfi sfo i r m : code_kept m0 m -> nth_error g i = Some r ->
    let N := 256 * rule_symbols r in
    post (opcells m + 5 * a * N) (fun _ _ => True) m (mmakeTableRow grow mg rm sfi sfo i m).
  Proof.
    intros (Ky & Ks & Kr) Er N. unfold mmakeTableRow.
    assert (X : exists mr, nth_error mrs i = Some mr /\ rule_in m0 mr r).
    { pose proof Hg as F. clear -F Er. revert i Er. induction F as [|x y l l' R _ IH]; intros [|i]; cbn; try discriminate.
      - intros [= <-]. eauto.
      - intros H. exact (IH _ H). }
    destruct X as (mr & Em & _ & seqs & Hs & Fs).
    eapply post_bind; [apply post_quiet; [apply quiet_rd|lia]|].
    intros mr' m1 K1 B1 (Sz & E). unfold rd in E. rewrite Kr in E. destruct Hr as (_ & _ & Hn). rewrite (Hn _ _ Em) in E.
    injection E as <- <-.
    pose proof (mrow_loop_post a grow Steady rm sfi sfo (opcells m) i (snd mr) seqs (sl_len (snd mr)) 0 [] m) as P.
    cbv zeta in P. rewrite Nat.sub_diag in P. cbn [skipn Nat.add] in P. rewrite (lens_symbols _ _ Fs) in P.
    eapply post_weak; [apply P| |].
    - rewrite Ks. exact Hs.
    - lia.
    - split; [cbn; lia|]. split; [intros c []|cbn; lia].
    - unfold N, rule_symbols. lia.
    - trivial.
  Qed.
  Lemma mmakeTable_loop_post rm sfi sfo : forall n i m mt, code_kept m0 m -> i + n = length g ->
    post (opcells m + 5 * a * (256 * grammar_symbols (skipn i g))) (fun _ _ => True) m
      (mmakeTable_loop grow mg rm sfi sfo (seq i n) mt m).
  Proof.
    induction n as [|n IH]; intros i m mt K E; cbn [seq mmakeTable_loop].
    - apply post_do; [lia|trivial].
    - destruct (nth_error g i) as [r|] eqn:Er; [|apply nth_error_None in Er; lia].
      assert (ES : grammar_symbols (skipn i g) = rule_symbols r + grammar_symbols (skipn (S i) g)).
      { rewrite (skipn_nth _ _ _ Er). unfold grammar_symbols. cbn [map]. rewrite ls_cons. reflexivity. }
      rewrite ES. pose proof (mmakeTableRow_post rm sfi sfo i r m K Er) as P. cbv zeta in P.
      set (L := opcells m + _). unfold mbind. destruct P as (K1 & B1 & _).
      destruct (mmakeTableRow grow mg rm sfi sfo i m) as [[v|e|p|] m1]; cbn [fst snd] in *;
        try (split; [exact K1|]; split; [cbn [snd]; unfold L; lia|exact I]).
      destruct (IH (S i) m1 (map_set Z.eqb (Z.of_nat i) v mt)) as (K2 & B2 & _); [|lia|].
      { eapply code_kept_trans; [exact K|apply K1]. }
      split; [eapply keep_trans; eassumption|]. split; [unfold L; lia|].
      destruct (fst _); trivial.
  Qed.
End Whole.

Lemma mFromGrammar_alloc a grow order fuel m mg g : steady a grow -> grammar_in m mg g ->
  let m' := snd (mFromGrammar grow order fuel mg m) in
  code_kept m m' /\ m_nodes (gm_mem m') = m_nodes (gm_mem m) /\ m_bytes (gm_mem m') = m_bytes (gm_mem m) /\
  Spec_Alloc.cells (gm_sets m') = Spec_Alloc.cells (gm_sets m) + 2 * length g /\
  Spec_Alloc.cells (m_ops (gm_mem m')) <= Spec_Alloc.cells (m_ops (gm_mem m)) + 1280 * a * grammar_symbols g.
Proof.
  intros S (mrs & Hr & Hg). cbv zeta.
  pattern (snd (mFromGrammar grow order fuel mg m)). set (P := fun m' : gmem => _). unfold mFromGrammar, mcollectRuleHeads.
  assert (L : sl_len mg = length g) by (rewrite <- (Forall2_length _ _ _ Hg); apply Hr).
  unfold mbind at 1. rewrite L, (mcollect_eq m mg mrs g Hr Hg (length g) 0) by lia. cbn [skipn]. rewrite !map_length. cbv zeta.
  unfold mbind at 1, make_sets at 1, heap_alloc at 1. unfold mbind at 1, make_sets at 1, heap_alloc at 1.
  cbn [gm_sets set_gsets gm_mem gm_syms gm_seqs gm_rules].
  set (m2 := set_gsets _ _). set (sfi := mkSlice _ _ _ _). set (sfo := mkSlice _ _ _ _). set (rm := enumerate _). clearbody rm.
  set (B := 1280 * a * grammar_symbols g).
  assert (Fi : post (Spec_Alloc.cells (m_ops (gm_mem m2)) + B) (fun _ _ => True) m2
                 (mRun grow mg (length g) rm sfi sfo fuel m2)).
  { unfold mRun. eapply post_bind; [apply post_quiet; [apply q_findFirsts|lia]|]. intros u m3 K3 B3 (Sz3 & _).
    eapply post_bind; [apply post_quiet; [apply q_findFollows|exact B3]|]. intros u' m4 K4 B4 (Sz4 & _).
    rewrite L. eapply post_weak; [apply (mmakeTable_loop_post a grow S m mg mrs g Hr Hg) with (i := 0)| |].
    - eapply code_kept_trans; [|eapply code_kept_trans; [apply K3|apply K4]]. repeat split.
    - reflexivity.
    - cbn [skipn]. destruct Sz3 as (_ & E3 & _), Sz4 as (_ & E4 & _). rewrite E4, E3. unfold B. lia.
    - trivial. }
  assert (G : forall m', keep m2 m' ->
     Spec_Alloc.cells (m_ops (gm_mem m')) <= Spec_Alloc.cells (m_ops (gm_mem m2)) + B -> P m').
  { intros m' (K1 & K2 & K3 & K4) Bd. unfold P. split; [eapply code_kept_trans; [|exact K1]; repeat split|].
    split; [exact K2|]. split; [exact K3|]. split; [|exact Bd]. rewrite K4. unfold m2. cbn [set_gsets gm_sets].
    rewrite !cells_app, !cells_one, !repeat_length. lia. }
  unfold mbind. destruct Fi as (K & Bd & _). destruct (mRun _ _ _ _ _ _ _ m2) as [[v|e|p|] m']; cbn [snd] in K, Bd.
  all: exact (G m' K Bd).
Qed.
