(** * ParserConcProofs: the programs of ParserConc.v are the functions of ParserMem.v. *)
From Verif Require Import Base Cst Parser SliceMem ParserMem ParserConc Spec_Mem Spec_ParserConc ParserMemProofs.

Fixpoint qrun {A} (p : qprog A) (m : mem) : A * mem :=
  match p with
  | QRet a => (a, m)
  | QOp s i k => qrun (k (slice_get (m_ops m) s i)) m
  | QByte s i k => qrun (k (slice_get (m_bytes m) s i)) m
  | QNode s i k => qrun (k (slice_get (m_nodes m) s i)) m
  | QAppOp grow s o k =>
      let (h, t) := slice_append OpNil grow (m_ops m) s [o] in qrun (k t) (set_ops m h)
  | QAppNode grow s n k =>
      let (h, t) := slice_append None grow (m_nodes m) s [n] in qrun (k t) (set_nodes m h)
  | QSetNode s i n k =>
      match slice_set (m_nodes m) s i n with
      | Some h => qrun (k true) (set_nodes m h)
      | None => qrun (k false) m
      end
  | QNodes arr k => let (h, t) := heap_alloc (m_nodes m) arr in qrun (k t) (set_nodes m h)
  | QBytes arr k => let (h, t) := heap_alloc (m_bytes m) arr in qrun (k t) (set_bytes m h)
  end.

Lemma qrun_bind {A B} (p : qprog A) (f : A -> qprog B) : forall m,
  qrun (qbind p f) m = qrun (f (fst (qrun p m))) (snd (qrun p m)).
Proof.
  induction p as [a|s i k IH|s i k IH|s i k IH|g s o k IH|g s n k IH|s i n k IH|arr k IH|arr k IH]; intros m; cbn [qbind qrun].
  - reflexivity.
  - apply IH.
  - apply IH.
  - apply IH.
  - destruct (slice_append OpNil g (m_ops m) s [o]). apply IH.
  - destruct (slice_append None g (m_nodes m) s [n]). apply IH.
  - destruct (slice_set (m_nodes m) s i n); apply IH.
  - destruct (heap_alloc (m_nodes m) arr). apply IH.
  - destruct (heap_alloc (m_bytes m) arr). apply IH.
Qed.

Section Run.
  Variable grow : nat -> nat.
  Variable tbl : mtable.
  Variable src : slice.
  Variable names : names_map.

  Lemma run_push_op st o m m' s : push_op grow m st o = (m', s) -> qrun (qpush_op grow st o) m = (s, m').
  Proof. unfold push_op, qpush_op. cbn [qrun]. destruct (slice_append _ _ _ _ _) as [h t]. intros [= <- <-]. reflexivity. Qed.
  Lemma run_push_node st n m m' s : push_node grow m st n = (m', s) -> qrun (qpush_node grow st n) m = (s, m').
  Proof. unfold push_node, qpush_node. cbn [qrun]. destruct (slice_append _ _ _ _ _) as [h t]. intros [= <- <-]. reflexivity. Qed.
  Lemma run_pop_op st m : qrun (qpop_op st) m = (pop_op m st, m).
  Proof. unfold pop_op, qpop_op. destruct (Nat.eqb _ 0); [reflexivity|]. cbn. destruct (slice_get _ _ _); reflexivity. Qed.
  Lemma run_pop_node st m : qrun (qpop_node st) m = (pop_node m st, m).
  Proof. unfold pop_node, qpop_node. destruct (Nat.eqb _ 0); [reflexivity|]. cbn. destruct (slice_get _ _ _); reflexivity. Qed.
  Lemma run_peek off m : qrun (qpeek src off) m = (mpeek src m off, m).
  Proof. unfold mpeek, qpeek. destruct (Nat.leb _ off); reflexivity. Qed.

  Ltac r := repeat first
    [ rewrite qrun_bind; cbn [fst snd]
    | rewrite run_pop_op; cbn [fst snd] | rewrite run_pop_node; cbn [fst snd] | rewrite run_peek; cbn [fst snd]
    | match goal with
      | |- context [push_op grow ?m ?s ?o] =>
          let E := fresh "E" in destruct (push_op grow m s o) eqn:E; apply run_push_op in E; rewrite ?E; cbn [fst snd]
      | |- context [push_node grow ?m ?s ?n] =>
          let E := fresh "E" in destruct (push_node grow m s n) eqn:E; apply run_push_node in E; rewrite ?E; cbn [fst snd]
      | E : qrun _ _ = (_, _) |- context [qrun] => rewrite E; cbn [fst snd]
      end ].

  Lemma run_push_cell cell : forall i st m,
    match push_cell grow m cell i st with
    | Ok (m', s) => qrun (qpush_cell grow cell i st) m = (Ok s, m')
    | Panic p => fst (qrun (qpush_cell grow cell i st) m) = Panic p
    | _ => False
    end.
  Proof.
    induction i as [|i IH]; intros st m; cbn [push_cell qpush_cell]; [reflexivity|]. cbn [qrun].
    destruct (slice_get (m_ops m) cell i) as [op|]; [|reflexivity]. r. apply IH.
  Qed.

  Lemma run_push_chars : forall cs st m m' s,
    push_chars grow m cs st = (m', s) -> qrun (qpush_chars grow cs st) m = (s, m').
  Proof.
    induction cs as [|c cs IH]; intros st m m' s; cbn [push_chars qpush_chars]; [intros [= <- <-]; reflexivity|].
    r. apply IH.
  Qed.

  Lemma run_pop_into discard : forall i st childs m,
    match pop_into discard m i st childs with
    | Ok (m', s) => qrun (qpop_into discard i st childs) m = (Ok s, m')
    | Panic p => fst (qrun (qpop_into discard i st childs) m) = Panic p
    | _ => False
    end.
  Proof.
    induction i as [|i IH]; intros st childs m; cbn [pop_into qpop_into]; [reflexivity|].
    r. assert (NN : match pop_node m st with Err _ | NoFuel => False | _ => True end).
    { unfold pop_node. destruct (Nat.eqb _ 0); [exact I|]. destruct (slice_get _ _ _); exact I. }
    destruct (pop_node m st) as [[[node st']|]|e|p|]; try contradiction; try reflexivity.
    destruct discard; cbn [negb].
    - destruct node as [n|]; [|reflexivity]. destruct (negb _); [reflexivity|]. apply IH.
    - cbn [qrun]. destruct (slice_set (m_nodes m) childs i node) as [h|]; [apply IH|reflexivity].
  Qed.

  (** An iteration, alone: memory is only followed until a panic. *)
  Definition agrees (x : mstepres) (y : qstepres * mem) : Prop :=
    match x with
    | MNext st => y = (QNext (mkQS (ms_ops st) (ms_prods st) (ms_off st)), ms_mem st)
    | MReturn r nm m => y = (QReturn r nm, m)
    | MPanic p _ => fst y = QPanic p
    end.

  Definition st_of (st : mstate) : qstate := mkQS (ms_ops st) (ms_prods st) (ms_off st).

  Lemma run_table name st :
    agrees (mprocessTableNonTerminal grow tbl src names name st)
      (qrun (qprocessTableNonTerminal grow tbl src names name (st_of st)) (ms_mem st)).
  Proof.
    unfold mprocessTableNonTerminal, qprocessTableNonTerminal. destruct (mtable_get name tbl) as [row|]; [|reflexivity].
    r. cbn [qs_off st_of]. destruct (mrow_get _ row) as [cell|]; [|r; reflexivity]. cbn [qs_ops st_of qs_off]. r.
    match goal with |- context [push_cell grow ?m ?c ?i ?s] => pose proof (run_push_cell c i s m) as H; destruct (push_cell grow m c i s) as [[m1 s1]|e|p|] end; try contradiction.
    - rewrite H. reflexivity.
    - rewrite H. reflexivity.
  Qed.

  Lemma run_NonTerminal name st :
    agrees (mprocessNonTerminal grow tbl src names name st)
      (qrun (qprocessNonTerminal grow tbl src names name (st_of st)) (ms_mem st)).
  Proof.
    unfold mprocessNonTerminal, qprocessNonTerminal. destruct (name <? 0)%Z; [|apply run_table].
    unfold mprocessBuiltinNonTerminal, qprocessBuiltinNonTerminal. destruct (name =? -2)%Z; [|reflexivity].
    r. cbn [qs_off st_of]. destruct (Ascii.eqb _ LF); [|destruct (Ascii.eqb _ CR)]; cbn [qs_off qs_ops st_of].
    - r. reflexivity.
    - r. reflexivity.
    - r. reflexivity.
  Qed.

  Lemma run_iter st : agrees (mstep grow tbl src names st) (qrun (qiter grow tbl src names (st_of st)) (ms_mem st)).
  Proof.
    unfold mstep, qiter. r. cbn [st_of qs_ops].
    assert (NN : match pop_op (ms_mem st) (ms_ops st) with Err _ | NoFuel => False | _ => True end).
    { unfold pop_op. destruct (Nat.eqb _ 0); [exact I|]. destruct (slice_get _ _ _); exact I. }
    destruct (pop_op (ms_mem st) (ms_ops st)) as [[[op stk]|]|e|p|]; try contradiction; try reflexivity.
    cbn [qs_prods qs_off st_of]. set (st1 := mkMS stk (ms_prods st) (ms_off st) (ms_mem st)).
    change (mkQS stk (ms_prods st) (ms_off st)) with (st_of st1). change (ms_mem st) with (ms_mem st1).
    destruct op as [name|t|name pos amount| |c| |e]; try reflexivity.
    all: clearbody st1; clear st NN stk; rename st1 into st.
    all: try match goal with |- agrees (mprocessEOS _ _ _) _ =>
      unfold mprocessEOS, qprocessEOS; r; cbn [qs_off st_of]; destruct (negb _); [r; reflexivity|]; r; cbn [qs_prods st_of];
      assert (NN : match pop_node (ms_mem st) (ms_prods st) with Err _ | NoFuel => False | _ => True end)
        by (unfold pop_node; destruct (Nat.eqb _ 0); [exact I|]; destruct (slice_get _ _ _); exact I);
      destruct (pop_node (ms_mem st) (ms_prods st)) as [[[n stk]|]|e|p|]; try contradiction; try reflexivity;
      destruct names; reflexivity end.
    all: try match goal with |- agrees (mprocessChar _ _ _ _ _) _ =>
      unfold mprocessChar, qprocessChar; r; cbn [qs_off st_of]; destruct (negb _); [r; reflexivity|]; cbn [qs_prods st_of]; r; reflexivity end.
    all: try match goal with |- agrees (mprocessTerminal _ ?t _) _ =>
      unfold mprocessTerminal, qprocessTerminal; cbn [qs_ops qs_off st_of]; r;
      match goal with |- context [push_chars grow ?m ?cs ?s] => destruct (push_chars grow m cs s) as [m2 s2] eqn:E2; apply run_push_chars in E2; rewrite E2; reflexivity end end.
    - apply run_NonTerminal.
    - unfold mprocessFunction, qprocessFunction. cbn [qs_ops qs_prods qs_off st_of]. destruct (Nat.eqb amount 0).
      + cbn [qrun]. destruct (heap_alloc _ _) as [h ch]. r. reflexivity.
      + set (dc := (name =? builtinTerminal)%Z).
        assert (X : exists m1 ch, (if negb dc then let (h, s) := heap_make None (m_nodes (ms_mem st)) amount in (set_nodes (ms_mem st) h, s)
                else (ms_mem st, nil_slice)) = (m1, ch) /\
                qrun (if negb dc then QNodes (repeat None amount) (fun s => QRet s) else QRet nil_slice) (ms_mem st) = (ch, m1)).
        { destruct (negb dc); cbn; eauto. }
        destruct X as (m1 & ch & X1 & X2). rewrite X1. r. pose proof (run_pop_into dc amount (ms_prods st) ch m1) as H.
        destruct (pop_into dc m1 amount (ms_prods st) ch) as [[m2 s2]|e|p|]; try contradiction.
        * rewrite H. cbn [fst snd]. r. reflexivity.
        * rewrite H. reflexivity.
  Qed.

  Lemma run_loop : forall fuel st,
    match mrun grow tbl src names fuel st with
    | (r, nm, m') =>
        fst (qrun (qloop grow tbl src names fuel (st_of st)) (ms_mem st)) = (r, nm) /\
        ((forall p, r <> Panic p) -> snd (qrun (qloop grow tbl src names fuel (st_of st)) (ms_mem st)) = m')
    end.
  Proof.
    induction fuel as [|fuel IH]; intros st; cbn [mrun qloop]; [split; reflexivity|]. r.
    pose proof (run_iter st) as H. destruct (mstep grow tbl src names st) as [st'|rr nm m'|p m']; cbn in H.
    - rewrite H. cbn [fst snd]. apply (IH st').
    - rewrite H. cbn. auto.
    - rewrite H. cbn. split; [reflexivity|]. intros N. destruct (N p eq_refl).
  Qed.

  Lemma run_parse fuel m :
    match mrun grow tbl src names fuel (minit grow m) with
    | (r, nm, m') =>
        fst (qrun (qparse grow tbl src names fuel) m) = (r, nm) /\
        ((forall p, r <> Panic p) -> snd (qrun (qparse grow tbl src names fuel) m) = m')
    end.
  Proof.
    unfold minit, qparse. r.
    match goal with |- context [mrun _ _ _ _ _ ?st] => exact (run_loop fuel st) end.
  Qed.
End Run.

Lemma run_Parse grow fuel tbl names src m :
  let o := mParse grow fuel tbl names m src in
  fst (qrun (qParse grow fuel tbl names src) m) = mkQOut (mo_result o) (mo_names o) (mo_source o) /\
  ((forall p, mo_result o <> Panic p) -> snd (qrun (qParse grow fuel tbl names src) m) = mo_mem o).
Proof.
  unfold mParse, qParse. destruct tbl as [|r0 tbl]; [split; reflexivity|]. destruct (mtable_get 0 _); [|split; reflexivity].
  rewrite qrun_bind.
  assert (R : qrun (qreadSource src) m = let '(r, s, m') := mreadSource m src in ((r, s), m')).
  { destruct src as [| |s|[s|]|rd|]; try reflexivity. cbn. destruct (rd_end rd); reflexivity. }
  rewrite R. destruct (mreadSource m src) as [[[text|e|q|] s'] m1]; cbn [fst snd]; try (split; reflexivity).
  rewrite qrun_bind. pose proof (run_parse grow (r0 :: tbl) text names fuel m1) as H.
  destruct (mrun grow (r0 :: tbl) text names fuel (minit grow m1)) as [[r nm] m']. destruct H as [H1 H2].
  rewrite H1. cbn. split; [reflexivity|]. exact H2.
Qed.
