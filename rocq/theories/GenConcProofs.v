(** * GenConcProofs: a call among others does the same steps as alone, at other
    addresses. *)
From Verif Require Import Base ByteSet Ast Parser SliceMem ParserMem TableGen TableGenMem TableGenConc
  Spec_Mem Spec_GenMem Spec_GenConc ParserMemProofs TGMem.

(** ** The programs are the functions of TableGenMem *)
Fixpoint prun {A} (p : prog A) : gmm A :=
  match p with
  | PRet r => mdo r
  | PRule s i k => mbind (rd gm_rules s i) (fun x => prun (k x))
  | PSeq s i k => mbind (rd gm_seqs s i) (fun x => prun (k x))
  | PSym s i k => mbind (rd gm_syms s i) (fun x => prun (k x))
  | PSet s i k => mbind (rd gm_sets s i) (fun x => prun (k x))
  | PWrite s i x k => mbind (wr_set s i x) (fun _ => prun k)
  | PMake n k => mbind (make_sets n) (fun s => prun (k s))
  | PAppend grow s o k => fun m =>
      let (h, s') := slice_append OpNil grow (m_ops (gm_mem m)) s [o] in prun (k s') (set_gops m h)
  end.

Lemma mbind_ext {A B} (x x' : gmm A) (f f' : A -> gmm B) m :
  x m = x' m -> (forall a m', f a m' = f' a m') -> mbind x f m = mbind x' f' m.
Proof. intros E F. unfold mbind. rewrite E. destruct (x' m) as [[a|e|p|] m']; auto. Qed.
Lemma mbind_assoc {A B C} (x : gmm A) (f : A -> gmm B) (g : B -> gmm C) m :
  mbind (mbind x f) g m = mbind x (fun a => mbind (f a) g) m.
Proof. unfold mbind. destruct (x m) as [[a|e|p|] m']; reflexivity. Qed.

Lemma prun_bind {A B} (p : prog A) (f : A -> prog B) : forall m,
  prun (pbind p f) m = mbind (prun p) (fun a => prun (f a)) m.
Proof.
  induction p as [r|s i k IH|s i k IH|s i k IH|s i k IH|s i x k IH|n k IH|grow s o k IH]; intros m; cbn [pbind prun].
  - destruct r; reflexivity.
  - rewrite mbind_assoc. apply mbind_ext; [reflexivity|]. intros a m'. apply IH.
  - rewrite mbind_assoc. apply mbind_ext; [reflexivity|]. intros a m'. apply IH.
  - rewrite mbind_assoc. apply mbind_ext; [reflexivity|]. intros a m'. apply IH.
  - rewrite mbind_assoc. apply mbind_ext; [reflexivity|]. intros a m'. apply IH.
  - rewrite mbind_assoc. apply mbind_ext; [reflexivity|]. intros a m'. apply IH.
  - rewrite mbind_assoc. apply mbind_ext; [reflexivity|]. intros a m'. apply IH.
  - unfold mbind at 1. destruct (slice_append OpNil grow (m_ops (gm_mem m)) s [o]) as [h s']. rewrite IH. reflexivity.
Qed.

Lemma bind_eq {A B} (p : prog A) (x : gmm A) (f : A -> prog B) (g : A -> gmm B) m :
  (forall m, prun p m = x m) -> (forall a m, prun (f a) m = g a m) -> prun (pbind p f) m = mbind x g m.
Proof. intros E F. rewrite prun_bind. apply mbind_ext; auto. Qed.

Lemma prun_rule s i m : prun (p_rule s i) m = rd gm_rules s i m.
Proof. cbn. unfold mbind, rd. destruct (slice_get _ s i); reflexivity. Qed.
Lemma prun_seq s i m : prun (p_seq s i) m = rd gm_seqs s i m.
Proof. cbn. unfold mbind, rd. destruct (slice_get _ s i); reflexivity. Qed.
Lemma prun_sym s i m : prun (p_sym s i) m = rd gm_syms s i m.
Proof. cbn. unfold mbind, rd. destruct (slice_get _ s i); reflexivity. Qed.
Lemma prun_set s i m : prun (p_set s i) m = rd gm_sets s i m.
Proof. cbn. unfold mbind, rd. destruct (slice_get _ s i); reflexivity. Qed.
Lemma prun_write s i x m : prun (p_write s i x) m = wr_set s i x m.
Proof. cbn. unfold mbind, wr_set. destruct (slice_set _ s i x); reflexivity. Qed.
Lemma prun_make n m : prun (pmake_sets n) m = make_sets n m.
Proof. reflexivity. Qed.

Ltac runs := repeat (first
  [ reflexivity
  | assumption
  | progress intros
  | apply prun_rule | apply prun_seq | apply prun_sym | apply prun_set | apply prun_write | apply prun_make
  | match goal with IH : context [prun] |- _ => apply IH end
  | solve [auto with runs]
  | apply bind_eq
  | match goal with |- prun (match ?x with _ => _ end) _ = _ => destruct x end ]).

Section Run.
  Variable grow : nat -> nat.
  Variable g : slice.
  Variable rc : nat.
  Variable rm : list (bytes * nat).
  Variable sfi sfo : slice.

  Lemma run_collect n m : prun (pcollect g n) m = mcollect g n m.
  Proof. revert m. induction n as [|n IH]; intros m; [reflexivity|]. cbn [pcollect mcollect]. runs. Qed.

  Lemma run_sequenceFirsts_loop seq : forall n res found m,
    prun (psequenceFirsts_loop rm sfi seq n res found) m = msequenceFirsts_loop rm sfi seq n res found m.
  Proof. induction n as [|n IH]; intros res found m; [reflexivity|]. cbn [psequenceFirsts_loop msequenceFirsts_loop]. runs. Qed.
  Lemma run_sequenceFirsts seq m : prun (psequenceFirsts rm sfi seq) m = msequenceFirsts rm sfi seq m.
  Proof. apply run_sequenceFirsts_loop. Qed.
  Hint Resolve run_sequenceFirsts : runs.
  Lemma run_substitutionFirsts_loop seqs : forall n res m,
    prun (psubstitutionFirsts_loop rm sfi seqs n res) m = msubstitutionFirsts_loop rm sfi seqs n res m.
  Proof. induction n as [|n IH]; intros res m; [reflexivity|]. cbn [psubstitutionFirsts_loop msubstitutionFirsts_loop]. runs. Qed.
  Hint Resolve run_substitutionFirsts_loop : runs.
  Lemma run_ruleFirsts i ch m : prun (pruleFirsts g rc rm sfi i ch) m = mruleFirsts g rc rm sfi i ch m.
  Proof. unfold pruleFirsts, mruleFirsts. runs. Qed.
  Hint Resolve run_ruleFirsts : runs.
  Lemma run_firsts_round : forall idxs ch m,
    prun (pfirsts_round g rc rm sfi idxs ch) m = mfirsts_round g rc rm sfi idxs ch m.
  Proof. induction idxs as [|i idxs IH]; intros ch m; [reflexivity|]. cbn [pfirsts_round mfirsts_round]. runs. Qed.
  Hint Resolve run_firsts_round : runs.
  Lemma run_findFirsts : forall fuel m, prun (pfindFirsts g rc rm sfi fuel) m = mfindFirsts g rc rm sfi fuel m.
  Proof. induction fuel as [|fuel IH]; intros m; [reflexivity|]. cbn [pfindFirsts mfindFirsts]. runs. Qed.
  Hint Resolve run_findFirsts : runs.
  Lemma run_symbolFirsts s m : prun (psymbolFirsts rm sfi s) m = msymbolFirsts rm sfi s m.
  Proof. unfold psymbolFirsts, msymbolFirsts. runs. Qed.
  Hint Resolve run_symbolFirsts : runs.
  Lemma run_add_follows i x m : prun (padd_follows sfo i x) m = madd_follows sfo i x m.
  Proof. unfold padd_follows, madd_follows. runs. Qed.
  Hint Resolve run_add_follows : runs.
  Lemma run_follows_inner ri seq si : forall i ch m,
    prun (pfollows_inner g rm sfi sfo ri seq si i ch) m = mfollows_inner g rm sfi sfo ri seq si i ch m.
  Proof. induction i as [|i IH]; intros ch m; [reflexivity|]. cbn [pfollows_inner mfollows_inner]. runs. Qed.
  Hint Resolve run_follows_inner : runs.
  Lemma run_ruleFollowsInSequence ri seq si ch m :
    prun (pruleFollowsInSequence g rm sfi sfo ri seq si ch) m = mruleFollowsInSequence g rm sfi sfo ri seq si ch m.
  Proof. unfold pruleFollowsInSequence, mruleFollowsInSequence. runs. Qed.
  Hint Resolve run_ruleFollowsInSequence : runs.
  Lemma run_follows_sequences ri seqs ai : forall n ch m,
    prun (pfollows_sequences g rm sfi sfo ri seqs n ai ch) m = mfollows_sequences g rm sfi sfo ri seqs n ai ch m.
  Proof. induction n as [|n IH]; intros ch m; [reflexivity|]. cbn [pfollows_sequences mfollows_sequences]. runs. Qed.
  Hint Resolve run_follows_sequences : runs.
  Lemma run_ruleFollowsInRule i j ch m :
    prun (pruleFollowsInRule g rc rm sfi sfo i j ch) m = mruleFollowsInRule g rc rm sfi sfo i j ch m.
  Proof. unfold pruleFollowsInRule, mruleFollowsInRule. runs. Qed.
  Hint Resolve run_ruleFollowsInRule : runs.
  Lemma run_follows_round : forall pairs ch m,
    prun (pfollows_round g rc rm sfi sfo pairs ch) m = mfollows_round g rc rm sfi sfo pairs ch m.
  Proof. induction pairs as [|[i j] pairs IH]; intros ch m; [reflexivity|]. cbn [pfollows_round mfollows_round]. runs. Qed.
  Hint Resolve run_follows_round : runs.
  Lemma run_follows_loop : forall fuel m,
    prun (pfollows_loop g rc rm sfi sfo fuel) m = mfollows_loop g rc rm sfi sfo fuel m.
  Proof. induction fuel as [|fuel IH]; intros m; [reflexivity|]. cbn [pfollows_loop mfollows_loop]. runs. Qed.
  Hint Resolve run_follows_loop : runs.
  Lemma run_findFollows fuel m : prun (pfindFollows g rc rm sfi sfo fuel) m = mfindFollows g rc rm sfi sfo fuel m.
  Proof. unfold pfindFollows, mfindFollows. runs. Qed.
  Hint Resolve run_findFollows : runs.
  Lemma run_fill_follows : forall terms res m, prun (pfill_follows terms res) m = mfill_follows terms res m.
  Proof. induction terms as [|t terms IH]; intros res m; [reflexivity|]. cbn [pfill_follows mfill_follows]. runs. Qed.
  Hint Resolve run_fill_follows : runs.
  Lemma run_row_append b op res m : prun (prow_append grow b op res) m = mrow_append grow b op res m.
  Proof. unfold prow_append, mrow_append, p_append. cbn [pbind prun]. destruct (slice_append _ _ _ _ _). reflexivity. Qed.
  Hint Resolve run_row_append : runs.
  Lemma run_fill_symbols t seq : forall n res m,
    prun (pfill_symbols grow rm t seq n res) m = mfill_symbols grow rm t seq n res m.
  Proof. induction n as [|n IH]; intros res m; [reflexivity|]. cbn [pfill_symbols mfill_symbols]. runs. Qed.
  Hint Resolve run_fill_symbols : runs.
  Lemma run_fill_firsts seq : forall terms res m,
    prun (pfill_firsts grow rm terms seq res) m = mfill_firsts grow rm terms seq res m.
  Proof. induction terms as [|t terms IH]; intros res m; [reflexivity|]. cbn [pfill_firsts mfill_firsts]. runs. Qed.
  Hint Resolve run_fill_firsts : runs.
  Lemma run_row_loop ri seqs : forall n res m,
    prun (prow_loop grow rm sfi sfo ri seqs n res) m = mrow_loop grow rm sfi sfo ri seqs n res m.
  Proof. induction n as [|n IH]; intros res m; [reflexivity|]. cbn [prow_loop mrow_loop]. runs. Qed.
  Hint Resolve run_row_loop : runs.
  Lemma run_makeTableRow i m : prun (pmakeTableRow grow g rm sfi sfo i) m = mmakeTableRow grow g rm sfi sfo i m.
  Proof. unfold pmakeTableRow, mmakeTableRow. runs. Qed.
  Hint Resolve run_makeTableRow : runs.
  Lemma run_makeTable_loop : forall idxs tbl m,
    prun (pmakeTable_loop grow g rm sfi sfo idxs tbl) m = mmakeTable_loop grow g rm sfi sfo idxs tbl m.
  Proof. induction idxs as [|i idxs IH]; intros tbl m; [reflexivity|]. cbn [pmakeTable_loop mmakeTable_loop]. runs. Qed.
  Hint Resolve run_makeTable_loop : runs.
  Lemma run_Run fuel m : prun (pRun grow g rc rm sfi sfo fuel) m = mRun grow g rc rm sfi sfo fuel m.
  Proof. unfold pRun, mRun. runs. Qed.
End Run.

Lemma run_FromGrammar grow order fuel g m :
  prun (pFromGrammar grow order fuel g) m = mFromGrammar grow order fuel g m.
Proof.
  unfold pFromGrammar, mFromGrammar. apply bind_eq; [intros; apply run_collect|]. intros hs m1.
  apply bind_eq; [reflexivity|]. intros s1 m2. apply bind_eq; [reflexivity|]. intros s2 m3.
  apply bind_eq; [intros; apply run_Run|reflexivity].
Qed.
