(** * Props_Output: property C68, what FromGrammar prints. *)
From Verif Require Import Base ByteSet Ast Cst Parser TableGen TableGenOutput Spec_Parse Spec_Tree Spec_Grammar Spec_Table
  Spec_Override Spec_Outcome GrammarProofs ParseApi ParseApi2 TGMain TGCells TGClosed TGParse TGCheck Props_Parser
  Props_TableGen TGOverride TGOutcome TGOutput Spec_Messages MessagesProofs Props_Override Props_Outcome.

(** Printing changes nothing else. *)
Theorem C68_result : forall order fuel g, snd (FromGrammar_io order fuel g) = FromGrammar_order order fuel g.
Proof. exact FromGrammar_snd. Qed.
Print Assumptions C68_result.

(** Nothing is printed unless a conflict is returned: not when there is another
    error, a panic, or a table. *)
Theorem C68_silent : forall order fuel g,
  FromGrammar_order order fuel g <> Err EConflict -> fst (FromGrammar_io order fuel g) = [].
Proof.
  intros order fuel g H. destruct (FromGrammar_hushed order fuel g) as [X|X]; [|exact X].
  rewrite C68_result in X. contradiction.
Qed.
Print Assumptions C68_silent.

(** With a conflict, one line is printed, showing the operands in the first
    contested cell. *)
Theorem C68_line : forall order fuel g g',
  last_definitions g g' -> terminals_nulfree g -> FromGrammar_order order fuel g = Err EConflict ->
  exists ops, first_contested g' (follow_last g g') ops /\ line_of ops (fst (FromGrammar_io order fuel g)).
Proof.
  intros order fuel g g' S T H. destruct (FromGrammar_line order fuel g g' S T) as (ops & F & E).
  { rewrite C68_result. exact H. }
  exists ops. split; [exact F|]. rewrite E. apply println_line.
  destruct F as (i & r & before & s & after & b & _ & _ & _ & (ch & _ & O & _) & _).
  clear - O. induction O as [|x op s ops Hx _ IH]; constructor; [|exact IH]. destruct Hx; reflexivity.
Qed.
Print Assumptions C68_line.

(** There is only one such cell, and one way to print its operands. *)
Theorem C68_text_unique : forall ops text text', line_of ops text -> line_of ops text' -> text = text'.
Proof. exact line_fun. Qed.
Print Assumptions C68_text_unique.

Theorem C68_line_unique : forall g F ops ops',
  NoDup (heads g) -> first_contested g F ops -> first_contested g F ops' -> ops = ops'.
Proof.
  intros g F ops ops' N (i & r & before & s & after & b & Hr & Et & Hc & Hs & Mb & Ma & Mr)
    (i' & r' & before' & s' & after' & b' & Hr' & Et' & Hc' & Hs' & Mb' & Ma' & Mr').
  assert (i = i') as <-.
  { destruct (Nat.lt_total i i') as [L|[E|L]]; [|exact E|].
    - destruct (Mr' i r before s after b L Hr Et Hc).
    - destruct (Mr i' r' before' s' after' b' L Hr' Et' Hc'). }
  rewrite Hr in Hr'. injection Hr' as <-.
  assert (X : forall (p p' : list sequence) x x' q q', p ++ x :: q = p' ++ x' :: q' -> length p < length p' ->
    exists z, p' = p ++ x :: z).
  { intros p. induction p as [|y p IH]; intros [|y' p'] x x' q q' E L; cbn in *; try lia.
    - injection E as -> E. exists p'. reflexivity.
    - injection E as -> E. destruct (IH _ _ _ _ _ E) as (z & ->); [lia|]. exists z. reflexivity. }
  rewrite Et in Et'. assert (Lb : length before = length before').
  { destruct (Nat.lt_total (length before) (length before')) as [L|[E|L]]; [|exact E|].
    - destruct (X _ _ _ _ _ _ Et' L) as (z & E). destruct (Ma' _ _ _ b E Hc).
    - destruct (X _ _ _ _ _ _ (eq_sym Et') L) as (z & E). destruct (Ma _ _ _ b' E Hc'). }
  assert (before = before' /\ s = s') as (<- & <-).
  { clear - Et' Lb. revert before' Et' Lb. induction before as [|y p IH]; intros [|y' p'] E L; cbn in *; try lia.
    - injection E as -> _. auto.
    - injection E as -> E. destruct (IH _ E) as (-> & ->); [lia|]. auto. }
  assert (b = b') as <-.
  { destruct (N.lt_total (code b) (code b')) as [L|[E|L]].
    - destruct (Mb' _ L Hc).
    - apply (f_equal ascii_of_N) in E. unfold code in E. rewrite !ascii_N_embedding in E. exact E.
    - destruct (Mb _ L Hc'). }
  destruct Hs as (ch & S1 & O1 & _). destruct Hs' as (ch' & S2 & O2 & _).
  assert (ch = ch') as <-.
  { cbn [r_tail] in *. clear - S1 S2. revert ch' S2. induction S1 as [|x l l' Hf _ IH|x l l' Hf _ IH]; intros ch' S2; inversion S2; subst; try contradiction.
    - reflexivity.
    - f_equal. apply IH. assumption.
    - apply IH. assumption. }
  eapply operands_fun; eassumption.
Qed.
Print Assumptions C68_line_unique.

(** S ::= A "a" "+"       A ::= "a" S "x" | "b" | <nothing> *)
Definition shown : grammar :=
  [ru "S" [[nt "A"; tm "a"; tm "+"]]; ru "A" [[tm "a"; nt "S"; tm "x"]; [tm "b"]; [SNothing]]].
Example C68_case :
  NoDup (heads shown) /\ terminals_nulfree shown /\ last_definitions shown shown /\
  FromGrammar_io (fun l => l) (256 * length shown + 1) shown =
    (s2b "[{a} {0} {x}]" ++ [b8 10], Err EConflict) /\
  (exists ops, first_contested shown (follow_last shown shown) ops) /\
  FromGrammar_io (fun l => l) (256 * length demo + 1) demo = ([], FromGrammar (256 * length demo + 1) demo).
Proof.
  assert (N : NoDup (heads shown)).
  { cbn. repeat constructor; cbn; intros H; repeat (destruct H as [H|H]; [discriminate|]); exact H. }
  assert (T : terminals_nulfree shown).
  { assert (W : wf_grammar shown) by (apply wfb_spec; vm_compute; reflexivity). apply wf_nulfree, W. }
  assert (E : FromGrammar_io (fun l => l) (256 * length shown + 1) shown = (s2b "[{a} {0} {x}]" ++ [b8 10], Err EConflict))
    by (vm_compute; reflexivity).
  split; [exact N|]. split; [exact T|]. split; [apply last_self, N|]. split; [exact E|]. split.
  - destruct (C68_line (fun l => l) (256 * length shown + 1) shown shown (last_self _ N) T) as (ops & H & _).
    + rewrite <- C68_result, E. reflexivity.
    + exists ops. exact H.
  - vm_compute. reflexivity.
Qed.
