(** * NulProofs: a NUL byte ends the input. *)
From Verif Require Import Base Cst Parser Spec_Parse Spec_Tree ParserProofs TreeProofs ParseApi.

(** The text before its first NUL byte. *)
Fixpoint before_nul (text : bytes) : bytes :=
  match text with
  | [] => []
  | c :: s => if Ascii.eqb c NUL then [] else c :: before_nul s
  end.

Lemma before_nul_free text : ~ In NUL (before_nul text).
Proof.
  induction text as [|c s IH]; cbn [before_nul]; [auto|]. destruct (Ascii.eqb_spec c NUL) as [->|N]; [auto|].
  intros [H|H]; [congruence|contradiction].
Qed.
Lemma before_nul_id text : ~ In NUL text -> before_nul text = text.
Proof.
  induction text as [|c s IH]; intros H; cbn [before_nul]; [reflexivity|].
  destruct (Ascii.eqb_spec c NUL) as [->|N]; [destruct H; left; reflexivity|]. rewrite IH; [reflexivity|].
  intros X. apply H. right. exact X.
Qed.
Lemma before_nul_split text : ~ In NUL text \/
  exists rest, text = before_nul text ++ NUL :: rest.
Proof.
  induction text as [|c s IH]; [left; auto|]. cbn [before_nul]. destruct (Ascii.eqb_spec c NUL) as [->|N].
  - right. exists s. reflexivity.
  - destruct IH as [IH|(rest & E)].
    + left. intros [H|H]; [congruence|contradiction].
    + right. exists rest. cbn [app]. congruence.
Qed.
Lemma before_nul_app pre rest : ~ In NUL pre -> before_nul (pre ++ NUL :: rest) = pre.
Proof.
  induction pre as [|c s IH]; intros H; cbn [before_nul app]; [reflexivity|].
  destruct (Ascii.eqb_spec c NUL) as [->|N]; [destruct H; left; reflexivity|]. rewrite IH; [reflexivity|].
  intros X. apply H. right. exact X.
Qed.
Lemma peek_before text k : k <= length (before_nul text) -> peek text k = peek (before_nul text) k.
Proof.
  revert k. induction text as [|c s IH]; intros k H; [reflexivity|]. cbn [before_nul] in *.
  destruct (Ascii.eqb_spec c NUL) as [->|N].
  - cbn in H. assert (k = 0) by lia. subst k. reflexivity.
  - destruct k as [|k]; [reflexivity|]. cbn in H. change (peek s k = peek (before_nul s) k). apply IH. lia.
Qed.
Lemma peek_end s : peek s (length s) = NUL.
Proof. induction s as [|c s IH]; [reflexivity|exact IH]. Qed.

Lemma map_get_In' {K A} (eq : K -> K -> bool) k (l : list (K * A)) v : map_get eq k l = Some v -> exists k', In (k', v) l.
Proof.
  induction l as [|(k', v') l IH]; cbn; [discriminate|]. destruct (eq k k').
  - intros H. injection H as ->. exists k'. left. reflexivity.
  - intros H. destruct (IH H) as (k2 & Hk). exists k2. right. exact Hk.
Qed.

Section Run.
  Variable tbl : table.
  Hypothesis Nf : table_nulfree tbl.
  Hypothesis Pu : table_public tbl.
  Variable src : bytes.
  Variable names : names_map.
  Notation pre := (before_nul src).

  Definition free_op (op : ParserOp) : Prop :=
    match op with OpTerminal t => ~ In NUL t | OpChar c => c <> NUL | _ => True end.
  Definition calm_state (st : pstate) : Prop := Forall free_op (ps_ops st) /\ ps_off st <= length pre.

  Lemma push_all_free ops stack : Forall free_op ops -> Forall free_op stack -> Forall free_op (push_all ops stack).
  Proof.
    intros H1 H2. unfold push_all. apply Forall_rev in H1. revert stack H2. induction (rev ops) as [|x l IH]; intros s H2.
    - exact H2.
    - inversion H1; subst. cbn [fold_left]. apply IH; [assumption|constructor; assumption].
  Qed.

  Lemma step_same st : calm_state st ->
    step tbl src names st = step tbl pre names st /\
    forall st', step tbl src names st = SNext st' -> calm_state st'.
  Proof.
    intros (F & L). pose proof (peek_before src (ps_off st) L) as P. unfold step.
    destruct (ps_ops st) as [|op ops]; [split; [reflexivity|discriminate]|].
    inversion F as [|? ? Fo Fs]; subst. destruct op as [n|v|n pos k| |c| |].
    - unfold processNonTerminal. destruct (n <? 0)%Z.
      + unfold processBuiltinNonTerminal. rewrite P. split; [reflexivity|].
        intros st'. destruct (n =? -2)%Z; [|discriminate].
        destruct (Ascii.eqb (peek pre (ps_off st)) LF).
        { intros E. injection E as <-. split; cbn [ps_ops ps_off]; [|exact L].
          repeat constructor; try assumption. cbn. intros [X|[]]. discriminate. }
        destruct (Ascii.eqb (peek pre (ps_off st)) CR); [|discriminate].
        intros E. injection E as <-. split; cbn [ps_ops ps_off]; [|exact L].
        repeat constructor; try assumption; cbn; intros [X|[]]; discriminate.
      + unfold processTableNonTerminal. rewrite P. split; [reflexivity|]. intros st'.
        destruct (table_get n tbl) as [r|] eqn:Er; [|discriminate].
        destruct (row_get (peek pre (ps_off st)) r) as [o|] eqn:Eo; [|discriminate].
        intros E. injection E as <-. split; cbn [ps_ops ps_off]; [|exact L].
        apply push_all_free; [|constructor; [exact I|exact Fs]].
        apply Forall_forall. intros op Hop. destruct op; cbn [free_op]; try exact I.
        * eapply table_cell_nulfree; [exact Nf| |exact Hop]. exists r. split; [exact Er|exact Eo].
        * destruct (map_get_In' _ _ _ _ Er) as (n' & Hn). destruct (map_get_In' _ _ _ _ Eo) as (c' & Hc).
          specialize (Pu _ _ _ _ Hn Hc). rewrite Forall_forall in Pu. specialize (Pu _ Hop). discriminate Pu.
    - split; [reflexivity|]. unfold processTerminal. intros st' E. injection E as <-.
      split; cbn [ps_ops ps_off]; [|exact L]. apply push_all_free; [|constructor; [exact I|exact Fs]].
      apply Forall_forall. intros op Hop. apply in_map_iff in Hop. destruct Hop as (c & <- & Hc). cbn in *.
      intros ->. contradiction.
    - split; [reflexivity|]. unfold processFunction. intros st'. destruct (Nat.eqb k 0).
      + intros E. injection E as <-. split; assumption.
      + destruct (pop_childs _ _ _ _) as [(ch, pr)| | |]; try discriminate. intros E. injection E as <-. split; assumption.
    - split; [unfold processEOS; rewrite P; reflexivity|]. unfold processEOS. intros st'.
      destruct (negb _); [discriminate|]. destruct (ps_prods st); [discriminate|]. destruct names; discriminate.
    - split; [unfold processChar; rewrite P; reflexivity|]. unfold processChar. rewrite P. intros st'.
      destruct (Ascii.eqb_spec c (peek pre (ps_off st))) as [->|N]; [|discriminate]. cbn [negb].
      intros E. injection E as <-. split; cbn [ps_ops ps_off]; [exact Fs|]. cbn in Fo.
      assert (ps_off st <> length pre) by (intros E; rewrite E, peek_end in Fo; congruence). lia.
    - split; [reflexivity|discriminate].
    - split; [reflexivity|discriminate].
  Qed.

  Lemma run_same fuel : forall st, calm_state st -> run tbl src names fuel st = run tbl pre names fuel st.
  Proof.
    induction fuel as [|fuel IH]; intros st C; [reflexivity|]. cbn [run].
    destruct (step_same st C) as (E & N). rewrite <- E. destruct (step tbl src names st) as [st'|r nm|q]; try reflexivity.
    apply IH, N. reflexivity.
  Qed.
End Run.

(** Tree, error, positions, names: all as if the source ended at the NUL. *)
Theorem nul_ends_input fuel tbl names src text :
  table_public tbl -> table_nulfree tbl -> delivers src text ->
  result fuel tbl names src = result fuel tbl names (SrcString (before_nul text)).
Proof.
  intros Pu Nf Hd. unfold result. destruct (has_row0_dec tbl) as [(r & Hr)|Hr].
  - assert (H0 : has_row0 tbl) by (exists r; exact Hr).
    rewrite (Parse_usable _ _ _ _ _ H0 Hd), (Parse_usable _ _ _ _ _ H0 (dl_string _)). cbn [po_result].
    rewrite (run_same tbl Nf Pu text names fuel init_state); [reflexivity|].
    split; [repeat constructor|apply Nat.le_0_l].
  - rewrite !Parse_no_row0 by exact Hr. reflexivity.
Qed.
