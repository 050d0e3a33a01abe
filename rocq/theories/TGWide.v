(** * TGWide: grammars whose tables are 255 times as large as they are. *)
From Verif Require Import Base ByteSet ByteSetProofs Ast Parser TableGen Spec_Parse Spec_Grammar Spec_Table Spec_TableSize NulProofs
  TGMem TGFirsts TGTable TGCells TGMain TGClosed TGAlloc Props_TableGen.

Lemma wide_any c : c <> NUL -> In [STerminal [c]] any_byte_but_0.
Proof.
  intros N. unfold any_byte_but_0. apply in_map_iff. exists (nat_of_ascii c). rewrite ascii_nat_embedding. split; [reflexivity|].
  apply in_seq. pose proof (nat_ascii_bounded c) as L. assert (nat_of_ascii c <> 0); [|lia].
  intros E. apply N. rewrite <- (ascii_nat_embedding c), E. reflexivity.
Qed.
Lemma any_wide s : In s any_byte_but_0 -> exists c, s = [STerminal [c]] /\ c <> NUL.
Proof.
  unfold any_byte_but_0. rewrite in_map_iff. intros (i & <- & I). apply in_seq in I. exists (ascii_of_nat i). split; [reflexivity|].
  intros E. apply (f_equal nat_of_ascii) in E. rewrite nat_ascii_embedding in E by lia. cbn in E. lia.
Qed.

Section Wide.
  Variable k : nat.
  Notation g := (wide k).
  Let front : sequence := SNonTerminal ["b"%char] :: repeat (STerminal ["x"%char]) k.

  Lemma wide_alternative n s : alternative g n s ->
    (n = ["a"%char] /\ s = front) \/ (n = ["b"%char] /\ exists c, s = [STerminal [c]] /\ c <> NUL).
  Proof.
    intros (r & [<-|[<-|[]]] & <- & I).
    - left. destruct I as [<-|[]]. split; reflexivity.
    - right. split; [reflexivity|]. apply any_wide, I.
  Qed.
  Lemma wide_wf : wf_grammar g.
  Proof.
    split.
    - discriminate.
    - cbn. constructor; [intros [H|[]]; discriminate H|]. constructor; [intros []|constructor].
    - intros n s H. right. apply wide_alternative in H. destruct H as [(_ & ->)|(_ & c & -> & N)].
      + split; [discriminate|]. constructor; [right; left; reflexivity|]. apply Forall_forall. intros x I. apply repeat_spec in I.
        subst x. split; [discriminate|]. intros [E|[]]. discriminate E.
      + split; [discriminate|]. constructor; [|constructor]. split; [discriminate|]. intros [E|[]]. exact (N E).
  Qed.
  Lemma wide_not_empty u v : yields g u v -> u <> [] -> v <> [].
  Proof.
    induction 1 as [|u w v S _ IH]; [auto|]. intros _. apply IH. destruct S as [x n s y A].
    apply wide_alternative in A. destruct A as [(_ & ->)|(_ & c & -> & _)]; destruct x; discriminate.
  Qed.
  Lemma wide_nullable n s : alternative g n s -> ~ nullable g (seq_form s).
  Proof.
    intros A N. apply (wide_not_empty _ _ N); [|reflexivity].
    apply wide_alternative in A. destruct A as [(_ & ->)|(_ & c & -> & _)]; discriminate.
  Qed.
  Lemma wide_accepted order fuel : 256 * 2 + 1 <= fuel -> exists tbl names, FromGrammar_order order fuel g = Ok (tbl, names).
  Proof.
    intros F. destruct (FromGrammar_wf order fuel g wide_wf F) as [(_ & X)|(tbl & names & E & _)]; [|exists tbl, names; exact E].
    exfalso. destruct X as (n & s1 & s2 & b & (r & l1 & l2 & l3 & I & Eh & Et) & N & _).
    apply (wide_nullable n s2); [|exact N]. exists r. split; [exact I|]. split; [exact Eh|]. rewrite Et. apply in_app_iff. right. right.
    apply in_app_iff. right. left. reflexivity.
  Qed.
  Lemma wide_first c : c <> NUL -> first g (seq_form front) c.
  Proof.
    intros N. exists (seq_form (repeat (STerminal ["x"%char]) k)). eapply ys_step; [|apply ys_refl].
    apply (y1 g [] ["b"%char] [STerminal [c]]). exists (mkRule ["b"%char] any_byte_but_0). split; [right; left; reflexivity|].
    split; [reflexivity|]. apply wide_any, N.
  Qed.
  Lemma wide_symbols : grammar_symbols g = k + 256.
  Proof.
    unfold grammar_symbols, wide. cbn [map]. rewrite !ls_cons.
    assert (E : rule_symbols (mkRule ["b"%char] any_byte_but_0) = 255) by (vm_compute; reflexivity). rewrite E.
    unfold rule_symbols. cbn [map r_tail length]. rewrite ls_cons, repeat_length. cbn. lia.
  Qed.

  (** The row of <a>. *)
  Lemma wide_row order fuel tbl names : FromGrammar_order order fuel g = Ok (tbl, names) ->
    exists rw, map_get Z.eqb 0%Z tbl = Some rw /\
      forall c, c <> NUL -> exists ops, map_get Ascii.eqb c rw = Some ops /\ length ops = S k.
  Proof.
    intros H. pose proof wide_wf as W.
    pose proof (C26_cells order fuel g tbl names (wf_distinct _ W) (wf_nulfree _ W) H 0 _ NUL eq_refl) as (rw & E & _).
    exists rw. split; [exact E|]. intros c N.
    destruct (C26_cells order fuel g tbl names (wf_distinct _ W) (wf_nulfree _ W) H 0 _ c eq_refl) as (rw' & E' & X).
    rewrite E in E'. injection E' as <-. pose proof (wide_first c N) as F. destruct (map_get Ascii.eqb c rw) as [ops|].
    - exists ops. split; [reflexivity|]. destruct X as (chosen & S & O & _). cbn [r_tail] in S.
      inversion S as [|s l l' _ S'|s l l' NF S']; subst; [|contradiction].
      inversion S'; subst. cbn [concat] in O. rewrite app_nil_r in O. apply TGMem.Forall2_length in O. rewrite <- O. cbn. rewrite repeat_length. reflexivity.
    - destruct X as (S & _). cbn [r_tail] in S. inversion S as [|s l l' _ S'|s l l' NF S']; subst. contradiction.
  Qed.
End Wide.

Lemma row_operands_ge (rw : row) (l : list ascii) L : NoDup l ->
  (forall c, In c l -> exists ops, map_get Ascii.eqb c rw = Some ops /\ length ops = L) ->
  length l * L <= row_operands rw.
Proof.
  intros N H. set (f := fun c : ascii * list ParserOp => length (snd c) =? L).
  assert (I : incl l (map fst (filter f rw))).
  { intros c Ic. destruct (H c Ic) as (ops & E & Lo). apply in_map_iff.
    assert (Ip : In (c, ops) rw).
    { clear -E. induction rw as [|(k1, v1) rw IH]; [discriminate|]. cbn [map_get] in E. destruct (Ascii.eqb_spec c k1) as [->|].
      - injection E as ->. left. reflexivity.
      - right. apply IH, E. }
    exists (c, ops). split; [reflexivity|]. apply filter_In. split; [exact Ip|]. unfold f. cbn. apply Nat.eqb_eq, Lo. }
  apply (NoDup_incl_length N) in I. rewrite map_length in I.
  assert (X : length (filter f rw) * L <= row_operands rw); [|nia].
  clear. unfold row_operands. induction rw as [|c rw IH]; [cbn; lia|]. cbn [filter map]. rewrite ls_cons. unfold f at 1.
  destruct (Nat.eqb_spec (length (snd c)) L) as [E|]; cbn [length]; lia.
Qed.
Lemma wide_operands k order fuel tbl names : FromGrammar_order order fuel (wide k) = Ok (tbl, names) ->
  255 * (k + 1) <= table_operands tbl.
Proof.
  intros H. destruct (wide_row k order fuel tbl names H) as (rw & E & C).
  assert (L : 255 * (k + 1) <= row_operands rw).
  { replace (k + 1) with (S k) by lia. etransitivity; [|apply (row_operands_ge rw (map ascii_of_nat (seq 1 255)) (S k))].
    - rewrite map_length, seq_length. lia.
    - assert (N : nodup ascii_dec (map ascii_of_nat (seq 1 255)) = map ascii_of_nat (seq 1 255)) by (vm_compute; reflexivity).
      rewrite <- N. apply NoDup_nodup.
    - intros c I. apply C. apply in_map_iff in I. destruct I as (i & <- & I). apply in_seq in I.
      intros X. apply (f_equal nat_of_ascii) in X. rewrite nat_ascii_embedding in X by lia. cbn in X. lia. }
  etransitivity; [exact L|]. clear -E. unfold table_operands. induction tbl as [|(z, w) tbl IH]; [discriminate|].
  cbn [map snd]. rewrite ls_cons. cbn [map_get] in E. destruct (Z.eqb 0 z).
  - injection E as ->. lia.
  - specialize (IH E). lia.
Qed.
