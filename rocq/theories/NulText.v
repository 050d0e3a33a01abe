(** * NulText: reading a text with a NUL byte is reading what stands before it. *)
From Verif Require Import Base Cst Ast Parser TableGen FromCst Examples Spec_Parse Spec_Tree Spec_Grammar
  ParseApi ParseApi2 WalkProofs TGCells TGClosed NulProofs ConvertText.

Lemma before_nul_prefix text : exists rest, text = before_nul text ++ rest.
Proof.
  destruct (before_nul_split text) as [H|(rest & H)].
  - exists []. rewrite app_nil_r, before_nul_id by exact H. reflexivity.
  - exists (NUL :: rest). exact H.
Qed.

(** The nodes of a tree lie in the text before the NUL. *)
Lemma agree_before text t :
  (forall m, subnode m t -> (n_end m <= Z.of_nat (length (before_nul text)))%Z) ->
  agree text (before_nul text) t.
Proof.
  intros H m Hm. destruct (before_nul_prefix text) as (rest & E).
  rewrite E at 1. apply slice_prefix. apply H, Hm.
Qed.

(** The key listing looks at the text only through the spans of the nodes. *)
Lemma printKeys_same str str' root : agree str str' root -> printKeys str root = printKeys str' root.
Proof.
  intros A. unfold printKeys. assert (G : forall k n v s, size n <= k -> agree str str' n ->
    walk (keyVisit str) v s n = walk (keyVisit str') v s n); [|apply (G (size root)); [apply le_n|exact A]].
  clear. induction k as [|k IH]; intros n v s Hk A; [destruct n; cbn in Hk; lia|].
  rewrite !walk_eq.
  assert (V : keyVisit str v s n = keyVisit str' v s n).
  { unfold keyVisit. destruct (10 <? n_type n)%Z; [reflexivity|]. destruct (n_type n =? 6)%Z; [|reflexivity].
    unfold child. destruct (nth_error (n_childs n) 0) as [c|] eqn:Ec; [|reflexivity]. cbn [gobind].
    destruct (nth_error (n_childs c) 1) as [d|] eqn:Ed; [|reflexivity]. cbn [gobind]. rewrite (A d); [reflexivity|].
    apply nth_error_In in Ec, Ed. destruct n as [ty p q l]. apply sub_child with (c := c); [exact Ec|].
    destruct c as [ty' p' q' l']. apply sub_child with (c := d); [exact Ed|constructor]. }
  rewrite V. destruct (keyVisit str' v s n) as [[s1 [w|]]| | |]; try reflexivity.
  assert (L : forall c, In c (n_childs n) -> size c <= k /\ agree str str' c).
  { intros c Hc. split.
    - pose proof (size_child c n Hc). lia.
    - eapply agree_sub; [|exact A]. destruct n as [ty p q l]. eapply sub_child; [exact Hc|constructor]. }
  clear V. revert s1 L. induction (n_childs n) as [|c l IHl]; intros s1 L; [reflexivity|]. cbn [walk_each].
  destruct (L c (or_introl eq_refl)) as (Hc & Ac). rewrite (IH c w s1 Hc Ac).
  destruct (walk (keyVisit str') w s1 c); try reflexivity. apply IHl. intros d Hd. apply L. right. exact Hd.
Qed.

(** For a generated parser: run on [text] as on what stands before its NUL. *)
Section Generated.
  Variable g : grammar.
  Variable order : list (bytes * nat) -> list (bytes * nat).
  Variables (fuel0 : nat) (tbl : table) (names : list (Z * bytes)).
  Hypothesis Nf : terminals_nulfree g.
  Hypothesis E : FromGrammar_order order fuel0 g = Ok (tbl, names).

  Lemma generated_before fuel m src text : delivers src text ->
    result fuel tbl m src = result fuel tbl m (SrcString (before_nul text)).
  Proof.
    apply nul_ends_input; [eapply FromGrammar_public, E|eapply FromGrammar_nulfree; [exact Nf|exact E]].
  Qed.
  Lemma parses_before fuel m src text t : delivers src text ->
    parses_to fuel tbl m src t <-> parses_to fuel tbl m (SrcString (before_nul text)) t.
  Proof. intros Hd. unfold parses_to. rewrite (generated_before _ _ _ _ Hd). reflexivity. Qed.
  Lemma parses_agree fuel m src text t : delivers src text -> parses_to fuel tbl (Some m) src t ->
    agree text (before_nul text) t.
  Proof.
    intros Hd Hp. apply (parses_before _ _ _ _ _ Hd) in Hp. apply agree_before. intros n Hn.
    eapply positions_valid; [eapply FromGrammar_public, E|eapply FromGrammar_nulfree; [exact Nf|exact E]|
      apply dl_string|exact Hp|exact Hn].
  Qed.
End Generated.
