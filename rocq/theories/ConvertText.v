(** * ConvertText: ToAST looks at a text only through the spans of the nodes. *)
From Verif Require Import Base Cst Ast FromCst Spec_Tree Spec_Convert ConvertProofs.

Lemma collect_in {X} (h h' : node -> fcres X) l :
  (forall n, In n l -> h n = h' n) -> collect h l = collect h' l.
Proof.
  intros H. induction l as [|n l IH]; [reflexivity|]. cbn. rewrite H by (left; reflexivity). f_equal.
  rewrite IH; [reflexivity|]. intros m Hm. apply H. right. exact Hm.
Qed.

Section Same.
  Variable b : bindings.
  Variables str str' : bytes.
  Definition agree (n : node) : Prop := forall m, subnode m n ->
    slice str (n_pos m) (n_end m) = slice str' (n_pos m) (n_end m).

  Lemma agree_sub m n : subnode m n -> agree n -> agree m.
  Proof. intros H C a Ha. apply C. eapply subnode_trans; eassumption. Qed.
  Lemma agree_outer ign srch n m : In m (outermost ign srch n) -> agree n -> agree m.
  Proof. intros H. apply agree_sub. eapply outermost_sub, H. Qed.
  Lemma agree_first n ty m l : nodes_with b n ty = m :: l -> agree n -> agree m.
  Proof. intros E. apply agree_outer with (ign := isNodeIgnored (IgnoreNodeTypes b)) (srch := fun t => (t =? ty)%Z).
    unfold nodes_with in E. rewrite E. left. reflexivity. Qed.
  Lemma text_same n : agree n -> text str n = text str' n.
  Proof. intros H. unfold text, nodeName. rewrite (H n); [reflexivity|constructor]. Qed.

  Lemma parseEscape_same n : agree n -> parseEscape b str n = parseEscape b str' n.
  Proof.
    intros H. rewrite !parseEscape_eq. destruct (nodes_with b n (EscapeCharacterType b)) as [|c l] eqn:E; [reflexivity|].
    rewrite text_same; [reflexivity|]. eapply agree_first; eassumption.
  Qed.
  Lemma parseTerminalName_same n : agree n -> parseTerminalName b str n = parseTerminalName b str' n.
  Proof.
    intros H. rewrite !parseTerminalName_eq. f_equal. apply collect_in. intros m Hm.
    pose proof (agree_outer _ _ _ _ Hm H) as Am. unfold piece. rewrite (text_same m Am), (parseEscape_same m Am).
    reflexivity.
  Qed.
  Lemma parseSymbol_same n : agree n -> parseSymbol b str n = parseSymbol b str' n.
  Proof.
    intros H. rewrite !parseSymbol_eq. destruct (first_of_types b (SymbolTerminalTypes b) n) as [m|] eqn:E.
    - rewrite parseTerminalName_same; [reflexivity|]. eapply agree_sub; [eapply first_of_types_sub, E|exact H].
    - destruct (nodes_with b n (SymbolNonTerminalType b)) as [|m l] eqn:E2.
      + rewrite text_same; [reflexivity|exact H].
      + rewrite text_same; [reflexivity|]. eapply agree_first; eassumption.
  Qed.
  Lemma parseSequence_same n : agree n -> parseSequence b str n = parseSequence b str' n.
  Proof.
    intros H. rewrite !parseSequence_eq. apply collect_in. intros m Hm.
    apply parseSymbol_same. eapply agree_outer; eassumption.
  Qed.
  Lemma parseSubstitution_same n : agree n -> parseSubstitution b str n = parseSubstitution b str' n.
  Proof.
    intros H. rewrite !parseSubstitution_eq. apply collect_in. intros m Hm.
    apply parseSequence_same. eapply agree_outer; eassumption.
  Qed.
  Lemma parseRule_same n : agree n -> parseRule b str n = parseRule b str' n.
  Proof.
    intros H. rewrite !parseRule_eq. rewrite (text_same n H).
    destruct (nodes_with b n (RuleHeadType b)) as [|h l] eqn:E; [reflexivity|].
    rewrite (text_same h) by (eapply agree_first; eassumption). f_equal.
    destruct (nodes_with b n (RuleTailType b)) as [|e l'] eqn:E2; [reflexivity|].
    rewrite parseSubstitution_same; [reflexivity|]. eapply agree_first; eassumption.
  Qed.
  Lemma ToAST_sorted_same n : agree n -> ToAST_sorted b str n = ToAST_sorted b str' n.
  Proof.
    intros H. rewrite !ToAST_sorted_eq. apply collect_in. intros m Hm.
    apply parseRule_same. eapply agree_outer; eassumption.
  Qed.
End Same.

Lemma ToAST_same b root str str' : agree str str' root -> ToAST b root str = ToAST b root str'.
Proof. apply ToAST_sorted_same. Qed.

Lemma slice_prefix s r lo hi : (hi <= Z.of_nat (length s))%Z -> slice (s ++ r) lo hi = slice s lo hi.
Proof.
  intros H. unfold slice. rewrite app_length.
  assert (E : (hi <=? Z.of_nat (length s + length r))%Z = (hi <=? Z.of_nat (length s))%Z).
  { rewrite (proj2 (Z.leb_le _ _) H). apply Z.leb_le. lia. }
  rewrite E. destruct (((0 <=? lo) && (lo <=? hi))%Z) eqn:B; [|reflexivity]. cbn [andb].
  destruct (hi <=? Z.of_nat (length s))%Z; [|reflexivity]. apply andb_prop in B. destruct B as (B1 & B2).
  apply Z.leb_le in B1, B2. f_equal. rewrite skipn_app, firstn_app.
  replace (Z.to_nat (hi - lo) - length (skipn (Z.to_nat lo) s)) with 0 by (rewrite skipn_length; lia).
  rewrite firstn_O, app_nil_r. reflexivity.
Qed.
