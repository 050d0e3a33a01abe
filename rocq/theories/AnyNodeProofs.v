(** * AnyNodeProofs: ToAST on any implementation of Node compared with ToAST on trees. *)
From Verif Require Import Base Cst Ast Parser FromCst FromCstAny Spec_AnyNode Spec_Size WalkProofs.

(** ** Two structures compared *)
Section Relate.
  Context {N1 N2 : Type}.
  Variable ty1 po1 en1 : N1 -> gopanic + Z.
  Variable ch1 : N1 -> gopanic + list N1.
  Variable ty2 po2 en2 : N2 -> gopanic + Z.
  Variable ch2 : N2 -> gopanic + list N2.
  Variable R : nat -> N1 -> nat -> N2 -> Prop.
  Variable bad : gopanic -> Prop.
  Variable allow : Prop.

  Definition good {E A} (r : gores E A) : Prop :=
    match r with NoFuel => allow | Panic p => ~ bad p | _ => True end.

  Definition same {A} (x y : gopanic + A) : Prop := x = y \/ exists p, x = inl p /\ bad p.

  Hypothesis R0 : forall n k' n', R 0 n k' n' -> ~ allow.
  Hypothesis RS : forall k n k' n', R (S k) n k' n' ->
    same (ty1 n) (ty2 n') /\ same (po1 n) (po2 n') /\ same (en1 n) (en2 n') /\
    exists k'', k' = S k'' /\
      ((exists l l', ch1 n = inr l /\ ch2 n' = inr l' /\ Forall2 (fun c c' => R k c k'' c') l l') \/
       (exists p, ch1 n = inl p /\ (bad p \/ ch2 n' = inl p))).

  Lemma good_bind {E A B} (x : gores E A) (f : A -> gores E B) : good (gobind x f) -> good x.
  Proof. destruct x; cbn; auto. Qed.
  Lemma good_lift {A} (x : gop A) : good (lift x) <-> good x.
  Proof. destruct x as [|[]| |]; cbn; tauto. Qed.
  Lemma same_good {A} (x y : gopanic + A) : same x y -> good (call x) -> call y = call x.
  Proof. intros [->|(p & -> & H)] G; [reflexivity|]. exfalso. exact (G H). Qed.

  Definition agree_cb {S} (f1 : callback_any (N := N1) S) (f2 : callback_any (N := N2) S) : Prop :=
    forall k n k' n' s, R (Datatypes.S k) n k' n' -> good (f1 (Datatypes.S k) s n) -> f2 k' s n' = f1 (Datatypes.S k) s n.

  Lemma walkFlex_rel {S} ign sea (f1 : callback_any (N := N1) S) (f2 : callback_any (N := N2) S) :
    agree_cb f1 f2 -> forall k n k' n' st, R k n k' n' ->
    good (walkFlex ty1 ch1 ign sea f1 k st n) ->
    walkFlex ty2 ch2 ign sea f2 k' st n' = walkFlex ty1 ch1 ign sea f1 k st n.
  Proof.
    intros F. induction k as [|k IH]; intros n k' n' [s err] HR G.
    - exfalso. exact (R0 _ _ _ HR G).
    - destruct (RS _ _ _ _ HR) as (Ht & _ & _ & k'' & -> & Hc). cbn [walkFlex] in *.
      destruct err as [e|]; [reflexivity|].
      rewrite (same_good _ _ Ht (good_bind _ _ G)).
      destruct (ty1 n) as [p|t]; [reflexivity|]. cbn [call gobind] in *.
      destruct (ign t); [reflexivity|]. destruct (sea t); [apply F; assumption|].
      destruct Hc as [(l & l' & E1 & E2 & H)|(p & E1 & [B|E2])].
      + rewrite E1 in G |- *. rewrite E2. cbn [call gobind] in *. clear E1 E2.
        revert G. generalize (s, @None fcerror). induction H as [|c c' l l' Hc _ IHl]; intros st G; [reflexivity|].
        rewrite (IH _ _ _ _ Hc (good_bind _ _ G)).
        destruct (walkFlex ty1 ch1 ign sea f1 k st c); try reflexivity. cbn [gobind] in *. apply IHl, G.
      + rewrite E1 in G. exfalso. exact (G B).
      + rewrite E1, E2. reflexivity.
  Qed.

  Lemma nodeName_rel str k n k' n' : R (S k) n k' n' -> good (nodeName_any po1 en1 n str) ->
    nodeName_any po2 en2 n' str = nodeName_any po1 en1 n str.
  Proof.
    intros HR G. destruct (RS _ _ _ _ HR) as (_ & Hp & He & _). unfold nodeName_any in *.
    rewrite (same_good _ _ Hp (good_bind _ _ G)). destruct (po1 n) as [p|x]; [reflexivity|]. cbn [call gobind] in *.
    rewrite (same_good _ _ He (good_bind _ _ G)). reflexivity.
  Qed.

  Section Conv.
    Variable b : bindings.
    Variable str : bytes.

    Lemma b_rel {S} k n k' n' t (f1 : callback_any (N := N1) S) (f2 : callback_any (N := N2) S) s :
      agree_cb f1 f2 -> R k n k' n' ->
      good (b_lrTraverse_any ty1 ch1 b k n t f1 s) ->
      b_lrTraverse_any ty2 ch2 b k' n' t f2 s = b_lrTraverse_any ty1 ch1 b k n t f1 s.
    Proof. intros F HR G. apply walkFlex_rel; assumption. Qed.

    Ltac start HR G := intros ? ? ? ? ? HR G.

    Lemma escChar_rel : agree_cb (doOnEscapedChar_any po1 en1 b str) (doOnEscapedChar_any po2 en2 b str).
    Proof.
      start HR G. unfold doOnEscapedChar_any in *. rewrite (nodeName_rel _ _ _ _ _ HR (good_bind _ _ G)). reflexivity.
    Qed.

    Lemma parseEscape_rel k n k' n' : R k n k' n' -> good (parseEscape_any ty1 po1 en1 ch1 b str k n) ->
      parseEscape_any ty2 po2 en2 ch2 b str k' n' = parseEscape_any ty1 po1 en1 ch1 b str k n.
    Proof.
      intros HR G. unfold parseEscape_any in *.
      rewrite (b_rel _ _ _ _ _ _ _ _ escChar_rel HR (proj1 (good_lift _) (good_bind _ _ G))). reflexivity.
    Qed.

    Lemma terminalPart_rel : agree_cb (fOnTerminalPart_any ty1 po1 en1 ch1 b str) (fOnTerminalPart_any ty2 po2 en2 ch2 b str).
    Proof.
      start HR G. unfold fOnTerminalPart_any in *. destruct (RS _ _ _ _ HR) as (Ht & _).
      rewrite (same_good _ _ Ht (good_bind _ _ G)). destruct (ty1 n) as [p|t]; [reflexivity|]. cbn [call gobind] in *.
      destruct (t =? builtinTerminal)%Z.
      - rewrite (nodeName_rel _ _ _ _ _ HR (good_bind _ _ G)). reflexivity.
      - assert (X : good (parseEscape_any ty1 po1 en1 ch1 b str (S k) n))
          by (destruct (parseEscape_any ty1 po1 en1 ch1 b str (S k) n); cbn in *; auto).
        rewrite (parseEscape_rel _ _ _ _ HR X). reflexivity.
    Qed.

    Lemma parseTerminalName_rel k n k' n' : R k n k' n' -> good (parseTerminalName_any ty1 po1 en1 ch1 b str k n) ->
      parseTerminalName_any ty2 po2 en2 ch2 b str k' n' = parseTerminalName_any ty1 po1 en1 ch1 b str k n.
    Proof.
      intros HR G. unfold parseTerminalName_any, lrTraverse_any in *.
      rewrite (walkFlex_rel _ _ _ _ terminalPart_rel _ _ _ _ _ HR (proj1 (good_lift _) (good_bind _ _ G))). reflexivity.
    Qed.

    (** The callbacks that pass a result on. *)
    Ltac passes L HR G :=
      intros ? ? ? ? ? HR G;
      unfold doOnTerminalName_any, doOnSymbol_any, doOnSequence_any, doOnSubstitution_any, doOnRule_any in *;
      match type of G with good (match ?x with _ => _ end) =>
        let X := fresh in
        assert (X : good x) by (destruct x; cbn in *; auto);
        rewrite (L _ _ _ _ HR X); reflexivity
      end.

    Lemma terminalName_rel : agree_cb (doOnTerminalName_any ty1 po1 en1 ch1 b str) (doOnTerminalName_any ty2 po2 en2 ch2 b str).
    Proof. passes parseTerminalName_rel HR G. Qed.

    Lemma loop_rel k n k' n' types : R k n k' n' -> good (symbol_terminal_loop_any ty1 po1 en1 ch1 b str k types n) ->
      symbol_terminal_loop_any ty2 po2 en2 ch2 b str k' types n' = symbol_terminal_loop_any ty1 po1 en1 ch1 b str k types n.
    Proof.
      intros HR. induction types as [|t types IH]; intros G; [reflexivity|]. cbn [symbol_terminal_loop_any] in *.
      rewrite (b_rel _ _ _ _ _ _ _ _ terminalName_rel HR (proj1 (good_lift _) (good_bind _ _ G))).
      destruct (b_lrTraverse_any ty1 ch1 b k n t _ None) as [[res [e|]]|[]| |]; try reflexivity. cbn [lift gobind] in *.
      apply IH, G.
    Qed.

    Lemma nonTerminalName_rel : agree_cb (doOnNonTerminalName_any po1 en1 str) (doOnNonTerminalName_any po2 en2 str).
    Proof.
      start HR G. unfold doOnNonTerminalName_any in *. rewrite (nodeName_rel _ _ _ _ _ HR (good_bind _ _ G)). reflexivity.
    Qed.

    Lemma parseSymbol_rel k n k' n' : R k n k' n' -> good (parseSymbol_any ty1 po1 en1 ch1 b str k n) ->
      parseSymbol_any ty2 po2 en2 ch2 b str k' n' = parseSymbol_any ty1 po1 en1 ch1 b str k n.
    Proof.
      intros HR G. unfold parseSymbol_any in *. rewrite (loop_rel _ _ _ _ _ HR (good_bind _ _ G)).
      destruct (symbol_terminal_loop_any ty1 po1 en1 ch1 b str k _ n) as [[res|]| | |]; try reflexivity. cbn [gobind] in *.
      rewrite (b_rel _ _ _ _ _ _ _ _ nonTerminalName_rel HR (proj1 (good_lift _) (good_bind _ _ G))).
      destruct k as [|k]; [exfalso; apply (R0 _ _ _ HR); exact (good_bind _ _ G)|].
      assert (E : good (symbol_type_error_any po1 en1 str n) ->
        symbol_type_error_any po2 en2 str n' = symbol_type_error_any po1 en1 str n).
      { intros G1. unfold symbol_type_error_any in *.
        rewrite (nodeName_rel _ _ _ _ _ HR (proj1 (good_lift _) (good_bind _ _ G1))). reflexivity. }
      destruct (b_lrTraverse_any ty1 ch1 b (S k) n _ _ None) as [[res err]|[]| |]; try reflexivity. cbn [lift gobind] in *.
      destruct err as [[[]| | | | |]|], res; try reflexivity; apply E, G.
    Qed.

    Lemma symbol_rel : agree_cb (doOnSymbol_any ty1 po1 en1 ch1 b str) (doOnSymbol_any ty2 po2 en2 ch2 b str).
    Proof. passes parseSymbol_rel HR G. Qed.

    Lemma parseSequence_rel k n k' n' : R k n k' n' -> good (parseSequence_any ty1 po1 en1 ch1 b str k n) ->
      parseSequence_any ty2 po2 en2 ch2 b str k' n' = parseSequence_any ty1 po1 en1 ch1 b str k n.
    Proof.
      intros HR G. unfold parseSequence_any in *.
      rewrite (b_rel _ _ _ _ _ _ _ _ symbol_rel HR (proj1 (good_lift _) (good_bind _ _ G))). reflexivity.
    Qed.
    Lemma sequence_rel : agree_cb (doOnSequence_any ty1 po1 en1 ch1 b str) (doOnSequence_any ty2 po2 en2 ch2 b str).
    Proof. passes parseSequence_rel HR G. Qed.
    Lemma parseSubstitution_rel k n k' n' : R k n k' n' -> good (parseSubstitution_any ty1 po1 en1 ch1 b str k n) ->
      parseSubstitution_any ty2 po2 en2 ch2 b str k' n' = parseSubstitution_any ty1 po1 en1 ch1 b str k n.
    Proof.
      intros HR G. unfold parseSubstitution_any in *.
      rewrite (b_rel _ _ _ _ _ _ _ _ sequence_rel HR (proj1 (good_lift _) (good_bind _ _ G))). reflexivity.
    Qed.
    Lemma substitution_rel : agree_cb (doOnSubstitution_any ty1 po1 en1 ch1 b str) (doOnSubstitution_any ty2 po2 en2 ch2 b str).
    Proof. passes parseSubstitution_rel HR G. Qed.
    Lemma head_rel : agree_cb (doOnHead_any po1 en1 str) (doOnHead_any po2 en2 str).
    Proof.
      start HR G. unfold doOnHead_any in *. rewrite (nodeName_rel _ _ _ _ _ HR (good_bind _ _ G)). reflexivity.
    Qed.

    Lemma parseRule_rel k n k' n' : R k n k' n' -> good (parseRule_any ty1 po1 en1 ch1 b str k n) ->
      parseRule_any ty2 po2 en2 ch2 b str k' n' = parseRule_any ty1 po1 en1 ch1 b str k n.
    Proof.
      intros HR G. unfold parseRule_any in *.
      destruct k as [|k]; [exfalso; apply (R0 _ _ _ HR); exact (good_bind _ _ G)|].
      rewrite (b_rel _ _ _ _ _ _ _ _ head_rel HR (proj1 (good_lift _) (good_bind _ _ G))).
      assert (E : forall A (f : bytes -> fcres A), good (gobind (lift (nodeName_any po1 en1 n str)) f) ->
        gobind (lift (nodeName_any po2 en2 n' str)) f = gobind (lift (nodeName_any po1 en1 n str)) f).
      { intros A f G1. rewrite (nodeName_rel _ _ _ _ _ HR (proj1 (good_lift _) (good_bind _ _ G1))). reflexivity. }
      destruct (b_lrTraverse_any ty1 ch1 b (S k) n (RuleHeadType b) (doOnHead_any po1 en1 str) []) as [[hd err]|[]| |]; try reflexivity. cbn [lift gobind] in *.
      destruct err as [[[]| | | | |]|]; try (apply E; exact G).
      rewrite (b_rel _ _ _ _ _ _ _ _ substitution_rel HR (proj1 (good_lift _) (good_bind _ _ G))).
      destruct (b_lrTraverse_any ty1 ch1 b (S k) n (RuleTailType b) (doOnSubstitution_any ty1 po1 en1 ch1 b str) []) as [[tl err]|[]| |]; try reflexivity. cbn [lift gobind] in *.
      destruct err as [[[]| | | | |]|]; try reflexivity. apply E, G.
    Qed.
    Lemma rule_rel : agree_cb (doOnRule_any ty1 po1 en1 ch1 b str) (doOnRule_any ty2 po2 en2 ch2 b str).
    Proof. passes parseRule_rel HR G. Qed.
    Lemma ToAST_sorted_rel k n k' n' : R k n k' n' -> good (ToAST_any_sorted ty1 po1 en1 ch1 b str k n) ->
      ToAST_any_sorted ty2 po2 en2 ch2 b str k' n' = ToAST_any_sorted ty1 po1 en1 ch1 b str k n.
    Proof.
      intros HR G. unfold ToAST_any_sorted in *.
      rewrite (b_rel _ _ _ _ _ _ _ _ rule_rel HR (proj1 (good_lift _) (good_bind _ _ G))). reflexivity.
    Qed.
  End Conv.

  Lemma ToAST_any_rel b str k n k' n' : R k n k' n' -> good (ToAST_any ty1 po1 en1 ch1 k b n str) ->
    ToAST_any ty2 po2 en2 ch2 k' b n' str = ToAST_any ty1 po1 en1 ch1 k b n str.
  Proof. apply ToAST_sorted_rel. Qed.
End Relate.

(** ** Trees as structures *)
Section Trees.
  Notation T1 := (fun t : node => @inr gopanic Z (n_type t)).
  Notation T2 := (fun t : node => @inr gopanic Z (n_pos t)).
  Notation T3 := (fun t : node => @inr gopanic Z (n_end t)).
  Notation T4 := (fun t : node => @inr gopanic (list node) (n_childs t)).

  Lemma depth_childs t k : depth t <= S k -> Forall (fun c => depth c <= k) (n_childs t).
  Proof.
    destruct t as [a b c l]. cbn [depth n_childs]. intros H. assert (H1 : list_max (map depth l) <= k) by lia.
    apply (proj1 (list_max_le _ _)) in H1. apply (proj1 (Forall_map _ _ _)) in H1. exact H1.
  Qed.
  Lemma depth_pos t : exists k, depth t = S k.
  Proof. destruct t. eexists. reflexivity. Qed.

  Definition cb_tree {S} (f1 : callback_any (N := node) S) (f : callback S) : Prop :=
    forall k t s, depth t <= Datatypes.S k -> f1 (Datatypes.S k) s t = f s t.

  Lemma walkFlex_tree {S} ign sea (f1 : callback_any (N := node) S) (f : callback S) : cb_tree f1 f ->
    forall k t st, depth t <= k -> walkFlex T1 T4 ign sea f1 k st t = walk (flexVisit ign sea f) tt st t.
  Proof.
    intros F. induction k as [|k IH]; intros t [s err] H.
    - destruct (depth_pos t) as (j & E). lia.
    - rewrite walk_eq. cbn [walkFlex]. unfold flexVisit at 1. destruct err as [e|]; [reflexivity|].
      cbn [call gobind]. destruct (ign (n_type t)); [reflexivity|].
      destruct (sea (n_type t)).
      + rewrite (F k t s H). destruct (f s t) as [[s1 e1]|[]| |]; reflexivity.
      + generalize (s, @None fcerror). pose proof (depth_childs _ _ H) as D.
        induction D as [|c l Hc _ IHl]; intros st; [reflexivity|]. cbn [walk_each].
        rewrite (IH _ _ Hc). destruct (walk (flexVisit ign sea f) tt st c); try reflexivity. apply IHl.
  Qed.

  Section Conv.
    Variable b : bindings.
    Variable str : bytes.

    Lemma b_tree {S} k t ty (f1 : callback_any (N := node) S) (f : callback S) s : cb_tree f1 f -> depth t <= k ->
      b_lrTraverse_any T1 T4 b k t ty f1 s = b_lrTraverse b t ty f s.
    Proof. intros F H. apply walkFlex_tree; assumption. Qed.

    Lemma escChar_tree : cb_tree (doOnEscapedChar_any T2 T3 b str) (doOnEscapedChar b str).
    Proof. intros k t s _. reflexivity. Qed.
    Lemma parseEscape_tree k t : depth t <= k -> parseEscape_any T1 T2 T3 T4 b str k t = parseEscape b str t.
    Proof. intros H. unfold parseEscape_any. rewrite (b_tree _ _ _ _ _ _ escChar_tree H). reflexivity. Qed.
    Lemma terminalPart_tree : cb_tree (fOnTerminalPart_any T1 T2 T3 T4 b str) (fOnTerminalPart b str).
    Proof.
      intros k t s H. unfold fOnTerminalPart_any, fOnTerminalPart. cbn [call gobind].
      rewrite (parseEscape_tree _ _ H). reflexivity.
    Qed.
    Lemma parseTerminalName_tree k t : depth t <= k -> parseTerminalName_any T1 T2 T3 T4 b str k t = parseTerminalName b str t.
    Proof.
      intros H. unfold parseTerminalName_any, parseTerminalName, lrTraverse_any, lrTraverse.
      rewrite (walkFlex_tree _ _ _ _ terminalPart_tree _ _ _ H). reflexivity.
    Qed.
    Lemma terminalName_tree : cb_tree (doOnTerminalName_any T1 T2 T3 T4 b str) (doOnTerminalName b str).
    Proof. intros k t s H. unfold doOnTerminalName_any. rewrite (parseTerminalName_tree _ _ H). reflexivity. Qed.
    Lemma loop_tree k t types : depth t <= k ->
      symbol_terminal_loop_any T1 T2 T3 T4 b str k types t = symbol_terminal_loop b str types t.
    Proof.
      intros H. induction types as [|x types IH]; [reflexivity|]. cbn [symbol_terminal_loop_any symbol_terminal_loop].
      rewrite (b_tree _ _ _ _ _ _ terminalName_tree H). destruct (b_lrTraverse b t x (doOnTerminalName b str) None) as [[res [e|]]|[]| |]; try reflexivity.
      cbn [lift gobind]. apply IH.
    Qed.
    Lemma nonTerminalName_tree : cb_tree (doOnNonTerminalName_any T2 T3 str) (doOnNonTerminalName str).
    Proof. intros k t s _. reflexivity. Qed.
    Lemma parseSymbol_tree k t : depth t <= k -> parseSymbol_any T1 T2 T3 T4 b str k t = parseSymbol b str t.
    Proof.
      intros H. unfold parseSymbol_any, parseSymbol. rewrite (loop_tree _ _ _ H), (b_tree _ _ _ _ _ _ nonTerminalName_tree H).
      reflexivity.
    Qed.
    Lemma symbol_tree : cb_tree (doOnSymbol_any T1 T2 T3 T4 b str) (doOnSymbol b str).
    Proof. intros k t s H. unfold doOnSymbol_any. rewrite (parseSymbol_tree _ _ H). reflexivity. Qed.
    Lemma parseSequence_tree k t : depth t <= k -> parseSequence_any T1 T2 T3 T4 b str k t = parseSequence b str t.
    Proof. intros H. unfold parseSequence_any. rewrite (b_tree _ _ _ _ _ _ symbol_tree H). reflexivity. Qed.
    Lemma sequence_tree : cb_tree (doOnSequence_any T1 T2 T3 T4 b str) (doOnSequence b str).
    Proof. intros k t s H. unfold doOnSequence_any. rewrite (parseSequence_tree _ _ H). reflexivity. Qed.
    Lemma parseSubstitution_tree k t : depth t <= k -> parseSubstitution_any T1 T2 T3 T4 b str k t = parseSubstitution b str t.
    Proof. intros H. unfold parseSubstitution_any. rewrite (b_tree _ _ _ _ _ _ sequence_tree H). reflexivity. Qed.
    Lemma substitution_tree : cb_tree (doOnSubstitution_any T1 T2 T3 T4 b str) (doOnSubstitution b str).
    Proof. intros k t s H. unfold doOnSubstitution_any. rewrite (parseSubstitution_tree _ _ H). reflexivity. Qed.
    Lemma head_tree : cb_tree (doOnHead_any T2 T3 str) (doOnHead str).
    Proof. intros k t s _. reflexivity. Qed.
    Lemma parseRule_tree k t : depth t <= k -> parseRule_any T1 T2 T3 T4 b str k t = parseRule b str t.
    Proof.
      intros H. unfold parseRule_any. rewrite (b_tree _ _ _ _ _ _ head_tree H), (b_tree _ _ _ _ _ _ substitution_tree H).
      reflexivity.
    Qed.
    Lemma rule_tree : cb_tree (doOnRule_any T1 T2 T3 T4 b str) (doOnRule b str).
    Proof. intros k t s H. unfold doOnRule_any. rewrite (parseRule_tree _ _ H). reflexivity. Qed.
  End Conv.

  Lemma ToAST_tree b str k t : depth t <= k -> ToAST_any T1 T2 T3 T4 k b t str = ToAST b t str.
  Proof.
    intros H. unfold ToAST_any, ToAST_any_sorted. rewrite (b_tree _ _ _ _ _ _ _ (rule_tree _ _) H). reflexivity.
  Qed.
End Trees.
