(** * ConvertProofs: the tree search and the converter of pkg/bnf/fromcst. *)
From Verif Require Import Base Cst Ast Parser FromCst Spec_Tree Spec_Convert WalkProofs.
From Coq Require Import Permutation Sorted.

(** Induction over trees. *)
Fixpoint node_ind' (P : node -> Prop)
    (H : forall ty p q childs, Forall P childs -> P (Node ty p q childs)) (n : node) : P n :=
  match n with
  | Node ty p q childs =>
      H ty p q childs
        ((fix every (l : list node) : Forall P l :=
            match l with
            | [] => Forall_nil P
            | c :: l' => Forall_cons c (node_ind' P H c) (every l')
            end) childs)
  end.

(** ** The traversal *)

Section Traverse.
  Context {S : Type}.
  Variable ign srch : Z -> bool.
  Variable f : callback S.
  Notation visit := (flexVisit ign srch f).

  Lemma walk_stopped n s e : walk visit tt (s, Some e) n = Ok (s, Some e).
  Proof. rewrite walk_eq. reflexivity. Qed.
  Lemma walk_each_stopped l s e : walk_each visit tt (s, Some e) l = Ok (s, Some e).
  Proof. induction l as [|n l IH]; [reflexivity|]. cbn [walk_each]. rewrite walk_stopped. exact IH. Qed.

  Lemma each_app l1 l2 s :
    each f s (l1 ++ l2) =
    match each f s l1 with Ok (s', None) => each f s' l2 | other => other end.
  Proof.
    revert s. induction l1 as [|n l1 IH]; intros s; [reflexivity|].
    cbn [app each]. destruct (f s n) as [[s' [e|]]|e| |]; try reflexivity. apply IH.
  Qed.

  Lemma walk_outermost n : forall s, walk visit tt (s, None) n = each f s (outermost ign srch n).
  Proof.
    induction n as [ty p q childs IH] using node_ind'. intros s. rewrite walk_eq.
    cbn [flexVisit n_type n_childs outermost].
    destruct (ign ty); [reflexivity|]. destruct (srch ty).
    - cbn [each]. destruct (f s (Node ty p q childs)) as [[s' [e|]]|e| |]; reflexivity.
    - revert s. induction childs as [|c l IHl]; intros s; [reflexivity|].
      cbn [walk_each flat_map]. rewrite each_app. inversion IH as [|? ? Hc Hl]; subst.
      rewrite Hc. destruct (each f s (outermost ign srch c)) as [[s' [e|]]|e| |]; try reflexivity.
      + apply walk_each_stopped.
      + apply IHl, Hl.
  Qed.

  Lemma lrTraverse_each root s : lrTraverse ign srch f root s = each f s (outermost ign srch root).
  Proof. apply walk_outermost. Qed.
End Traverse.

Lemma outermost_ext ign ign' srch srch' n :
  (forall t, ign t = ign' t) -> (forall t, srch t = srch' t) ->
  outermost ign srch n = outermost ign' srch' n.
Proof.
  intros H1 H2. induction n as [ty p q childs IH] using node_ind'. cbn [outermost].
  rewrite H1, H2. destruct (ign' ty); [reflexivity|]. destruct (srch' ty); [reflexivity|].
  induction IH as [|c l Hc _ IHl]; [reflexivity|]. cbn [flat_map]. rewrite Hc, IHl. reflexivity.
Qed.

Lemma outermost_sub ign srch n m : In m (outermost ign srch n) -> subnode m n.
Proof.
  induction n as [ty p q childs IH] using node_ind'. cbn [outermost].
  destruct (ign ty); [intros []|]. destruct (srch ty); [intros [<-|[]]; constructor|].
  intros H. apply in_flat_map in H. destruct H as (c & Hc & Hm). rewrite Forall_forall in IH.
  econstructor; [exact Hc|]. apply IH; assumption.
Qed.

Lemma outermost_spec ign srch n m :
  In m (outermost ign srch n) <->
  visible ign srch m n /\ ign (n_type m) = false /\ srch (n_type m) = true.
Proof.
  induction n as [ty p q childs IH] using node_ind'. rewrite Forall_forall in IH. cbn [outermost]. split.
  - destruct (ign ty) eqn:E1; [intros []|]. destruct (srch ty) eqn:E2.
    + intros [<-|[]]. split; [constructor|]. cbn. auto.
    + intros H. apply in_flat_map in H. destruct H as (c & Hc & Hm).
      apply (IH c Hc) in Hm. destruct Hm as (V & T). split; [|exact T].
      econstructor; eassumption.
  - intros (V & T1 & T2). inversion V as [|? ? ? ? c G1 G2 Hc V']; subst.
    + cbn in T1, T2. rewrite T1, T2. left. reflexivity.
    + rewrite G1, G2. apply in_flat_map. exists c. split; [exact Hc|]. apply IH; auto.
Qed.

(** A search that nothing stops returns nil. *)
Lemma each_none {S} (f : callback S) l : forall s s' e,
  each f s l = Ok (s', Some e) -> exists l1 n l2 s1, l = l1 ++ n :: l2 /\
    each f s l1 = Ok (s1, None) /\ f s1 n = Ok (s', Some e).
Proof.
  induction l as [|n l IH]; intros s s' e H; [discriminate|]. cbn [each] in H.
  destruct (f s n) as [[s1 [e1|]]|e1| |] eqn:E; try discriminate.
  - injection H as -> ->. exists [], n, l, s. auto.
  - destruct (IH _ _ _ H) as (l1 & m & l2 & s2 & -> & H1 & H2).
    exists (n :: l1), m, l2, s2. split; [reflexivity|]. cbn [each]. rewrite E. auto.
Qed.

(** ** Sorted lists and binary search *)

Lemma insert_sorted_perm x l : Permutation (insert_sorted x l) (x :: l).
Proof.
  induction l as [|y l IH]; [reflexivity|]. cbn [insert_sorted].
  destruct (x <=? y)%Z; [reflexivity|].
  rewrite IH. apply perm_swap.
Qed.
Lemma sort_ints_perm l : Permutation (sort_ints l) l.
Proof.
  induction l as [|x l IH]; [reflexivity|]. cbn. rewrite insert_sorted_perm.
  apply perm_skip, IH.
Qed.
Lemma insert_sorted_sorted x l : Sorted Z.le l -> Sorted Z.le (insert_sorted x l).
Proof.
  induction 1 as [|y l Hs IH Hd]; [repeat constructor|]. cbn [insert_sorted].
  destruct (Z.leb_spec x y) as [L|L].
  - constructor; [constructor; assumption|]. constructor. exact L.
  - constructor; [exact IH|]. destruct l as [|z l]; cbn [insert_sorted].
    + constructor. lia.
    + inversion Hd; subst. destruct (Z.leb_spec x z); constructor; lia.
Qed.
Lemma sort_ints_sorted l : Sorted Z.le (sort_ints l).
Proof. induction l as [|x l IH]; [constructor|]. apply insert_sorted_sorted, IH. Qed.

Definition mono (a : list Z) : Prop :=
  forall i j, i <= j -> j < length a -> (nth i a 0 <= nth j a 0)%Z.
Lemma sorted_mono a : Sorted Z.le a -> mono a.
Proof.
  intros H. apply Sorted_StronglySorted in H; [|intros x y z; lia].
  induction H as [|x l Hs IH Hf]; [intros i j; cbn; lia|].
  intros [|i] [|j] L1 L2; cbn in *; try lia.
  - rewrite Forall_forall in Hf. apply Hf, nth_In. lia.
  - apply IH; lia.
Qed.

Lemma search_loop_spec a x fuel : forall i j,
  mono a -> j <= length a -> i <= j -> j - i <= fuel ->
  (forall k, k < i -> (nth k a 0 < x)%Z) -> (forall k, j <= k < length a -> (x <= nth k a 0)%Z) ->
  let r := search_loop a x fuel i j in
  i <= r <= j /\ (forall k, k < r -> (nth k a 0 < x)%Z) /\
  (forall k, r <= k < length a -> (x <= nth k a 0)%Z).
Proof.
  induction fuel as [|fuel IH]; intros i j M Hj Hij Hf Hlo Hhi; cbv zeta; cbn [search_loop].
  - assert (i = j) by lia. subst j. rewrite (proj2 (Nat.ltb_ge i i)); [|lia]. auto.
  - destruct (Nat.ltb_spec i j) as [L|L].
    + set (h := Nat.div (i + j) 2).
      assert (Hh : i <= h < j).
      { unfold h. split; [apply Nat.div_le_lower_bound; lia|apply Nat.div_lt_upper_bound; lia]. }
      destruct (Z.leb_spec x (nth h a 0%Z)) as [Lx|Lx]; cbn [negb].
      * destruct (IH i h) as (A & B & C); try assumption; try lia.
        { intros k Hk. apply Z.le_trans with (nth h a 0%Z); [exact Lx|]. apply M; lia. }
        split; [lia|]. split; assumption.
      * destruct (IH (S h) j) as (A & B & C); try assumption; try lia.
        { intros k Hk. apply Z.le_lt_trans with (nth h a 0%Z); [|exact Lx]. apply M; lia. }
        split; [lia|]. split; assumption.
    + assert (i = j) by lia. subst j. auto.
Qed.

Lemma isNodeIgnored_sorted a t : Sorted Z.le a -> (isNodeIgnored a t = true <-> In t a).
Proof.
  intros Hs. apply sorted_mono in Hs. unfold isNodeIgnored, SearchInts.
  pose proof (search_loop_spec a t (length a) 0 (length a) Hs (le_n _) (Nat.le_0_l _)) as P.
  cbv zeta in P. remember (search_loop a t (length a) 0 (length a)) as r eqn:Er. clear Er.
  destruct P as (A & B & C); [lia|lia|lia|].
  rewrite andb_true_iff, Nat.ltb_lt, Z.eqb_eq. split.
  - intros (H1 & <-). apply nth_In, H1.
  - intros Hin. apply (In_nth _ _ 0%Z) in Hin. destruct Hin as (k & Hk & E).
    assert (r <= k).
    { destruct (Nat.le_gt_cases r k) as [G|G]; [exact G|]. specialize (B k G). lia. }
    split; [lia|]. specialize (C r). assert ((t <= nth r a 0)%Z) by (apply C; lia).
    assert ((nth r a 0 <= nth k a 0)%Z) by (apply Hs; lia). lia.
Qed.

Definition listed (l : list Z) (t : Z) : bool := existsb (Z.eqb t) l.
Lemma isNodeIgnored_listed l t : isNodeIgnored (sort_ints l) t = listed l t.
Proof.
  apply eq_true_iff_eq. rewrite (isNodeIgnored_sorted _ _ (sort_ints_sorted l)).
  unfold listed. rewrite existsb_exists. split.
  - intros H. exists t. split; [eapply Permutation_in; [apply sort_ints_perm|exact H]|apply Z.eqb_refl].
  - intros (x & Hx & E). apply Z.eqb_eq in E. subst x.
    eapply Permutation_in; [symmetry; apply sort_ints_perm|exact Hx].
Qed.

(** ** The converter as a function of the searched nodes *)

Fixpoint collect {X} (h : node -> fcres X) (l : list node) : fcres (list X) :=
  match l with
  | [] => Ok []
  | n :: l' => gobind (h n) (fun x => gobind (collect h l') (fun xs => Ok (x :: xs)))
  end.

(** A callback that appends the converted node to its state. *)
Lemma each_collect {X} (h : node -> fcres X) (f : callback (list X)) :
  (forall s n, f s n = match h n with
                       | Ok x => Ok (s ++ [x], None)
                       | Err e => Ok (s, Some e)
                       | Panic p => Panic p
                       | NoFuel => NoFuel
                       end) ->
  forall l s,
    gobind (lift (each f s l)) (fun r => match snd r with None => Ok (fst r) | Some e => Err e end)
    = gobind (collect h l) (fun xs => Ok (s ++ xs)).
Proof.
  intros Hf. induction l as [|n l IH]; intros s.
  - cbn. rewrite app_nil_r. reflexivity.
  - cbn [each collect]. rewrite Hf. destruct (h n) as [x|e|p|]; try reflexivity.
    rewrite IH. cbn [gobind]. destruct (collect h l) as [xs|e|p|]; try reflexivity.
    cbn [gobind]. rewrite <- app_assoc. reflexivity.
Qed.

(** A callback that always stops. *)
Lemma each_first {S} (f : callback S) l s :
  (forall s n, match f s n with Ok (_, None) => False | _ => True end) ->
  each f s l = match l with [] => Ok (s, None) | n :: _ => f s n end.
Proof.
  intros H. destruct l as [|n l]; [reflexivity|]. cbn [each]. specialize (H s n).
  destruct (f s n) as [[s' [e|]]|e| |]; try reflexivity. destruct H.
Qed.

Definition clean {X} (r : fcres X) : Prop :=
  match r with Err (ESearchComplete _) => False | NoFuel => False | _ => True end.
Lemma clean_bind {X Y} (x : fcres X) (f : X -> fcres Y) :
  clean x -> (forall a, clean (f a)) -> clean (gobind x f).
Proof. destruct x; cbn; auto. Qed.
Lemma clean_slice str lo hi : clean (lift (slice str lo hi)).
Proof. unfold slice. destruct (_ && _ && _)%bool; exact I. Qed.
Lemma clean_collect {X} (h : node -> fcres X) l : (forall n, clean (h n)) -> clean (collect h l).
Proof.
  intros H. induction l as [|n l IH]; [exact I|]. cbn. apply clean_bind; [apply H|].
  intros x. apply clean_bind; [exact IH|]. intros xs. exact I.
Qed.

Section Functional.
  Variable b : bindings.
  Variable str : bytes.

  Definition nodes_with (root : node) (ty : Z) : list node :=
    outermost (isNodeIgnored (IgnoreNodeTypes b)) (fun t => (t =? ty)%Z) root.

  Lemma b_lrTraverse_each {S} root ty (f : callback S) s :
    b_lrTraverse b root ty f s = each f s (nodes_with root ty).
  Proof. apply lrTraverse_each. Qed.

  Definition text (n : node) : fcres bytes := lift (nodeName n str).

  Lemma parseEscape_eq n :
    parseEscape b str n =
    match nodes_with n (EscapeCharacterType b) with
    | [] => Err EEscapeNotFound
    | c :: _ => gobind (text c) (fun s =>
        match map_get bytes_eqb s (EscapeMapping b) with
        | None => Err (EUnknownEscape s)
        | Some r => Ok r
        end)
    end.
  Proof.
    unfold parseEscape. rewrite b_lrTraverse_each, each_first.
    - destruct (nodes_with n (EscapeCharacterType b)) as [|c l]; [reflexivity|].
      unfold doOnEscapedChar, text, nodeName.
      destruct (slice str (n_pos c) (n_end c)) as [s|[]|p|]; try reflexivity. cbn.
      destruct (map_get bytes_eqb s (EscapeMapping b)); reflexivity.
    - intros s m. unfold doOnEscapedChar. destruct (slice str (n_pos m) (n_end m)) as [x|[]|p|]; cbn; try exact I.
      destruct (map_get bytes_eqb x (EscapeMapping b)); exact I.
  Qed.

  Definition piece (n : node) : fcres bytes :=
    if (n_type n =? -1)%Z then text n else parseEscape b str n.
  Definition pieces_of (n : node) : list node :=
    outermost (fun _ => false) (fun t => (t =? 16)%Z || (t =? -1)%Z) n.

  Lemma each_concat (f : callback bytes) (h : node -> fcres bytes) :
    (forall s n, f s n = match h n with
                         | Ok x => Ok (s ++ x, None)
                         | Err e => Ok (s, Some e)
                         | Panic p => Panic p
                         | NoFuel => NoFuel
                         end) ->
    forall l s,
      gobind (lift (each f s l)) (fun r => match snd r with None => Ok (fst r) | Some e => Err e end)
      = gobind (collect h l) (fun xs => Ok (s ++ concat xs)).
  Proof.
    intros Hf. induction l as [|n l IH]; intros s.
    - cbn. rewrite app_nil_r. reflexivity.
    - cbn [each collect]. rewrite Hf. destruct (h n) as [x|e|p|]; try reflexivity.
      rewrite IH. cbn [gobind]. destruct (collect h l) as [xs|e|p|]; try reflexivity.
      cbn [gobind concat]. rewrite <- app_assoc. reflexivity.
  Qed.

  Lemma parseTerminalName_eq n :
    parseTerminalName b str n = gobind (collect piece (pieces_of n)) (fun l => Ok (concat l)).
  Proof.
    unfold parseTerminalName. rewrite lrTraverse_each.
    rewrite <- (each_concat (fOnTerminalPart b str) piece) with (s := []).
    - unfold pieces_of, builtinTerminal.
      destruct (lift (each _ _ _)) as [[s [e|]]|e|p|]; reflexivity.
    - intros s m. unfold fOnTerminalPart, piece, builtinTerminal.
      destruct (n_type m =? -1)%Z; [|reflexivity].
      unfold text, nodeName. destruct (slice str (n_pos m) (n_end m)) as [x|[]|p|]; reflexivity.
  Qed.

  Definition terminal_symbol (s : bytes) : symbol :=
    match s with [] => SNothing | _ => STerminal s end.

  (** The first listed type that occurs. *)
  Fixpoint first_of_types (types : list Z) (n : node) : option node :=
    match types with
    | [] => None
    | t :: types' =>
        match nodes_with n t with m :: _ => Some m | [] => first_of_types types' n end
    end.

  Lemma parseEscape_clean n : clean (parseEscape b str n).
  Proof.
    rewrite parseEscape_eq. destruct (nodes_with n (EscapeCharacterType b)) as [|c l]; [exact I|].
    apply clean_bind; [apply clean_slice|]. intros a. destruct (map_get bytes_eqb a _); exact I.
  Qed.
  Lemma piece_clean n : clean (piece n).
  Proof. unfold piece. destruct (n_type n =? -1)%Z; [apply clean_slice|apply parseEscape_clean]. Qed.
  Lemma parseTerminalName_clean n : clean (parseTerminalName b str n).
  Proof.
    rewrite parseTerminalName_eq. apply clean_bind; [apply clean_collect, piece_clean|].
    intros a. exact I.
  Qed.

  Lemma symbol_terminal_loop_eq n types :
    symbol_terminal_loop b str types n =
    match first_of_types types n with
    | None => Ok None
    | Some m => gobind (parseTerminalName b str m) (fun s => Ok (Some (terminal_symbol s)))
    end.
  Proof.
    induction types as [|t types IH]; [reflexivity|]. cbn [symbol_terminal_loop first_of_types].
    rewrite b_lrTraverse_each, each_first.
    - destruct (nodes_with n t) as [|m l]; [exact IH|].
      unfold doOnTerminalName. pose proof (parseTerminalName_clean m) as C.
      destruct (parseTerminalName b str m) as [s|e|p|]; try reflexivity.
      + destruct s; reflexivity.
      + destruct e as [w|s0| |s0|s0|s0]; try reflexivity. destruct C.
    - intros s m. unfold doOnTerminalName. destruct (parseTerminalName b str m) as [x|e|p|]; try exact I.
      destruct x; exact I.
  Qed.

  Lemma parseSymbol_eq n :
    parseSymbol b str n =
    match first_of_types (SymbolTerminalTypes b) n with
    | Some m => gobind (parseTerminalName b str m) (fun s => Ok (terminal_symbol s))
    | None =>
        match nodes_with n (SymbolNonTerminalType b) with
        | m :: _ => gobind (text m) (fun s => Ok (SNonTerminal s))
        | [] => gobind (text n) (fun s => Err (ESymbolType s))
        end
    end.
  Proof.
    unfold parseSymbol. rewrite symbol_terminal_loop_eq.
    destruct (first_of_types (SymbolTerminalTypes b) n) as [m|].
    - destruct (parseTerminalName b str m) as [s|e|p|]; reflexivity.
    - cbn [gobind]. rewrite b_lrTraverse_each, each_first.
      + destruct (nodes_with n (SymbolNonTerminalType b)) as [|m l]; [reflexivity|].
        unfold doOnNonTerminalName, text. destruct (nodeName m str) as [s|[]|p|]; reflexivity.
      + intros s m. unfold doOnNonTerminalName. destruct (nodeName m str) as [x|[]|p|]; exact I.
  Qed.
  Lemma parseSymbol_clean n : clean (parseSymbol b str n).
  Proof.
    rewrite parseSymbol_eq. destruct (first_of_types _ n) as [m|].
    - apply clean_bind; [apply parseTerminalName_clean|]. intros a; exact I.
    - destruct (nodes_with n (SymbolNonTerminalType b)) as [|m l];
        (apply clean_bind; [apply clean_slice|intros a; exact I]).
  Qed.

  Lemma gores_eta {X} (r : fcres (list X)) :
    gobind r (fun xs => Ok ([] ++ xs)) = r.
  Proof. destruct r; reflexivity. Qed.

  Lemma parseSequence_eq n :
    parseSequence b str n = collect (parseSymbol b str) (nodes_with n (SequencesSymbolType b)).
  Proof.
    unfold parseSequence. rewrite b_lrTraverse_each.
    rewrite <- (gores_eta (collect _ _)), <- (each_collect (parseSymbol b str) (doOnSymbol b str)).
    - destruct (lift (each _ _ _)) as [[s [e|]]|e|p|]; reflexivity.
    - reflexivity.
  Qed.
  Lemma parseSequence_clean n : clean (parseSequence b str n).
  Proof. rewrite parseSequence_eq. apply clean_collect, parseSymbol_clean. Qed.

  Lemma parseSubstitution_eq n :
    parseSubstitution b str n =
    collect (parseSequence b str) (nodes_with n (ExpressionSequencesType b)).
  Proof.
    unfold parseSubstitution. rewrite b_lrTraverse_each.
    rewrite <- (gores_eta (collect _ _)), <- (each_collect (parseSequence b str) (doOnSequence b str)).
    - destruct (lift (each _ _ _)) as [[s [e|]]|e|p|]; reflexivity.
    - reflexivity.
  Qed.
  Lemma parseSubstitution_clean n : clean (parseSubstitution b str n).
  Proof. rewrite parseSubstitution_eq. apply clean_collect, parseSequence_clean. Qed.

  Lemma parseRule_eq n :
    parseRule b str n =
    match nodes_with n (RuleHeadType b) with
    | [] => gobind (text n) (fun s => Err (ENoRuleName s))
    | h :: _ =>
        gobind (text h) (fun head =>
          match nodes_with n (RuleTailType b) with
          | [] => gobind (text n) (fun s => Err (ENoRuleSubstitution s))
          | e :: _ => gobind (parseSubstitution b str e) (fun tail => Ok (mkRule head tail))
          end)
    end.
  Proof.
    unfold parseRule. rewrite !b_lrTraverse_each, !each_first.
    - destruct (nodes_with n (RuleHeadType b)) as [|h l]; [reflexivity|].
      unfold doOnHead, text. destruct (nodeName h str) as [s|[]|p|]; try reflexivity. cbn [gobind lift].
      destruct (nodes_with n (RuleTailType b)) as [|e l']; [reflexivity|].
      unfold doOnSubstitution. pose proof (parseSubstitution_clean e) as C.
      destruct (parseSubstitution b str e) as [s'|e'|p|]; try reflexivity.
      destruct e' as [w|s0| |s0|s0|s0]; try reflexivity. destruct C.
    - intros s m. unfold doOnSubstitution. destruct (parseSubstitution b str m); exact I.
    - intros s m. unfold doOnHead. destruct (nodeName m str) as [x|[]|p|]; exact I.
  Qed.
  Lemma parseRule_clean n : clean (parseRule b str n).
  Proof.
    rewrite parseRule_eq. destruct (nodes_with n (RuleHeadType b)) as [|h l].
    - apply clean_bind; [apply clean_slice|intros a; exact I].
    - apply clean_bind; [apply clean_slice|]. intros a.
      destruct (nodes_with n (RuleTailType b)) as [|e l'].
      + apply clean_bind; [apply clean_slice|intros x; exact I].
      + apply clean_bind; [apply parseSubstitution_clean|intros x; exact I].
  Qed.

  Lemma ToAST_sorted_eq n :
    ToAST_sorted b str n = collect (parseRule b str) (nodes_with n (RuleType b)).
  Proof.
    unfold ToAST_sorted. rewrite b_lrTraverse_each.
    rewrite <- (gores_eta (collect _ _)), <- (each_collect (parseRule b str) (doOnRule b str)).
    - destruct (lift (each _ _ _)) as [[s [e|]]|e|p|]; reflexivity.
    - reflexivity.
  Qed.
End Functional.

(** ** The list of ignored types is a set *)

Lemma collect_ext {X} (h h' : node -> fcres X) l :
  (forall n, h n = h' n) -> collect h l = collect h' l.
Proof. intros H. induction l as [|n l IH]; [reflexivity|]. cbn. rewrite H, IH. reflexivity. Qed.

Section Ignored.
  Variable b : bindings.
  Variable l l' : list Z.
  Variable str : bytes.
  Hypothesis Same : forall t, isNodeIgnored l t = isNodeIgnored l' t.
  Let b1 := with_ignored l b.
  Let b2 := with_ignored l' b.

  Lemma nodes_with_ignored n ty : nodes_with b1 n ty = nodes_with b2 n ty.
  Proof. apply outermost_ext; [exact Same|reflexivity]. Qed.
  Lemma parseEscape_ignored n : parseEscape b1 str n = parseEscape b2 str n.
  Proof. rewrite !parseEscape_eq, nodes_with_ignored. reflexivity. Qed.
  Lemma parseTerminalName_ignored n : parseTerminalName b1 str n = parseTerminalName b2 str n.
  Proof.
    rewrite !parseTerminalName_eq. f_equal. apply collect_ext. intros m. unfold piece.
    rewrite parseEscape_ignored. reflexivity.
  Qed.
  Lemma first_of_types_ignored n types : first_of_types b1 types n = first_of_types b2 types n.
  Proof. induction types as [|t types IH]; [reflexivity|]. cbn. rewrite nodes_with_ignored, IH. reflexivity. Qed.
  Lemma parseSymbol_ignored n : parseSymbol b1 str n = parseSymbol b2 str n.
  Proof.
    rewrite !parseSymbol_eq, first_of_types_ignored.
    change (SymbolTerminalTypes b1) with (SymbolTerminalTypes b2).
    destruct (first_of_types b2 (SymbolTerminalTypes b2) n); [rewrite parseTerminalName_ignored; reflexivity|].
    rewrite nodes_with_ignored. reflexivity.
  Qed.
  Lemma parseSequence_ignored n : parseSequence b1 str n = parseSequence b2 str n.
  Proof. rewrite !parseSequence_eq, nodes_with_ignored. apply collect_ext, parseSymbol_ignored. Qed.
  Lemma parseSubstitution_ignored n : parseSubstitution b1 str n = parseSubstitution b2 str n.
  Proof. rewrite !parseSubstitution_eq, nodes_with_ignored. apply collect_ext, parseSequence_ignored. Qed.
  Lemma parseRule_ignored n : parseRule b1 str n = parseRule b2 str n.
  Proof.
    rewrite !parseRule_eq, !nodes_with_ignored.
    change (RuleHeadType b1) with (RuleHeadType b2). change (RuleTailType b1) with (RuleTailType b2).
    destruct (nodes_with b2 n (RuleHeadType b2)); [reflexivity|]. f_equal.
    destruct (nodes_with b2 n (RuleTailType b2)); [reflexivity|]. rewrite parseSubstitution_ignored. reflexivity.
  Qed.
  Lemma ToAST_sorted_ignored n : ToAST_sorted b1 str n = ToAST_sorted b2 str n.
  Proof. rewrite !ToAST_sorted_eq, nodes_with_ignored. apply collect_ext, parseRule_ignored. Qed.
End Ignored.

Lemma listed_iff l t : listed l t = true <-> In t l.
Proof.
  unfold listed. rewrite existsb_exists. split.
  - intros (x & Hx & E). apply Z.eqb_eq in E. subst x. exact Hx.
  - intros H. exists t. split; [exact H|apply Z.eqb_refl].
Qed.

Lemma ToAST_ignored b l l' root str :
  (forall t, In t l <-> In t l') ->
  ToAST (with_ignored l b) root str = ToAST (with_ignored l' b) root str.
Proof.
  intros H. unfold ToAST. change (sort_bindings (with_ignored l b)) with (with_ignored (sort_ints l) b).
  change (sort_bindings (with_ignored l' b)) with (with_ignored (sort_ints l') b).
  apply ToAST_sorted_ignored. intros t. rewrite !isNodeIgnored_listed.
  apply eq_true_iff_eq. rewrite !listed_iff. apply H.
Qed.

(** ** No panic when the text covers the tree *)

Definition returns {X} (r : fcres X) : Prop := match r with Ok _ | Err _ => True | _ => False end.
Lemma returns_bind {X Y} (x : fcres X) (f : X -> fcres Y) :
  returns x -> (forall a, x = Ok a -> returns (f a)) -> returns (gobind x f).
Proof. destruct x; cbn; auto. Qed.
Lemma returns_collect {X} (h : node -> fcres X) l :
  (forall n, In n l -> returns (h n)) -> returns (collect h l).
Proof.
  intros H. induction l as [|n l IH]; [exact I|]. cbn [collect].
  apply returns_bind; [apply H; left; reflexivity|]. intros x _.
  apply returns_bind; [|intros; exact I]. apply IH. intros m Hm. apply H. right. exact Hm.
Qed.

Lemma subnode_trans a n m : subnode a n -> subnode n m -> subnode a m.
Proof. intros H1 H2. induction H2; [exact H1|]. econstructor; eassumption. Qed.

Section Covered.
  Variable b : bindings.
  Variable str : bytes.
  Definition covered (n : node) : Prop := forall m, subnode m n -> inside str m.
  Lemma covered_sub m n : subnode m n -> covered n -> covered m.
  Proof. intros H C a Ha. apply C. eapply subnode_trans; eassumption. Qed.
  Lemma covered_outer ign srch n m : In m (outermost ign srch n) -> covered n -> covered m.
  Proof. intros H. apply covered_sub. eapply outermost_sub, H. Qed.

  Lemma text_eq n : inside str n -> text str n = Ok (text_of str (n_pos n) (n_end n)).
  Proof.
    intros ((A & B) & C). unfold text, nodeName, slice, text_of.
    rewrite (proj2 (Z.leb_le _ _) A), (proj2 (Z.leb_le _ _) B), (proj2 (Z.leb_le _ _) C). reflexivity.
  Qed.
  Lemma text_returns n : covered n -> returns (text str n).
  Proof. intros H. rewrite text_eq; [exact I|]. apply H. constructor. Qed.

  Lemma parseEscape_returns n : covered n -> returns (parseEscape b str n).
  Proof.
    intros H. rewrite parseEscape_eq. destruct (nodes_with b n (EscapeCharacterType b)) as [|c l] eqn:E; [exact I|].
    apply returns_bind.
    - apply text_returns. eapply covered_outer; [|exact H]. unfold nodes_with in E. rewrite E. left. reflexivity.
    - intros a _. destruct (map_get bytes_eqb a _); exact I.
  Qed.
  Lemma parseTerminalName_returns n : covered n -> returns (parseTerminalName b str n).
  Proof.
    intros H. rewrite parseTerminalName_eq. apply returns_bind; [|intros; exact I].
    apply returns_collect. intros m Hm. pose proof (covered_outer _ _ _ _ Hm H) as Cm.
    unfold piece. destruct (n_type m =? -1)%Z; [apply text_returns|apply parseEscape_returns]; exact Cm.
  Qed.
  Lemma first_of_types_sub n types m : first_of_types b types n = Some m -> subnode m n.
  Proof.
    induction types as [|t types IH]; [discriminate|]. cbn.
    destruct (nodes_with b n t) as [|x l] eqn:E; [exact IH|].
    intros H. injection H as ->. eapply outermost_sub. unfold nodes_with in E. rewrite E. left. reflexivity.
  Qed.
  Lemma parseSymbol_returns n : covered n -> returns (parseSymbol b str n).
  Proof.
    intros H. rewrite parseSymbol_eq. destruct (first_of_types b _ n) as [m|] eqn:E.
    - apply returns_bind; [|intros; exact I]. apply parseTerminalName_returns.
      eapply covered_sub; [eapply first_of_types_sub, E|exact H].
    - destruct (nodes_with b n (SymbolNonTerminalType b)) as [|m l] eqn:E2.
      + apply returns_bind; [apply text_returns, H|intros; exact I].
      + apply returns_bind; [|intros; exact I]. apply text_returns.
        eapply covered_outer; [|exact H]. unfold nodes_with in E2. rewrite E2. left. reflexivity.
  Qed.
  Lemma parseSequence_returns n : covered n -> returns (parseSequence b str n).
  Proof.
    intros H. rewrite parseSequence_eq. apply returns_collect. intros m Hm.
    apply parseSymbol_returns. eapply covered_outer; eassumption.
  Qed.
  Lemma parseSubstitution_returns n : covered n -> returns (parseSubstitution b str n).
  Proof.
    intros H. rewrite parseSubstitution_eq. apply returns_collect. intros m Hm.
    apply parseSequence_returns. eapply covered_outer; eassumption.
  Qed.
  Lemma parseRule_returns n : covered n -> returns (parseRule b str n).
  Proof.
    intros H. rewrite parseRule_eq. destruct (nodes_with b n (RuleHeadType b)) as [|h l] eqn:E.
    - apply returns_bind; [apply text_returns, H|intros; exact I].
    - apply returns_bind.
      + apply text_returns. eapply covered_outer; [|exact H]. unfold nodes_with in E. rewrite E. left. reflexivity.
      + intros a _. destruct (nodes_with b n (RuleTailType b)) as [|e l'] eqn:E2.
        * apply returns_bind; [apply text_returns, H|intros; exact I].
        * apply returns_bind; [|intros; exact I]. apply parseSubstitution_returns.
          eapply covered_outer; [|exact H]. unfold nodes_with in E2. rewrite E2. left. reflexivity.
  Qed.
  Lemma ToAST_sorted_returns n : covered n -> returns (ToAST_sorted b str n).
  Proof.
    intros H. rewrite ToAST_sorted_eq. apply returns_collect. intros m Hm.
    apply parseRule_returns. eapply covered_outer; eassumption.
  Qed.
End Covered.

Lemma ToAST_returns b root str : covered str root -> returns (ToAST b root str).
Proof. apply ToAST_sorted_returns. Qed.

(** ** Without a node of type 16 the terminal reader copies its text *)

Lemma pieces_literals n : (forall m, subnode m n -> n_type m <> 16%Z) -> pieces_of n = literals n.
Proof.
  induction n as [ty p q childs IH] using node_ind'. intros H. cbn [pieces_of outermost literals].
  assert (ty <> 16%Z) by (apply (H (Node ty p q childs)); constructor).
  rewrite (proj2 (Z.eqb_neq ty 16)) by assumption. cbn [orb].
  destruct (ty =? -1)%Z; [reflexivity|].
  assert (Hc : forall c, In c childs -> forall m, subnode m c -> n_type m <> 16%Z).
  { intros c Hc m Hm. apply H. econstructor; eassumption. }
  clear H. induction IH as [|c l P _ IHl]; [reflexivity|]. cbn [flat_map]. f_equal.
  - apply P, Hc. left. reflexivity.
  - apply IHl. intros c' Hc'. apply Hc. right. exact Hc'.
Qed.
Lemma literals_type n m : In m (literals n) -> n_type m = (-1)%Z.
Proof.
  induction n as [ty p q childs IH] using node_ind'. rewrite Forall_forall in IH. cbn [literals].
  destruct (Z.eqb_spec ty (-1)).
  - intros [<-|[]]. exact e.
  - intros H. apply in_flat_map in H. destruct H as (c & Hc & Hm). eapply IH; eassumption.
Qed.
Lemma terminal_verbatim b str n :
  covered str n -> (forall m, subnode m n -> n_type m <> 16%Z) ->
  parseTerminalName b str n =
  Ok (concat (map (fun m => text_of str (n_pos m) (n_end m)) (literals n))).
Proof.
  intros C H. rewrite parseTerminalName_eq, (pieces_literals n H).
  assert (E : collect (piece b str) (literals n)
              = Ok (map (fun m => text_of str (n_pos m) (n_end m)) (literals n))).
  { assert (A : forall m, In m (literals n) -> n_type m = (-1)%Z /\ inside str m).
    { intros m Hm. split; [eapply literals_type, Hm|]. apply C.
      rewrite <- (pieces_literals n H) in Hm. eapply outermost_sub, Hm. }
    induction (literals n) as [|m l IH]; [reflexivity|]. cbn [collect map].
    destruct (A m (or_introl eq_refl)) as (T & Ins). unfold piece at 1. rewrite T, Z.eqb_refl, text_eq by exact Ins.
    cbn [gobind]. rewrite IH; [reflexivity|]. intros x Hx. apply A. right. exact Hx. }
  rewrite E. reflexivity.
Qed.
