(** * Props_Foreign: property C84, operands of neither exported kind. *)
From Verif Require Import Base Cst Parser Spec_Parse Spec_Foreign ParserProofs TreeProofs ParseApi ParseApi2 Props_Parser.

Lemma map_get_replaced {K V W} (eqb : K -> K -> bool) (R : V -> W -> Prop) k a b :
  Forall2 (fun x y => fst x = fst y /\ R (snd x) (snd y)) a b ->
  match map_get eqb k a, map_get eqb k b with
  | Some v, Some w => R v w
  | None, None => True
  | _, _ => False
  end.
Proof.
  induction 1 as [|[k1 v] [k2 w] a b [E H] _ IH]; simpl in *; [exact I|]. subst k2.
  destruct (eqb k k1); [exact H|exact IH].
Qed.

Lemma forall2_len {A B} (R : A -> B -> Prop) a b : Forall2 R a b -> length a = length b.
Proof. induction 1; cbn; congruence. Qed.
Lemma forall2_back {A B} (R : A -> B -> Prop) a b y : Forall2 R a b -> In y b -> exists x, In x a /\ R x y.
Proof.
  induction 1 as [|x y' a b H _ IH]; [intros []|intros [E|E]].
  - subst. exists x. split; [left; reflexivity|exact H].
  - destruct (IH E) as (x' & Hx & Hr). exists x'. split; [right; exact Hx|exact Hr].
Qed.

Section Foreign.
  Variable z : Z.
  Variable tbl other : table.
  Hypothesis Rp : replaced z tbl other.
  Hypothesis Un : unused z tbl.
  Variable src : bytes.
  Variable m : list (Z * bytes).

  Definition here (a b : ParserOp) : Prop := stands_for z a b /\ a <> OpNonTerminal z.

  Lemma here_same a : (forall p, ~ foreign a p) -> a <> OpNonTerminal z -> here a a.
  Proof. intros F N. split; [right; split; [exact F|reflexivity]|exact N]. Qed.
  Lemma here_made a : match a with OpFunction _ _ _ | OpChar _ | OpTerminal _ | OpEOS => True | _ => False end -> here a a.
  Proof. destruct a; intros []; apply here_same; try discriminate; intros p H; inversion H. Qed.

  Definition related (a b : pstate) : Prop :=
    Forall2 here (ps_ops a) (ps_ops b) /\ ps_prods a = ps_prods b /\ ps_off a = ps_off b.

  Definition steps_alike (x y : stepres) : Prop :=
    match x, y with
    | SNext a, SNext b => related a b
    | SReturn r n, SReturn r' n' => r = r' /\ n = n' /\ r <> ret_err (EUnknownBuiltin z)
    | SPanic p, SPanic q => p = q /\ ~ (exists op, foreign op p)
    | SPanic p, SReturn r n => r = ret_err (EUnknownBuiltin z) /\ n = Some m /\
        exists k rw b ops op, In (k, rw) tbl /\ In (b, ops) rw /\ In op ops /\ foreign op p
    | _, _ => False
    end.

  (** Foreign operands on the stack come from the table. *)
  Definition from_table (op : ParserOp) : Prop :=
    forall p, foreign op p -> exists k rw b ops, In (k, rw) tbl /\ In (b, ops) rw /\ In op ops.

  Lemma chars_here v : Forall2 here (map OpChar v) (map OpChar v).
  Proof. induction v; constructor; [apply here_made; exact I|assumption]. Qed.

  Lemma step_alike a b : related a b -> Forall from_table (ps_ops a) ->
    steps_alike (step tbl src (Some m) a) (step other src (Some m) b) /\
    forall a', step tbl src (Some m) a = SNext a' -> Forall from_table (ps_ops a').
  Proof.
    intros (Ho & Hp & Hf) Fr. unfold step.
    destruct (ps_ops a) as [|op ops] eqn:Ea, (ps_ops b) as [|op' ops'] eqn:Eb; inversion Ho as [|? ? ? ? H1 H2]; subst.
    { split; [|discriminate]. split; [reflexivity|]. intros (op & F). inversion F. }
    inversion Fr as [|? ? Fo Frs]; subst. rewrite <- Hp, <- Hf.
    assert (Sf : forall q, (forall p, ~ foreign q p) -> from_table q) by (intros q N p F; destruct (N _ F)).
    destruct H1 as ([((p & F) & ->)|(NF & ->)] & Nz).
    - (* a foreign operand *)
      destruct (Fo p F) as (k & rw & c & l & Hk & Hc & Hin).
      assert (S : (match op with
        | OpNonTerminal name => processNonTerminal tbl src (Some m) name ops (ps_prods a) (ps_off a)
        | OpTerminal v => processTerminal v ops (ps_prods a) (ps_off a)
        | OpFunction name pos amount => processFunction name pos amount ops (ps_prods a) (ps_off a)
        | OpEOS => processEOS src (Some m) (ps_prods a) (ps_off a)
        | OpChar c => processChar src (Some m) c ops (ps_prods a) (ps_off a)
        | OpNil => SPanic PanicNilOperand
        | OpEmbedding e => SPanic (embedding_panic e)
        end) = SPanic p) by (destruct F; reflexivity).
      rewrite S. split; [|discriminate].
      unfold processNonTerminal, processBuiltinNonTerminal.
      rewrite (proj2 (Z.ltb_lt z 0)) by (destruct Un; lia).
      rewrite (proj2 (Z.eqb_neq z (-2))) by (destruct Un; lia).
      split; [reflexivity|]. split; [reflexivity|]. exists k, rw, c, l, op. auto.
    - destruct op as [n|v|n p k| |c| |e].
      + unfold processNonTerminal. destruct (n <? 0)%Z.
        * unfold processBuiltinNonTerminal. destruct (n =? -2)%Z.
          -- destruct (Ascii.eqb (peek src (ps_off a)) LF).
             { split; [split; [|auto]; cbn; repeat (constructor; [apply here_made; exact I|]); exact H2|].
               intros a' H; injection H as <-. cbn.
               repeat (constructor; [apply Sf; intros q X; inversion X|]). exact Frs. }
             destruct (Ascii.eqb (peek src (ps_off a)) CR).
             { split; [split; [|auto]; cbn; repeat (constructor; [apply here_made; exact I|]); exact H2|].
               intros a' H; injection H as <-. cbn.
               repeat (constructor; [apply Sf; intros q X; inversion X|]). exact Frs. }
             split; [|discriminate]. split; [reflexivity|]. split; [reflexivity|discriminate].
          -- split; [|discriminate]. split; [reflexivity|]. split; [reflexivity|]. intros X. injection X as ->. congruence.
        * unfold processTableNonTerminal, table_get, row_get.
          pose proof (map_get_replaced Z.eqb (replaced_row z) n tbl other Rp) as T.
          destruct (map_get Z.eqb n tbl) as [rw|] eqn:E1, (map_get Z.eqb n other) as [rw'|]; try contradiction.
          2:{ split; [|discriminate]. split; [reflexivity|]. split; [reflexivity|discriminate]. }
          pose proof (map_get_replaced Ascii.eqb (Forall2 (stands_for z)) (peek src (ps_off a)) rw rw' T) as C.
          destruct (map_get Ascii.eqb (peek src (ps_off a)) rw) as [l|] eqn:E2,
                   (map_get Ascii.eqb (peek src (ps_off a)) rw') as [l'|]; try contradiction.
          2:{ split; [|discriminate]. split; [reflexivity|]. split; [reflexivity|discriminate]. }
          apply (map_get_in _ Z.eqb_eq) in E1. apply (map_get_in _ Ascii.eqb_eq) in E2.
          rewrite !push_all_app. split.
          -- split; [|auto]. cbn [ps_ops]. apply Forall2_app.
             ++ pose proof (proj2 Un _ _ _ _ E1 E2) as Nl. clear - C Nl. induction C as [|x y l l' Hxy _ IH]; constructor.
                ** split; [exact Hxy|]. intros ->. apply Nl. left. reflexivity.
                ** apply IH. intros H. apply Nl. right. exact H.
             ++ rewrite (forall2_len _ _ _ C). constructor; [apply here_made; exact I|exact H2].
          -- intros a' H. injection H as <-. cbn [ps_ops]. apply Forall_app. split.
             ++ apply Forall_forall. intros q Hq p _. exists n, rw, (peek src (ps_off a)), l. auto.
             ++ constructor; [apply Sf; intros q X; inversion X|exact Frs].
      + unfold processTerminal. rewrite !push_all_app. split.
        * split; [|auto]. cbn [ps_ops]. apply Forall2_app; [apply chars_here|].
          constructor; [apply here_made; exact I|exact H2].
        * intros a' H. injection H as <-. cbn [ps_ops]. apply Forall_app. split.
          -- apply Forall_forall. intros q Hq. apply in_map_iff in Hq. destruct Hq as (c & <- & _).
             apply Sf. intros q X; inversion X.
          -- constructor; [apply Sf; intros q X; inversion X|exact Frs].
      + unfold processFunction. destruct (Nat.eqb k 0).
        { split; [split; [exact H2|auto]|]. intros a' H. injection H as <-. exact Frs. }
        destruct (pop_childs (n =? builtinTerminal)%Z k (ps_prods a) []) as [[ch pr]|[]|q|] eqn:E.
        * split; [split; [exact H2|auto]|]. intros a' H. injection H as <-. exact Frs.
        * split; [|discriminate]. split; [reflexivity|]. intros (op & F). clear - E F.
          revert E. generalize (ps_prods a) (@nil node). generalize (n =? builtinTerminal)%Z as d.
          intros d. induction k as [|k IH]; intros l acc; simpl; [discriminate|].
          destruct l as [|x l]; [intros H; injection H as <-; inversion F|]. destruct (negb d); [apply IH|].
          destruct (negb (n_type x =? builtinTerminal)%Z); [intros H; injection H as <-; inversion F|apply IH].
        * split; [|discriminate]. split; [reflexivity|]. intros (op & F). inversion F.
      + split; [|unfold processEOS; destruct (negb _); [discriminate|]; destruct (ps_prods a); discriminate].
        unfold processEOS. destruct (negb _); [split; [reflexivity|]; split; [reflexivity|discriminate]|].
        destruct (ps_prods a); (split; [reflexivity|]; split; [reflexivity|discriminate]).
      + unfold processChar. destruct (negb (Ascii.eqb c (peek src (ps_off a)))).
        * split; [|discriminate]. split; [reflexivity|]. split; [reflexivity|discriminate].
        * split; [split; [exact H2|auto]|]. intros a' H. injection H as <-. exact Frs.
      + destruct (NF PanicNilOperand). constructor.
      + destruct (NF (embedding_panic e)). destruct e; constructor.
  Qed.

  Lemma run_alike fuel : forall a b, related a b -> Forall from_table (ps_ops a) ->
    (run tbl src (Some m) fuel a = run other src (Some m) fuel b /\
     fst (run other src (Some m) fuel b) <> Ok (ret_err (EUnknownBuiltin z)) /\
     (forall p op, fst (run tbl src (Some m) fuel a) = Panic p -> ~ foreign op p)) \/
    (exists p, run tbl src (Some m) fuel a = (Panic p, Some m) /\
     run other src (Some m) fuel b = (Ok (ret_err (EUnknownBuiltin z)), Some m) /\
     exists k rw c ops op, In (k, rw) tbl /\ In (c, ops) rw /\ In op ops /\ foreign op p).
  Proof.
    induction fuel as [|fuel IH]; intros a b Hr Fr; cbn [run].
    - left. split; [reflexivity|]. split; discriminate.
    - destruct (step_alike a b Hr Fr) as (S & N).
      destruct (step tbl src (Some m) a) as [a'|r n|p], (step other src (Some m) b) as [b'|r' n'|p'];
        cbn [steps_alike] in S; try contradiction.
      + apply IH; [exact S|]. apply N. reflexivity.
      + destruct S as (-> & -> & D). left. split; [reflexivity|]. split; [|discriminate]. cbn. congruence.
      + destruct S as (-> & -> & X). right. exists p. split; [reflexivity|]. split; [reflexivity|exact X].
      + destruct S as (-> & D). left. split; [reflexivity|]. split; [discriminate|].
        intros q op E F. apply D. cbn in E. injection E as ->. exists op. exact F.
  Qed.
End Foreign.

Lemma replaced_public z tbl other : replaced z tbl other -> table_outside tbl -> table_public other.
Proof.
  intros R O n r' c ops' Hn Hc. apply Forall_forall. intros op' Hop'.
  destruct (forall2_back _ _ _ _ R Hn) as ((n0 & r) & Hn' & E & Rr). cbn in E, Rr. subst n0.
  destruct (forall2_back _ _ _ _ Rr Hc) as ((c0 & ops) & Hc' & E' & Ro). cbn in E', Ro. subst c0.
  destruct (forall2_back _ _ _ _ Ro Hop') as (op & Hop & S).
  pose proof (O n r c ops op Hn' Hc' Hop) as X.
  destruct S as [(_ & ->)|(N & ->)]; [reflexivity|].
  destruct op as [| | | | | |e]; cbn in X |- *; try contradiction; try reflexivity.
  - destruct (N PanicNilOperand). constructor.
  - destruct (N (embedding_panic e)). destruct e; constructor.
Qed.

Lemma foreign_dec op : (exists p, foreign op p) \/ (forall p, ~ foreign op p).
Proof.
  destruct op as [| | | | | |[n|t|]]; try (right; intros p H; inversion H; fail); left; eexists; constructor.
Qed.

(** Every table has such a replacement. *)
Theorem C84_replacement : forall tbl, exists z other, unused z tbl /\ replaced z tbl other.
Proof.
  intros tbl.
  set (used := flat_map (fun x => flat_map (fun y => flat_map (fun op =>
    match op with OpNonTerminal n => [Z.abs_nat n] | _ => [] end) (snd y)) (snd x)) tbl).
  set (z := (- Z.of_nat (list_max used) - 3)%Z). exists z.
  assert (S : forall op, exists b, stands_for z op b).
  { intros op. destruct (foreign_dec op) as [F|F]; [exists (OpNonTerminal z); left|exists op; right]; auto. }
  assert (A : forall X Y (R : X -> Y -> Prop), (forall x, exists y, R x y) -> forall l, exists l', Forall2 R l l').
  { intros X Y R H. induction l as [|x l (l' & IH)]; [exists []; constructor|].
    destruct (H x) as (y & Hy). exists (y :: l'). constructor; assumption. }
  assert (T : exists other, replaced z tbl other).
  { apply A. intros (n & rw). destruct (A _ _ (fun x y => fst x = fst y /\ Forall2 (stands_for z) (snd x) (snd y))
      (fun x : ascii * list ParserOp => match A _ _ _ S (snd x) with ex_intro _ l H => ex_intro _ (fst x, l) (conj eq_refl H) end) rw)
      as (rw' & H). exists (n, rw'). split; [reflexivity|exact H]. }
  destruct T as (other & T). exists other. split; [|exact T]. split; [subst z; lia|].
  intros n r c ops Hn Hc Hz.
  assert (Hin : In (Z.abs_nat z) used).
  { apply in_flat_map. exists (n, r). split; [exact Hn|]. apply in_flat_map. exists (c, ops). split; [exact Hc|].
    apply in_flat_map. exists (OpNonTerminal z). split; [exact Hz|left; reflexivity]. }
  pose proof (proj1 (list_max_le used (list_max used)) (le_n _)) as F. rewrite Forall_forall in F.
  specialize (F _ Hin). subst z. lia.
Qed.
Print Assumptions C84_replacement.

Lemma Parse_unfold tbl fuel m src : tbl <> [] ->
  Parse fuel (NewLL1Parser tbl m) src =
  match table_get 0 tbl with
  | None => mkOut (Ok (ret_err ENoBaseEntry)) m src
  | Some _ =>
      match readSource src with
      | (Ok text, src') => let (r, names') := run tbl text m fuel init_state in mkOut r names' src'
      | (Err e, src') => mkOut (Ok (ret_err e)) m src'
      | (Panic q, src') => mkOut (Panic q) m src'
      | (NoFuel, src') => mkOut NoFuel m src'
      end
  end.
Proof. intros N. unfold Parse. cbn [NewLL1Parser p_table p_names]. destruct tbl; [congruence|reflexivity]. Qed.

(** A call of Parse with operands of neither exported kind in the table panics
    exactly when the same call with an unknown non-terminal in their place
    returns the error about it; otherwise the two calls do the same in every
    respect. *)
Theorem C84_parse :
  forall z tbl other m src fuel,
    unused z tbl -> replaced z tbl other -> table_outside tbl ->
    let out := Parse fuel (NewLL1Parser tbl (Some m)) src in
    let out' := Parse fuel (NewLL1Parser other (Some m)) src in
    (exists p, po_result out = Panic p /\
       (exists n rw b ops op, In (n, rw) tbl /\ In (b, ops) rw /\ In op ops /\ foreign op p) /\
       po_result out' = Ok (mkRet None None (Some (EUnknownBuiltin z))) /\
       po_names out = po_names out' /\ po_source out = po_source out') \/
    ((forall p, po_result out <> Panic p) /\
     po_result out' <> Ok (mkRet None None (Some (EUnknownBuiltin z))) /\ out = out').
Proof.
  intros z tbl other m src fuel Un R O. cbn zeta.
  pose proof (replaced_public _ _ _ R O) as Pub.
  pose proof (map_get_replaced Z.eqb (replaced_row z) 0%Z tbl other R) as G.
  assert (NP : forall p, po_result (Parse fuel (NewLL1Parser other (Some m)) src) <> Panic p).
  { intros p. exact (C07_parse_never_panics fuel other m src p Pub). }
  assert (Ne : (tbl = [] /\ other = []) \/ (tbl <> [] /\ other <> [])).
  { inversion R; [left; split; reflexivity|right; split; discriminate]. }
  destruct Ne as [(-> & ->)|(Ne1 & Ne2)].
  { right. split; [discriminate|]. split; [discriminate|reflexivity]. }
  rewrite (Parse_unfold other) in * by exact Ne2. rewrite (Parse_unfold tbl) by exact Ne1.
  unfold table_get in *.
  destruct (map_get Z.eqb 0%Z tbl) as [r1|], (map_get Z.eqb 0%Z other) as [r2|]; try contradiction.
  2:{ right. split; [discriminate|]. split; [discriminate|reflexivity]. }
  assert (Hs : match fst (readSource src) with Ok _ => True | Err e => e <> EUnknownBuiltin z | _ => False end).
  { destruct src as [|s|s|[s|]|[ch [e|]]|]; cbn; try exact I; discriminate. }
  destruct (readSource src) as [[text|e|q|] src'] eqn:Es; cbn [fst] in Hs; try contradiction.
  2:{ right. split; [discriminate|]. split; [|reflexivity]. intros H; injection H as H; exact (Hs H). }
  destruct (run_alike z tbl other R Un text m fuel init_state init_state) as [(E & D & F)|(p & E1 & E2 & W)].
  - split; [|split; reflexivity]. constructor.
    + apply here_same; [intros p H; inversion H|]. intros H. injection H as H. destruct Un. lia.
    + constructor; [apply here_made; exact I|constructor].
  - repeat constructor; intros p H; inversion H.
  - right. destruct (run tbl text (Some m) fuel init_state) as [ra na].
    rewrite <- E in *. cbn in *. split; [exact NP|]. split; [exact D|reflexivity].
  - left. exists p. rewrite E1, E2. cbn. auto.
Qed.
Print Assumptions C84_parse.

(** So, given a source that delivers [text] and a table with row 0, the call
    panics exactly when matching [text] reaches such an operand. *)
Theorem C84_when :
  forall z tbl other m src text,
    unused z tbl -> replaced z tbl other -> table_outside tbl -> has_row0 tbl -> delivers src text ->
    ((exists fuel p, po_result (Parse fuel (NewLL1Parser tbl (Some m)) src) = Panic p) <->
     (exists k, refuses other text (Some m) k (EUnknownBuiltin z))).
Proof.
  intros z tbl other m src text Un R O H0 D.
  assert (H0' : has_row0 other).
  { pose proof (map_get_replaced Z.eqb (replaced_row z) 0%Z tbl other R) as G.
    destruct H0 as (r & H0). unfold has_row0. rewrite H0 in G.
    destruct (map_get Z.eqb 0%Z other) as [r'|]; [exists r'; reflexivity|contradiction]. }
  rewrite <- (C19_error_diagnosis other m src text _ (replaced_public _ _ _ R O) H0' D).
  split.
  - intros (fuel & p & E). exists fuel. destruct (C84_parse z tbl other m src fuel Un R O) as [(q & _ & _ & X & _)|(N & _)].
    + exact X.
    + destruct (N p E).
  - intros (fuel & E). exists fuel. destruct (C84_parse z tbl other m src fuel Un R O) as [(q & X & _)|(_ & N & _)].
    + exists q. exact X.
    + destruct (N E).
Qed.
Print Assumptions C84_when.

(** A row whose entry for x is a value of a caller's type embedding a terminal,
    and whose entry for y is nil; the entry for z is an ordinary terminal. *)
Definition foreign_table : table :=
  [(0%Z, [("x"%char, [OpTerminal (s2b "x"); OpEmbedding (EmbTerminal (s2b "x"))]);
          ("y"%char, [OpNil]);
          ("z"%char, [OpTerminal (s2b "z")])])].
Definition foreign_other : table :=
  [(0%Z, [("x"%char, [OpTerminal (s2b "x"); OpNonTerminal (-3)]);
          ("y"%char, [OpNonTerminal (-3)]);
          ("z"%char, [OpTerminal (s2b "z")])])].
Example C84_case :
  unused (-3) foreign_table /\ replaced (-3) foreign_table foreign_other /\ table_outside foreign_table /\
  has_row0 foreign_table /\
  po_result (Parse 20 (NewLL1Parser foreign_table (Some [])) (SrcString (s2b "xx"))) = Panic PanicCastTerminal /\
  po_result (Parse 20 (NewLL1Parser foreign_table (Some [])) (SrcString (s2b "y"))) = Panic PanicNilOperand /\
  (exists t, po_result (Parse 20 (NewLL1Parser foreign_table (Some [])) (SrcString (s2b "z"))) = Ok t /\
             r_err t = None).
Proof.
  split; [|split; [|split; [|split; [|split; [|split]]]]].
  - split; [lia|]. intros n r c ops [E|[]] Hc. injection E as <- <-.
    repeat (destruct Hc as [E|Hc]; [injection E as <- <-; intros H; repeat (destruct H as [H|H]; try discriminate; try contradiction)|]).
    destruct Hc.
  - assert (F : forall a, (exists p, foreign a p) -> stands_for (-3) a (OpNonTerminal (-3))) by (left; auto).
    assert (S : forall t, stands_for (-3) (OpTerminal t) (OpTerminal t))
      by (right; split; [intros p H; inversion H|reflexivity]).
    repeat (constructor; cbn; try reflexivity; try apply S; try (apply F; eexists; constructor; fail)).
  - intros n r c ops op [E|[]] Hc Ho. injection E as <- <-.
    repeat (destruct Hc as [E|Hc]; [injection E as <- <-; repeat (destruct Ho as [<-|Ho]; [exact I|]); destruct Ho|]).
    destruct Hc.
  - eexists. reflexivity.
  - vm_compute. reflexivity.
  - vm_compute. reflexivity.
  - eexists. split; [vm_compute; reflexivity|reflexivity].
Qed.
