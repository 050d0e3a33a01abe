(** * ParserProofs: the loop of parser.go against Spec_Parse. *)
From Verif Require Import Base Cst Parser Spec_Parse.

Lemma peek_byte_at src k : peek src k = byte_at src k.
Proof.
  unfold peek, byte_at. revert k. induction src as [|c s IH]; intros [|k]; simpl; auto.
Qed.

Lemma push_all_app ops stack : push_all ops stack = ops ++ stack.
Proof.
  unfold push_all. revert stack. induction ops as [|op ops IH]; intros stack; [reflexivity|].
  simpl. rewrite fold_left_app, IH. simpl. reflexivity.
Qed.

Lemma map_get_in {K V} (eqb : K -> K -> bool) (H : forall a b, eqb a b = true <-> a = b)
  k (m : list (K * V)) v : map_get eqb k m = Some v -> In (k, v) m.
Proof.
  induction m as [|[k' v'] m IH]; simpl; [discriminate|].
  destruct (eqb k k') eqn:E.
  - intros [= ->]. apply H in E. subst. left. reflexivity.
  - intros G. right. auto.
Qed.

Lemma cell_public tbl n c ops :
  table_public tbl -> cell tbl n c ops -> Forall (fun op => op_public op = true) ops.
Proof.
  intros Hp (r & Hr & Hc). eapply Hp; [eapply map_get_in; [apply Z.eqb_eq|exact Hr]|].
  eapply map_get_in; [apply Ascii.eqb_eq|exact Hc].
Qed.

(** ** Derivations drive the loop *)

Scheme derives_ind2 := Induction for derives Sort Prop
with derives_all_ind2 := Induction for derives_all Sort Prop.
Combined Scheme derives_both from derives_ind2, derives_all_ind2.

Section Run.
  Variable tbl : table.
  Variable src : bytes.
  Variable names : names_map.
  Notation run := (run tbl src names).
  Notation step := (step tbl src names).
  Notation derives := (derives tbl src).
  Notation derives_all := (derives_all tbl src).

  (** [reach st st'] in [f] steps. *)
  Definition goes (f : nat) (st st' : pstate) : Prop :=
    forall fuel, run (f + fuel) st = run fuel st'.

  Lemma goes_0 st : goes 0 st st.
  Proof. intros fuel. reflexivity. Qed.

  Lemma goes_step st st' : step st = SNext st' -> goes 1 st st'.
  Proof. intros H fuel. simpl. rewrite H. reflexivity. Qed.

  Lemma goes_trans f g a b c : goes f a b -> goes g b c -> goes (f + g) a c.
  Proof. intros H1 H2 fuel. rewrite <- Nat.add_assoc, H1. apply H2. Qed.

  (** The characters of a terminal. *)
  Fixpoint chars_prods (p : nat) (t : bytes) (prods : list node) : list node :=
    match t with
    | [] => prods
    | _ :: t' => chars_prods (S p) t' (literal_at p (S p) :: prods)
    end.

  Lemma occurs_cons p c t :
    occurs_at src p (c :: t) <-> byte_at src p = c /\ occurs_at src (S p) t.
  Proof.
    unfold occurs_at. split.
    - intros H. split.
      + specialize (H 0). rewrite Nat.add_0_r in H. apply H. simpl. lia.
      + intros i Hi. specialize (H (S i)). simpl in H. rewrite Nat.add_succ_r in H.
        apply H. lia.
    - intros [H1 H2] [|i] Hi; [rewrite Nat.add_0_r; exact H1|].
      simpl in Hi. rewrite Nat.add_succ_r. simpl. apply H2. lia.
  Qed.

  Lemma chars_go t : forall p ops prods,
    occurs_at src p t ->
    goes (length t) (mkPS (map OpChar t ++ ops) prods p)
         (mkPS ops (chars_prods p t prods) (p + length t)).
  Proof.
    induction t as [|c t IH]; intros p ops prods H; simpl.
    - rewrite Nat.add_0_r. apply goes_0.
    - apply occurs_cons in H. destruct H as [Hc Ht].
      apply goes_trans with (f := 1) (b := mkPS (map OpChar t ++ ops)
                                   (literal_at p (S p) :: prods) (S p)).
      + apply goes_step. unfold Parser.step. simpl. unfold processChar.
        rewrite peek_byte_at, Hc, Ascii.eqb_refl. simpl.
        unfold literal_at, mk, builtinTerminal. repeat f_equal; lia.
      + rewrite <- Nat.add_succ_comm. apply IH, Ht.
  Qed.

  (** Characters are discarded when their terminal is made. *)
  Lemma pop_chars t : forall p prods childs n rest,
    pop_childs true n prods childs = Ok rest ->
    pop_childs true (length t + n) (chars_prods p t prods) childs = Ok rest.
  Proof.
    induction t as [|c t IH]; intros p prods childs n rest H; simpl chars_prods; [exact H|].
    rewrite <- (IH (S p) (literal_at p (S p) :: prods) childs (S n) rest).
    - simpl length. f_equal; lia.
    - simpl. exact H.
  Qed.

  Lemma terminal_goes t p ops prods :
    t <> [] -> occurs_at src p t ->
    goes (2 + length t) (mkPS (OpTerminal t :: ops) prods p)
         (mkPS ops (literal_at p (p + length t) :: prods) (p + length t)).
  Proof.
    intros Hn Ht.
    assert (E1 : goes 1 (mkPS (OpTerminal t :: ops) prods p)
      (mkPS (map OpChar t ++ OpFunction builtinTerminal p (length t) :: ops) prods p)).
    { apply goes_step. unfold Parser.step, processTerminal. simpl.
      rewrite push_all_app. reflexivity. }
    pose proof (chars_go t p (OpFunction builtinTerminal p (length t) :: ops) prods Ht) as E2.
    assert (E3 : goes 1
      (mkPS (OpFunction builtinTerminal p (length t) :: ops)
         (chars_prods p t prods) (p + length t))
      (mkPS ops (literal_at p (p + length t) :: prods) (p + length t))).
    { apply goes_step. unfold Parser.step, processFunction. cbn [ps_ops ps_prods ps_off].
      assert (Nat.eqb (length t) 0 = false) as -> by (destruct t; [congruence|reflexivity]).
      change (builtinTerminal =? builtinTerminal)%Z with true.
      pose proof (pop_chars t p prods [] 0 ([], prods) eq_refl) as P.
      rewrite Nat.add_0_r in P. rewrite P. reflexivity. }
    replace (2 + length t) with (1 + (length t + 1)) by lia.
    eapply goes_trans; [exact E1|]. eapply goes_trans; [exact E2|exact E3].
  Qed.

  Lemma pop_rev ts : forall prods childs,
    pop_childs false (length ts) (ts ++ prods) childs = Ok (rev ts ++ childs, prods).
  Proof.
    induction ts as [|t ts IH]; intros prods childs; simpl; [reflexivity|].
    rewrite IH, <- app_assoc. reflexivity.
  Qed.

  Lemma function_goes n p ts q ops prods :
    ts <> [] -> n <> (-1)%Z ->
    goes 1 (mkPS (OpFunction n p (length ts) :: ops) (rev ts ++ prods) q)
      (mkPS ops (mk n p q ts :: prods) q).
  Proof.
    intros Hts Hn. apply goes_step. unfold Parser.step, processFunction.
    cbn [ps_ops ps_prods ps_off].
    assert (Nat.eqb (length ts) 0 = false) as -> by (destruct ts; [congruence|reflexivity]).
    assert ((n =? builtinTerminal)%Z = false) as -> by (apply Z.eqb_neq; exact Hn).
    pose proof (pop_rev (rev ts) prods []) as P.
    rewrite rev_length, rev_involutive, app_nil_r in P. rewrite P. reflexivity.
  Qed.

  Lemma nonterminal_goes n cellops p ops prods :
    (0 <= n)%Z -> cell tbl n (byte_at src p) cellops ->
    goes 1 (mkPS (OpNonTerminal n :: ops) prods p)
      (mkPS (cellops ++ OpFunction n p (length cellops) :: ops) prods p).
  Proof.
    intros Hn (r & Hr & Hc). apply goes_step.
    unfold Parser.step, processNonTerminal, processTableNonTerminal, table_get, row_get.
    cbn [ps_ops ps_prods ps_off].
    assert ((n <? 0)%Z = false) as -> by (apply Z.ltb_ge; exact Hn).
    rewrite Hr, peek_byte_at, Hc, push_all_app. reflexivity.
  Qed.

  Lemma derives_all_length ops p ts q : derives_all ops p ts q -> length ts = length ops.
  Proof. induction 1; simpl; congruence. Qed.

  Lemma derives_goes_both :
    (forall op p t q, derives op p t q ->
       exists f, forall ops prods,
         goes (S f) (mkPS (op :: ops) prods p) (mkPS ops (t :: prods) q)) /\
    (forall ops p ts q, derives_all ops p ts q ->
       exists f, forall rest prods,
         goes f (mkPS (ops ++ rest) prods p) (mkPS rest (rev ts ++ prods) q)).
  Proof.
    apply derives_both.
    - intros t p Hn Ht. exists (1 + length t). intros ops prods. apply terminal_goes; assumption.
    - intros p. exists 1. intros ops prods.
      apply goes_trans with (f := 1) (g := 1)
        (b := mkPS (OpFunction builtinTerminal p 0 :: ops) prods p);
        apply goes_step; reflexivity.
    - intros n cellops p childs q Hn Hcell Hne Hall (f & Hf).
      exists (f + 1). intros ops prods.
      apply (goes_trans 1 (f + 1)) with (b := mkPS (cellops ++ OpFunction n p (length cellops) :: ops) prods p); [eapply nonterminal_goes; eassumption|].
      eapply goes_trans; [apply Hf|].
      rewrite <- (derives_all_length _ _ _ _ Hall). apply function_goes; [|lia].
      intros ->. apply derives_all_length in Hall. destruct cellops; [congruence|discriminate].
    - intros n p Hn Hcell. exists 1. intros ops prods.
      apply goes_trans with (f := 1) (g := 1)
        (b := mkPS (OpFunction n p 0 :: ops) prods p).
      + apply (nonterminal_goes n [] p ops prods Hn Hcell).
      + apply goes_step. reflexivity.
    - intros p Hb. exists ((2 + 1) + 1). intros ops prods.
      apply goes_trans with (f := 1)
        (b := mkPS (OpTerminal [LF] :: OpFunction (-2) p 1 :: ops) prods p).
      { apply goes_step. unfold Parser.step, processNonTerminal, processBuiltinNonTerminal.
        simpl. rewrite peek_byte_at, Hb. reflexivity. }
      apply goes_trans with (f := 2 + 1)
        (b := mkPS (OpFunction (-2) p 1 :: ops) (literal_at p (p + 1) :: prods) (p + 1)).
      { apply (terminal_goes [LF] p); [discriminate|].
        intros [|i] Hi; simpl in Hi; [rewrite Nat.add_0_r; exact Hb|lia]. }
      apply (function_goes (-2) p [literal_at p (p + 1)] (p + 1)); [discriminate|lia].
    - intros p Hb Hb2. exists ((2 + 1) + ((2 + 1) + 1)). intros ops prods.
      apply goes_trans with (f := 1)
        (b := mkPS (OpTerminal [CR] :: OpTerminal [LF] :: OpFunction (-2) p 2 :: ops) prods p).
      { apply goes_step. unfold Parser.step, processNonTerminal, processBuiltinNonTerminal.
        simpl. rewrite peek_byte_at, Hb. reflexivity. }
      apply goes_trans with (f := 2 + 1)
        (b := mkPS (OpTerminal [LF] :: OpFunction (-2) p 2 :: ops)
                   (literal_at p (p + 1) :: prods) (p + 1)).
      { apply (terminal_goes [CR] p); [discriminate|].
        intros [|i] Hi; simpl in Hi; [rewrite Nat.add_0_r; exact Hb|lia]. }
      apply goes_trans with (f := 2 + 1)
        (b := mkPS (OpFunction (-2) p 2 :: ops)
                   (literal_at (p + 1) (p + 2) :: literal_at p (p + 1) :: prods) (p + 2)).
      { replace (p + 2) with (p + 1 + 1) by lia.
        apply (terminal_goes [LF] (p + 1)); [discriminate|].
        intros [|i] Hi; simpl in Hi; [rewrite Nat.add_0_r; exact Hb2|lia]. }
      apply (function_goes (-2) p [literal_at p (p + 1); literal_at (p + 1) (p + 2)] (p + 2));
        [discriminate|lia].
    - intros p. exists 0. intros rest prods. apply goes_0.
    - intros op ops p t m ts q _ (f & Hf) _ (g & Hg). exists (S f + g). intros rest prods.
      rewrite <- app_comm_cons. eapply goes_trans; [apply Hf|]. simpl rev. rewrite <- app_assoc. simpl. apply Hg.
  Qed.

  Lemma derives_goes op p t q :
    derives op p t q ->
    exists f, forall ops prods, goes (S f) (mkPS (op :: ops) prods p) (mkPS ops (t :: prods) q).
  Proof. apply derives_goes_both. Qed.

  (** ** Failures *)

  Inductive fails : ParserOp -> nat -> nat -> perror -> Prop :=
  | f_terminal t1 c t2 p :
      occurs_at src p t1 -> byte_at src (p + length t1) <> c ->
      fails (OpTerminal (t1 ++ c :: t2)) p (p + length t1)
        (EExpectedChar c (byte_at src (p + length t1)))
  | f_no_row n p :
      (0 <= n)%Z -> map_get Z.eqb n tbl = None ->
      fails (OpNonTerminal n) p p (ENoRulesForNonTerminal (row_name names n))
  | f_no_cell n r p :
      (0 <= n)%Z -> map_get Z.eqb n tbl = Some r ->
      map_get Ascii.eqb (byte_at src p) r = None ->
      fails (OpNonTerminal n) p p (ENoRulesForByte (byte_at src p) (row_name names n))
  | f_nonterminal n ops p k e :
      (0 <= n)%Z -> cell tbl n (byte_at src p) ops -> fails_all ops p k e ->
      fails (OpNonTerminal n) p k e
  | f_eol p :
      byte_at src p <> LF -> byte_at src p <> CR ->
      fails (OpNonTerminal (-2)) p p (ENoRulesEOL (byte_at src p))
  | f_eol_cr p :
      byte_at src p = CR -> byte_at src (p + 1) <> LF ->
      fails (OpNonTerminal (-2)) p (p + 1) (EExpectedChar LF (byte_at src (p + 1)))
  | f_builtin n p :
      (n < 0)%Z -> n <> (-2)%Z -> fails (OpNonTerminal n) p p (EUnknownBuiltin n)
  with fails_all : list ParserOp -> nat -> nat -> perror -> Prop :=
  | f_head op ops p k e : fails op p k e -> fails_all (op :: ops) p k e
  | f_tail op ops p t m k e :
      derives op p t m -> fails_all ops m k e -> fails_all (op :: ops) p k e.

  Lemma nodeTypeName_eq n : nodeTypeName names n = row_name names n.
  Proof. unfold nodeTypeName, row_name, names_get. destruct names; reflexivity. Qed.

  (** [stops f st e]: the loop returns error [e] after [f] steps. *)
  Definition stops (f : nat) (st : pstate) (e : perror) : Prop :=
    forall fuel, run (f + fuel) st = (Ok (ret_err e), names).

  Lemma goes_stops f g a b e : goes f a b -> stops g b e -> stops (f + g) a e.
  Proof. intros H1 H2 fuel. rewrite <- Nat.add_assoc, H1. apply H2. Qed.

  Lemma stops_step st e : step st = SReturn (ret_err e) names -> stops 1 st e.
  Proof. intros H fuel. simpl. rewrite H. reflexivity. Qed.

  Lemma terminal_stops t1 c t2 p ops prods :
    occurs_at src p t1 -> byte_at src (p + length t1) <> c ->
    stops (2 + length t1) (mkPS (OpTerminal (t1 ++ c :: t2) :: ops) prods p)
      (EExpectedChar c (byte_at src (p + length t1))).
  Proof.
    intros H1 H2. replace (2 + length t1) with (1 + (length t1 + 1)) by lia.
    eapply goes_stops.
    { apply goes_step. unfold Parser.step, processTerminal. simpl.
      rewrite push_all_app, map_app, <- app_assoc. reflexivity. }
    eapply goes_stops; [apply chars_go, H1|].
    apply stops_step. unfold Parser.step, processChar. simpl.
    rewrite peek_byte_at.
    destruct (Ascii.eqb_spec c (byte_at src (p + length t1))) as [E|E]; [congruence|].
    reflexivity.
  Qed.

  Scheme fails_ind2 := Induction for fails Sort Prop
  with fails_all_ind2 := Induction for fails_all Sort Prop.
  Combined Scheme fails_both from fails_ind2, fails_all_ind2.

  Lemma fails_stops_both :
    (forall op p k e, fails op p k e ->
       exists f, forall ops prods, stops f (mkPS (op :: ops) prods p) e) /\
    (forall ops p k e, fails_all ops p k e ->
       exists f, forall rest prods, stops f (mkPS (ops ++ rest) prods p) e).
  Proof.
    apply fails_both.
    - intros t1 c t2 p H1 H2. eexists. intros. apply terminal_stops; assumption.
    - intros n p Hn Hr. exists 1. intros. apply stops_step.
      unfold Parser.step, processNonTerminal, processTableNonTerminal, table_get. simpl.
      assert ((n <? 0)%Z = false) as -> by (apply Z.ltb_ge; exact Hn).
      rewrite Hr, nodeTypeName_eq. reflexivity.
    - intros n r p Hn Hr Hc. exists 1. intros. apply stops_step.
      unfold Parser.step, processNonTerminal, processTableNonTerminal, table_get, row_get. simpl.
      assert ((n <? 0)%Z = false) as -> by (apply Z.ltb_ge; exact Hn).
      rewrite Hr, !peek_byte_at, Hc, nodeTypeName_eq. reflexivity.
    - intros n ops p k e Hn Hcell _ (f & Hf). exists (1 + f). intros.
      eapply goes_stops; [eapply nonterminal_goes; eassumption|]. apply Hf.
    - intros p H1 H2. exists 1. intros. apply stops_step.
      unfold Parser.step, processNonTerminal, processBuiltinNonTerminal. simpl.
      rewrite peek_byte_at. apply Ascii.eqb_neq in H1, H2. rewrite H1, H2. reflexivity.
    - intros p H1 H2. exists (1 + ((2 + 1) + (2 + 0))). intros ops prods.
      eapply goes_stops.
      { apply goes_step. unfold Parser.step, processNonTerminal, processBuiltinNonTerminal. simpl.
        rewrite peek_byte_at, H1. reflexivity. }
      eapply goes_stops.
      { apply (terminal_goes [CR] p); [discriminate|].
        intros [|i] Hi; simpl in Hi; [rewrite Nat.add_0_r; exact H1|lia]. }
      simpl length. pose proof (terminal_stops [] LF [] (p + 1)) as T. simpl length in T.
      rewrite Nat.add_0_r in T. apply T; [intros i Hi; simpl in Hi; lia|exact H2].
    - intros n p H1 H2. exists 1. intros. apply stops_step.
      unfold Parser.step, processNonTerminal, processBuiltinNonTerminal. simpl.
      assert ((n <? 0)%Z = true) as -> by (apply Z.ltb_lt; exact H1).
      assert ((n =? -2)%Z = false) as -> by (apply Z.eqb_neq; exact H2). reflexivity.
    - intros op ops p k e _ (f & Hf). exists f. intros. apply Hf.
    - intros op ops p t m k e Hd _ (g & Hg). destruct (derives_goes _ _ _ _ Hd) as (f & Hf).
      exists (S f + g). intros. rewrite <- app_comm_cons. eapply goes_stops; [apply Hf|apply Hg].
  Qed.

  (** ** Every run is explained *)

  Hypothesis public : table_public tbl.

  Definition explained (op : ParserOp) (fuel : nat) (ops : list ParserOp)
      (prods : list node) (p : nat) : Prop :=
    run fuel (mkPS (op :: ops) prods p) = (NoFuel, names) \/
    (exists t q fuel', fuel' < fuel /\ derives op p t q /\
       run fuel (mkPS (op :: ops) prods p) = run fuel' (mkPS ops (t :: prods) q)) \/
    (exists k e, fails op p k e /\
       run fuel (mkPS (op :: ops) prods p) = (Ok (ret_err e), names)).

  Definition explained_all (cellops : list ParserOp) (fuel : nat) (ops : list ParserOp)
      (prods : list node) (p : nat) : Prop :=
    run fuel (mkPS (cellops ++ ops) prods p) = (NoFuel, names) \/
    (exists ts q fuel', fuel' <= fuel /\ derives_all cellops p ts q /\
       run fuel (mkPS (cellops ++ ops) prods p) = run fuel' (mkPS ops (rev ts ++ prods) q)) \/
    (exists k e, fails_all cellops p k e /\
       run fuel (mkPS (cellops ++ ops) prods p) = (Ok (ret_err e), names)).

  Lemma explain_all fuel :
    (forall op ops prods p, op_public op = true ->
        forall fuel', fuel' <= fuel -> explained op fuel' ops prods p) ->
    forall cellops, Forall (fun op => op_public op = true) cellops ->
    forall fuel', fuel' <= fuel -> forall ops prods p, explained_all cellops fuel' ops prods p.
  Proof.
    intros IH cellops Hpub. induction Hpub as [|op cellops Hop Hrest IHc];
      intros fuel' Hf ops prods p.
    - right. left. exists [], p, fuel'. split; [lia|]. split; [constructor|reflexivity].
    - destruct (IH op (cellops ++ ops) prods p Hop fuel' Hf)
        as [H|[(t & m & f1 & Hlt & Hd & H)|(k & e & Hfl & H)]].
      + left. exact H.
      + destruct (IHc f1 ltac:(lia) ops (t :: prods) m)
          as [G|[(ts & q & f2 & Hle & Hds & G)|(k & e & Hfl & G)]].
        * left. simpl. rewrite H. exact G.
        * right. left. exists (t :: ts), q, f2. split; [lia|].
          split; [econstructor; eassumption|]. simpl. rewrite H, G, <- app_assoc. reflexivity.
        * right. right. exists k, e. split; [eapply f_tail; eassumption|].
          simpl. rewrite H. exact G.
      + right. right. exists k, e. split; [apply f_head, Hfl|]. exact H.
  Qed.

  (** A terminal matches or fails at its first wrong byte. *)
  Lemma occurs_or p t :
    occurs_at src p t \/
    exists t1 c t2, t = t1 ++ c :: t2 /\ occurs_at src p t1 /\ byte_at src (p + length t1) <> c.
  Proof.
    revert p. induction t as [|c t IH]; intros p.
    - left. intros i Hi. simpl in Hi. lia.
    - destruct (Ascii.ascii_dec (byte_at src p) c) as [E|E].
      + destruct (IH (S p)) as [H|(t1 & c' & t2 & -> & H1 & H2)].
        * left. apply occurs_cons. split; assumption.
        * right. exists (c :: t1), c', t2. split; [reflexivity|].
          split; [apply occurs_cons; split; assumption|].
          simpl length. rewrite <- Nat.add_succ_comm. exact H2.
      + right. exists [], c, t. split; [reflexivity|].
        split; [intros i Hi; simpl in Hi; lia|]. simpl. rewrite Nat.add_0_r. exact E.
  Qed.

  Lemma goes_run f a b fuel :
    goes f a b -> (fuel < f /\ fst (run fuel a) = NoFuel) \/
                  (f <= fuel /\ run fuel a = run (fuel - f) b) \/
                  (fuel < f /\ fst (run fuel a) <> NoFuel).
  Proof.
    intros H. destruct (Nat.lt_ge_cases fuel f) as [L|L].
    - destruct (run fuel a) as [[r|e|q|] m] eqn:E; simpl;
        (left; split; [exact L|reflexivity]) || (right; right; split; [exact L|discriminate]).
    - right. left. split; [exact L|]. rewrite <- (H (fuel - f)). f_equal. lia.
  Qed.

  Lemma run_mono fuel : forall st k,
    fst (run fuel st) <> NoFuel -> run (fuel + k) st = run fuel st.
  Proof.
    induction fuel as [|fuel IH]; intros st k H; simpl in *; [congruence|].
    destruct (step st); try reflexivity. apply IH, H.
  Qed.

  Lemma run_nofuel_names fuel : forall st, fst (run fuel st) = NoFuel -> snd (run fuel st) = names.
  Proof.
    induction fuel as [|fuel IH]; intros st H; simpl in *; [reflexivity|].
    destruct (step st); simpl in *; try discriminate. apply IH, H.
  Qed.

  Lemma goes_fuel f a b fuel :
    goes f a b -> (run fuel a = (NoFuel, names)) \/ (f <= fuel /\ run fuel a = run (fuel - f) b) \/
      (exists r, run fuel a = r /\ fst r <> NoFuel /\ forall g, run g b = r).
  Proof.
    intros H. destruct (goes_run f a b fuel H) as [[L E]|[[L E]|[L E]]].
    - left. rewrite (surjective_pairing (run fuel a)), E, run_nofuel_names by exact E. reflexivity.
    - right. left. split; assumption.
    - right. right. exists (run fuel a). split; [reflexivity|]. split; [exact E|].
      intros g. rewrite <- H. rewrite <- (run_mono fuel a (f + g - fuel) E).
      f_equal. lia.
  Qed.

  (** The third case of [goes_fuel] is impossible: with no fuel nothing returns. *)
  Lemma goes_cases f a b fuel :
    goes f a b -> run fuel a = (NoFuel, names) \/ (f <= fuel /\ run fuel a = run (fuel - f) b).
  Proof.
    intros H. destruct (goes_fuel f a b fuel H) as [E|[E|(r & E & N & G)]]; auto.
    specialize (G 0). simpl in G. rewrite <- G in N. simpl in N. congruence.
  Qed.

  Lemma stops_cases f a e fuel :
    stops f a e -> run fuel a = (NoFuel, names) \/ run fuel a = (Ok (ret_err e), names).
  Proof.
    intros H. destruct (run fuel a) as [r m] eqn:E.
    assert (D : r = NoFuel \/ r <> NoFuel) by (destruct r; auto; right; discriminate).
    destruct D as [->|D].
    - left. assert (snd (run fuel a) = names) as S by (apply run_nofuel_names; rewrite E; reflexivity).
      rewrite E in S. simpl in S. congruence.
    - right. rewrite <- E. rewrite <- (run_mono fuel a f) by (rewrite E; exact D).
      rewrite Nat.add_comm. apply H.
  Qed.

  Lemma terminal_explained t fuel ops prods p : explained (OpTerminal t) fuel ops prods p.
  Proof.
    unfold explained. destruct (occurs_or p t) as [H|(t1 & c & t2 & -> & H1 & H2)].
    - destruct t as [|c t].
      + assert (G : goes 2 (mkPS (OpTerminal [] :: ops) prods p)
                     (mkPS ops (mk (-1) p p [nothing_at p] :: prods) p)).
        { apply goes_trans with (f := 1) (g := 1)
            (b := mkPS (OpFunction builtinTerminal p 0 :: ops) prods p);
            apply goes_step; reflexivity. }
        destruct (goes_cases _ _ _ fuel G) as [E|[L E]]; [left; exact E|].
        right. left. do 3 eexists. split; [|split; [apply d_terminal_empty|exact E]]. lia.
      + pose proof (terminal_goes (c :: t) p ops prods ltac:(discriminate) H) as G.
        destruct (goes_cases _ _ _ fuel G) as [E|[L E]]; [left; exact E|].
        right. left. do 3 eexists.
        split; [|split; [apply d_terminal; [discriminate|exact H]|exact E]]. lia.
    - pose proof (terminal_stops t1 c t2 p ops prods H1 H2) as G.
      destruct (stops_cases _ _ _ fuel G) as [E|E]; [left; exact E|].
      right. right. do 2 eexists. split; [apply f_terminal; assumption|exact E].
  Qed.

  Lemma builtin_explained n fuel ops prods p :
    (n < 0)%Z -> explained (OpNonTerminal n) fuel ops prods p.
  Proof.
    intros Hn. unfold explained.
    assert (C : (exists t q, derives (OpNonTerminal n) p t q) \/
                (exists k e, fails (OpNonTerminal n) p k e)).
    { destruct (Z.eq_dec n (-2)) as [->|N].
      - destruct (Ascii.ascii_dec (byte_at src p) LF) as [E|E].
        + left. do 2 eexists. apply d_eol_lf, E.
        + destruct (Ascii.ascii_dec (byte_at src p) CR) as [E2|E2].
          * destruct (Ascii.ascii_dec (byte_at src (p + 1)) LF) as [E3|E3].
            -- left. do 2 eexists. apply d_eol_crlf; assumption.
            -- right. do 2 eexists. apply f_eol_cr; assumption.
          * right. do 2 eexists. apply f_eol; assumption.
      - right. do 2 eexists. apply f_builtin; assumption. }
    destruct C as [(t & q & D)|(k & e & F)].
    - destruct (derives_goes _ _ _ _ D) as (f & Hf).
      destruct (goes_cases _ _ _ fuel (Hf ops prods)) as [E|[L E]]; [left; exact E|].
      right. left. exists t, q, (fuel - S f). split; [lia|split; assumption].
    - destruct (proj1 fails_stops_both _ _ _ _ F) as (f & Hf).
      destruct (stops_cases f _ _ fuel (Hf ops prods)) as [E|E]; [left; exact E|].
      right. right. exists k, e. split; assumption.
  Qed.

  Lemma explain fuel : forall op ops prods p,
    op_public op = true -> forall fuel', fuel' <= fuel -> explained op fuel' ops prods p.
  Proof.
    induction fuel as [|fuel IH]; intros op ops prods p Hop fuel' Hf.
    - left. assert (fuel' = 0) as -> by lia. reflexivity.
    - destruct op as [n|t| | | | |]; try discriminate; [|apply terminal_explained].
      destruct (Z.lt_ge_cases n 0) as [Hn|Hn]; [apply builtin_explained; exact Hn|].
      destruct fuel' as [|fuel']; [left; reflexivity|].
      destruct (map_get Z.eqb n tbl) as [r|] eqn:Er;
        [destruct (map_get Ascii.eqb (byte_at src p) r) as [cellops|] eqn:Ec|].
      + assert (Hcell : cell tbl n (byte_at src p) cellops) by (exists r; split; assumption).
        pose proof (nonterminal_goes n cellops p ops prods Hn Hcell fuel') as H1.
        change (1 + fuel') with (S fuel') in H1. unfold explained. rewrite H1.
        destruct (explain_all fuel IH cellops (cell_public _ _ _ _ public Hcell) fuel' ltac:(lia)
                    (OpFunction n p (length cellops) :: ops) prods p)
          as [G|[(ts & q & f2 & Hle & Hds & G)|(k & e & Hfl & G)]].
        * left. exact G.
        * rewrite G. destruct f2 as [|f2]; [left; reflexivity|]. right. left.
          pose proof (derives_all_length _ _ _ _ Hds) as Hlen.
          destruct cellops as [|op cellops].
          -- destruct ts; [|discriminate]. inversion Hds; subst.
             exists (mk n q q [nothing_at q]), q, f2. split; [lia|].
             split; [apply d_nonterminal_empty; assumption|]. reflexivity.
          -- exists (mk n p q ts), q, f2. split; [lia|].
             split; [eapply d_nonterminal; [exact Hn|exact Hcell|discriminate|exact Hds]|].
             rewrite <- Hlen.
             rewrite <- (function_goes n p ts q ops prods); [reflexivity| |lia].
             intros ->. discriminate.
        * right. right. exists k, e. split; [eapply f_nonterminal; eassumption|exact G].
      + assert (F : fails (OpNonTerminal n) p p
                      (ENoRulesForByte (byte_at src p) (row_name names n)))
          by (eapply f_no_cell; eassumption).
        destruct (proj1 fails_stops_both _ _ _ _ F) as (f & Hfs).
        destruct (stops_cases f _ _ (S fuel') (Hfs ops prods)) as [E|E]; [left; exact E|].
        right. right. do 2 eexists. split; [exact F|exact E].
      + assert (F : fails (OpNonTerminal n) p p (ENoRulesForNonTerminal (row_name names n)))
          by (eapply f_no_row; eassumption).
        destruct (proj1 fails_stops_both _ _ _ _ F) as (f & Hfs).
        destruct (stops_cases f _ _ (S fuel') (Hfs ops prods)) as [E|E]; [left; exact E|].
        right. right. do 2 eexists. split; [exact F|exact E].
  Qed.

  (** ** The loop from its initial state *)

  Definition names_after (m : list (Z * bytes)) : list (Z * bytes) :=
    map_set Z.eqb builtinNothing (s2b "_nothing")
      (map_set Z.eqb builtinTerminal (s2b "_literal") m).

  Definition eos_result (t : node) : gores Empty_set preturn * names_map :=
    match names with
    | None => (Panic PanicNilMapWrite, None)
    | Some m => (Ok (mkRet (Some t) (Some (Some (names_after m))) None), Some (names_after m))
    end.

  Lemma eos_run fuel t q :
    byte_at src q = NUL -> run (S fuel) (mkPS [OpEOS] [t] q) = eos_result t.
  Proof.
    intros H. unfold Parser.run, Parser.step, processEOS, eos_result. simpl.
    rewrite peek_byte_at, H. simpl. destruct names; reflexivity.
  Qed.

  Lemma eos_fail fuel t q :
    byte_at src q <> NUL ->
    run (S fuel) (mkPS [OpEOS] [t] q) = (Ok (ret_err (EExpectedEnd (byte_at src q))), names).
  Proof.
    intros H. unfold Parser.run, Parser.step, processEOS. simpl.
    rewrite !peek_byte_at. apply Ascii.eqb_neq in H. rewrite H. reflexivity.
  Qed.

  (** Refusal, via [fails]. *)
  Definition rejects (k : nat) (e : perror) : Prop :=
    fails (OpNonTerminal 0) 0 k e \/
    (exists t, derives (OpNonTerminal 0) 0 t k /\ byte_at src k <> NUL /\
               e = EExpectedEnd (byte_at src k)).

  Lemma run_cases fuel :
    run fuel init_state = (NoFuel, names) \/
    (exists t, derives_text tbl src t /\ run fuel init_state = eos_result t) \/
    (exists k e, rejects k e /\ run fuel init_state = (Ok (ret_err e), names)).
  Proof.
    unfold init_state.
    destruct (explain fuel (OpNonTerminal 0) [OpEOS] [] 0 eq_refl fuel (le_n _))
      as [H|[(t & q & f & Hlt & Hd & H)|(k & e & Hfl & H)]].
    - left. exact H.
    - rewrite H. destruct f as [|f]; [left; reflexivity|]. right.
      destruct (Ascii.ascii_dec (byte_at src q) NUL) as [E|E].
      + left. exists t. split; [exists q; split; assumption|]. apply eos_run, E.
      + right. exists q, (EExpectedEnd (byte_at src q)).
        split; [right; exists t; auto|]. apply eos_fail, E.
    - right. right. exists k, e. split; [left; exact Hfl|exact H].
  Qed.

  Lemma derives_text_runs t :
    derives_text tbl src t -> exists f, forall fuel, f <= fuel -> run fuel init_state = eos_result t.
  Proof.
    intros (q & Hd & Hq). destruct (derives_goes _ _ _ _ Hd) as (f & Hf).
    exists (S f + 1). intros fuel Hle. unfold init_state.
    replace fuel with (S f + S (fuel - (S f + 1))) by lia.
    rewrite (Hf [OpEOS] []). apply eos_run, Hq.
  Qed.

  Lemma rejects_runs k e :
    rejects k e -> exists f, forall fuel, f <= fuel -> run fuel init_state = (Ok (ret_err e), names).
  Proof.
    intros [F|(t & Hd & Hk & ->)].
    - destruct (proj1 fails_stops_both _ _ _ _ F) as (f & Hf). exists f. intros fuel Hle.
      unfold init_state. replace fuel with (f + (fuel - f)) by lia. apply Hf.
    - destruct (derives_goes _ _ _ _ Hd) as (f & Hf).
      exists (S f + 1). intros fuel Hle. unfold init_state.
      replace fuel with (S f + S (fuel - (S f + 1))) by lia.
      rewrite (Hf [OpEOS] []). apply eos_fail, Hk.
  Qed.
End Run.
