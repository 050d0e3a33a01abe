(** * Props_Int: C73, machine integers. *)
From Verif Require Import Base Ast Cst Parser ParserInt Spec_Parse Spec_Tree ParserProofs ParseApi.

Lemma wrap_id bits z : (1 <= bits)%Z -> (0 <= z <= int_max bits)%Z -> wrap bits z = z.
Proof.
  intros Hb. unfold wrap, int_max. intros [H1 H2].
  assert (E : (2 ^ bits = 2 * 2 ^ (bits - 1))%Z).
  { replace bits with (Z.succ (bits - 1))%Z at 1 by lia. apply Z.pow_succ_r. lia. }
  rewrite Z.mod_small by lia. lia.
Qed.

Lemma ipeek_peek src k : ipeek src (Z.of_nat k) = Some (peek src k).
Proof.
  unfold ipeek, peek. destruct (Z.geb_spec (Z.of_nat k) (Z.of_nat (length src))) as [L|L].
  - destruct (nth_error src k) eqn:E; [|reflexivity].
    assert (k < length src) by (apply nth_error_Some; congruence). lia.
  - destruct (Z.ltb_spec (Z.of_nat k) 0); [lia|]. rewrite Nat2Z.id.
    destruct (nth_error src k) eqn:E; [reflexivity|]. apply nth_error_None in E. lia.
Qed.

Section Sim.
  Variable bits : Z.
  Hypothesis Hb : (1 <= bits)%Z.
  Variable tbl : table.
  Variable src : bytes.
  Variable names : names_map.

  Definition istate_of (st : pstate) : istate :=
    mkIS (map iop_of (ps_ops st)) (ps_prods st) (Z.of_nat (ps_off st)).

  Definition istepres_of (s : stepres) : istepres :=
    match s with
    | SNext st => INext (istate_of st)
    | SReturn r n => IReturn r n
    | SPanic p => IPanic p
    end.

  (** The next step moves the offset only to a number an int can hold. *)
  Definition in_range (st : pstate) : Prop :=
    forall st', step tbl src names st = SNext st' -> (Z.of_nat (ps_off st') <= int_max bits)%Z.

  Lemma istep_sim st : in_range st ->
    istep bits tbl src names (istate_of st) = istepres_of (step tbl src names st).
  Proof.
    destruct st as [ops prods off]. unfold in_range, step, istep, istate_of. cbn [ps_ops ps_prods ps_off is_ops is_prods is_off].
    destruct ops as [|op ops]; [reflexivity|]. cbn [map]. intros R. destruct op as [n|v|n p a| |c| |]; cbn [iop_of].
    - unfold processNonTerminal. destruct (n <? 0)%Z.
      + unfold iBuiltinNonTerminal, processBuiltinNonTerminal, with_peek. rewrite ipeek_peek.
        destruct (n =? -2)%Z; [|reflexivity].
        destruct (Ascii.eqb (peek src off) LF); [reflexivity|]. destruct (Ascii.eqb (peek src off) CR); reflexivity.
      + unfold iTableNonTerminal, processTableNonTerminal, with_peek. rewrite ipeek_peek.
        destruct (table_get n tbl) as [rw|]; [|reflexivity]. destruct (row_get (peek src off) rw) as [o|]; [|reflexivity].
        cbn. rewrite push_all_app. unfold istate_of. cbn. rewrite map_app. reflexivity.
    - unfold iTerminal, processTerminal. cbn. rewrite push_all_app. unfold istate_of. cbn.
      rewrite map_app, map_map. reflexivity.
    - unfold iFunction, processFunction.
      replace (Z.of_nat a =? 0)%Z with (Nat.eqb a 0) by (destruct a; reflexivity).
      destruct (Nat.eqb a 0); [reflexivity|]. rewrite Nat2Z.id.
      destruct (pop_childs (n =? builtinTerminal)%Z a prods []) as [[ch pr]|[]|q|]; reflexivity.
    - unfold iEOS, processEOS, with_peek. rewrite ipeek_peek.
      destruct (negb (Ascii.eqb (peek src off) NUL)); [reflexivity|]. destruct prods; [reflexivity|]. destruct names; reflexivity.
    - unfold iChar, processChar, with_peek. rewrite ipeek_peek. cbn [step ps_ops] in R. unfold processChar in R. cbn [ps_off ps_prods] in R.
      destruct (negb (Ascii.eqb c (peek src off))) eqn:E; [reflexivity|].
      specialize (R _ eq_refl). cbn [ps_off] in R. cbn. unfold istate_of. cbn [ps_ops ps_prods ps_off].
      rewrite wrap_id by lia. replace (Z.of_nat (S off)) with (Z.of_nat off + 1)%Z by lia. reflexivity.
    - reflexivity.
    - reflexivity.
  Qed.

  (** An invariant that keeps the offset in range. *)
  Lemma irun_sim (I : nat -> pstate -> Prop)
    (Hr : forall k st, I (S k) st -> in_range st)
    (Hs : forall k st st', I (S k) st -> step tbl src names st = SNext st' -> I k st') :
    forall fuel st, I fuel st -> irun bits tbl src names fuel (istate_of st) = run tbl src names fuel st.
  Proof.
    induction fuel as [|fuel IH]; intros st H; [reflexivity|]. cbn [irun run].
    rewrite (istep_sim st (Hr _ _ H)). destruct (step tbl src names st) as [st'|r m|p] eqn:E; try reflexivity.
    cbn. apply IH. eapply Hs; eassumption.
  Qed.

  Lemma step_off st st' : step tbl src names st = SNext st' ->
    ps_off st' = ps_off st \/
    (ps_off st' = S (ps_off st) /\ exists ops, ps_ops st = OpChar (peek src (ps_off st)) :: ops).
  Proof.
    unfold step. destruct (ps_ops st) as [|op ops]; [discriminate|]. destruct op as [n|v|n p a| |c| |].
    - unfold processNonTerminal. destruct (n <? 0)%Z.
      + unfold processBuiltinNonTerminal. destruct (n =? -2)%Z; [|discriminate].
        destruct (Ascii.eqb (peek src (ps_off st)) LF); [intros H; injection H as <-; auto|].
        destruct (Ascii.eqb (peek src (ps_off st)) CR); [intros H; injection H as <-; auto|discriminate].
      + unfold processTableNonTerminal. destruct (table_get n tbl) as [rw|]; [|discriminate].
        destruct (row_get (peek src (ps_off st)) rw); [|discriminate]. intros H; injection H as <-; auto.
    - intros H; injection H as <-; auto.
    - unfold processFunction. destruct (Nat.eqb a 0); [intros H; injection H as <-; auto|].
      destruct (pop_childs (n =? builtinTerminal)%Z a (ps_prods st) []) as [[ch pr]|[]|q|]; try discriminate.
      intros H; injection H as <-; auto.
    - unfold processEOS. destruct (negb (Ascii.eqb (peek src (ps_off st)) NUL)); [discriminate|].
      destruct (ps_prods st); [discriminate|]. destruct names; discriminate.
    - unfold processChar. destruct (Ascii.eqb_spec c (peek src (ps_off st))) as [<-|]; cbn; [|discriminate].
      intros H; injection H as <-. right. split; [reflexivity|]. exists ops. reflexivity.
    - discriminate.
    - discriminate.
  Qed.

  (** No NUL is ever to be matched. *)
  Definition op_nulfree (op : ParserOp) : Prop :=
    match op with OpTerminal t => ~ In NUL t | OpChar c => c <> NUL | _ => True end.

  Lemma step_nulfree : table_public tbl -> table_nulfree tbl -> forall st st',
    Forall op_nulfree (ps_ops st) -> step tbl src names st = SNext st' -> Forall op_nulfree (ps_ops st').
  Proof.
    intros Pub Nf st st' F. unfold step. destruct (ps_ops st) as [|op ops]; [discriminate|].
    inversion F as [|? ? F1 F2]; subst. destruct op as [n|v|n p a| |c| |].
    - unfold processNonTerminal. destruct (n <? 0)%Z.
      + unfold processBuiltinNonTerminal. destruct (n =? -2)%Z; [|discriminate].
        assert (L : ~ In NUL [LF]) by (intros [X|[]]; discriminate).
        assert (C : ~ In NUL [CR]) by (intros [X|[]]; discriminate).
        destruct (Ascii.eqb (peek src (ps_off st)) LF); [intros H; injection H as <-; cbn; auto|].
        destruct (Ascii.eqb (peek src (ps_off st)) CR); [intros H; injection H as <-; cbn; auto|discriminate].
      + unfold processTableNonTerminal. destruct (table_get n tbl) as [rw|] eqn:Et; [|discriminate].
        destruct (row_get (peek src (ps_off st)) rw) as [o|] eqn:Er; [|discriminate]. intros H; injection H as <-.
        cbn [ps_ops]. rewrite push_all_app. apply Forall_app. split; [|constructor; [exact I|exact F2]].
        apply (map_get_in _ Z.eqb_eq) in Et. apply (map_get_in _ Ascii.eqb_eq) in Er.
        specialize (Pub _ _ _ _ Et Er). rewrite Forall_forall in *. intros op Hop.
        specialize (Pub op Hop). destruct op as [| | | |c| |]; cbn; auto; [|discriminate].
        exact (Nf _ _ _ _ _ Et Er Hop).
    - unfold processTerminal. intros H; injection H as <-. cbn [ps_ops]. rewrite push_all_app.
      apply Forall_app. split; [|constructor; [exact I|exact F2]]. cbn in F1.
      rewrite Forall_forall. intros op Hop. apply in_map_iff in Hop. destruct Hop as (c & <- & Hc). cbn. congruence.
    - unfold processFunction. destruct (Nat.eqb a 0); [intros H; injection H as <-; exact F2|].
      destruct (pop_childs (n =? builtinTerminal)%Z a (ps_prods st) []) as [[ch pr]|[]|q|]; try discriminate.
      intros H; injection H as <-; exact F2.
    - unfold processEOS. destruct (negb (Ascii.eqb (peek src (ps_off st)) NUL)); [discriminate|].
      destruct (ps_prods st); [discriminate|]. destruct names; discriminate.
    - unfold processChar. destruct (Ascii.eqb c (peek src (ps_off st))); cbn; [|discriminate].
      intros H; injection H as <-. exact F2.
    - discriminate.
    - discriminate.
  Qed.
End Sim.

Lemma peek_lt src k : peek src k <> NUL -> k < length src.
Proof. unfold peek. destruct (nth_error src k) eqn:E; [|congruence]. intros _. apply nth_error_Some. congruence. Qed.

Lemma iParse_eq bits fuel tbl names src :
  (forall text, fst (readSource src) = Ok text ->
     irun bits tbl text names fuel iinit_state = run tbl text names fuel init_state) ->
  iParse bits fuel (NewLL1Parser tbl names) src = Parse fuel (NewLL1Parser tbl names) src.
Proof.
  intros H. unfold iParse, Parse, NewLL1Parser. cbn [p_table p_names].
  destruct tbl as [|x tbl]; [reflexivity|]. destruct (table_get 0 (x :: tbl)); [|reflexivity].
  destruct (readSource src) as [[text|e|q|] src']; try reflexivity. cbn [fst] in H.
  rewrite (H _ eq_refl). reflexivity.
Qed.

(** ** C73: positions do not overflow. *)

(** With a table without NUL in its terminals, and a source whose length an int
    can hold, as always in Go, Parse with ints of any number of bits does what
    Parse with unbounded numbers does, however long it runs. *)
Theorem C73_no_overflow : forall bits fuel tbl names src text,
  (1 <= bits)%Z -> table_public tbl -> table_nulfree tbl ->
  delivers src text -> (Z.of_nat (length text) <= int_max bits)%Z ->
  iParse bits fuel (NewLL1Parser tbl names) src = Parse fuel (NewLL1Parser tbl names) src.
Proof.
  intros bits fuel tbl names src text Hb Pub Nf Hd Hl. apply iParse_eq. intros text' Hr.
  rewrite (readSource_delivers _ _ Hd) in Hr. injection Hr as <-.
  change iinit_state with (istate_of init_state).
  apply (irun_sim bits Hb tbl text names (fun _ st => Forall op_nulfree (ps_ops st) /\ ps_off st <= length text)).
  - intros _ st (F & L) st' E. destruct (step_off _ _ _ _ _ E) as [->|(-> & ops & Eo)]; [lia|].
    rewrite Eo in F. inversion F as [|? ? F1 _]; subst. cbn in F1. apply peek_lt in F1. lia.
  - intros _ st st' (F & L) E. split; [eapply step_nulfree; eassumption|].
    destruct (step_off _ _ _ _ _ E) as [->|(-> & ops & Eo)]; [lia|].
    rewrite Eo in F. inversion F as [|? ? F1 _]; subst. cbn in F1. apply peek_lt in F1. lia.
  - split; [repeat constructor|]. cbn. lia.
Qed.
Print Assumptions C73_no_overflow.

(** With any table and source, the same holds as long as the loop has not gone
    through more iterations than an int can count. *)
Theorem C73_no_overflow_soon : forall bits fuel tbl names src,
  (1 <= bits)%Z -> (Z.of_nat fuel <= int_max bits)%Z ->
  iParse bits fuel (NewLL1Parser tbl names) src = Parse fuel (NewLL1Parser tbl names) src.
Proof.
  intros bits fuel tbl names src Hb Hf. apply iParse_eq. intros text _.
  change iinit_state with (istate_of init_state).
  apply (irun_sim bits Hb tbl text names (fun k st => (Z.of_nat (ps_off st + k) <= int_max bits)%Z)).
  - intros k st L st' E. destruct (step_off _ _ _ _ _ E) as [->|(-> & _)]; lia.
  - intros k st st' L E. destruct (step_off _ _ _ _ _ E) as [->|(-> & _)]; lia.
  - cbn. lia.
Qed.
Print Assumptions C73_no_overflow_soon.

(** With NUL in a terminal the loop can run past the largest int: it then
    panics, where unbounded numbers would go on for ever. (Go would run out of
    memory first: every matched byte leaves a node behind.) *)
Definition nul_loop : table := [(0%Z, [(NUL, [OpTerminal [NUL]; OpNonTerminal 0])])].

Lemma nul_loop_overflow bits names : (1 <= bits)%Z -> forall d k ops prods,
  (0 <= k)%Z -> (k + Z.of_nat d = int_max bits)%Z ->
  exists fuel, fst (irun bits nul_loop [] names fuel (mkIS (INonTerminal 0 :: ops) prods k)) = Panic PanicIndex.
Proof.
  intros Hb.
  assert (E : (2 ^ bits = 2 * 2 ^ (bits - 1))%Z).
  { replace bits with (Z.succ (bits - 1))%Z at 1 by lia. apply Z.pow_succ_r. lia. }
  assert (Pz : (0 < 2 ^ (bits - 1))%Z) by (apply Z.pow_pos_nonneg; lia).
  assert (P : forall k, (0 <= k)%Z -> ipeek [] k = Some NUL).
  { intros k Hk. unfold ipeek. cbn [length]. destruct (Z.geb_spec k (Z.of_nat 0)); [reflexivity|lia]. }
  assert (R : forall k ops prods, (0 <= k)%Z -> exists ops' prods', forall fuel,
            irun bits nul_loop [] names (4 + fuel) (mkIS (INonTerminal 0 :: ops) prods k) =
            irun bits nul_loop [] names fuel (mkIS (INonTerminal 0 :: ops') prods' (wrap bits (k + 1)))).
  { intros k ops prods Hk.
    assert (S1 : istep bits nul_loop [] names (mkIS (INonTerminal 0 :: ops) prods k) =
            INext (mkIS (ITerminal [NUL] :: INonTerminal 0 :: IFunction 0 k 2 :: ops) prods k)).
    { unfold istep. cbn. unfold iTableNonTerminal, with_peek. rewrite (P k Hk). reflexivity. }
    set (ops2 := INonTerminal 0 :: IFunction 0 k 2 :: ops) in *.
    assert (S2 : istep bits nul_loop [] names (mkIS (ITerminal [NUL] :: ops2) prods k) =
            INext (mkIS (IChar NUL :: IFunction (-1) k 1 :: ops2) prods k)) by reflexivity.
    set (n3 := Node builtinTerminal k (wrap bits (k + 1)) []).
    assert (S3 : istep bits nul_loop [] names (mkIS (IChar NUL :: IFunction (-1) k 1 :: ops2) prods k) =
            INext (mkIS (IFunction (-1) k 1 :: ops2) (n3 :: prods) (wrap bits (k + 1)))).
    { unfold istep. cbn [is_ops is_prods is_off]. unfold iChar, with_peek. rewrite (P k Hk). reflexivity. }
    eexists _, _. intros fuel. cbn [Nat.add irun]. rewrite S1. cbn [irun]. rewrite S2. cbn [irun]. rewrite S3. cbn [irun].
    unfold istep at 1. cbn [is_ops is_prods is_off]. unfold iFunction. reflexivity. }
  intros d. induction d as [|d IH]; intros k ops prods Hk Hd.
  - destruct (R k ops prods Hk) as (ops' & prods' & H). exists (4 + 1). rewrite H. cbn [irun].
    unfold istep. cbn [is_ops is_prods is_off Z.ltb Z.compare]. unfold iTableNonTerminal, with_peek.
    cbn [nul_loop table_get map_get Z.eqb]. unfold ipeek. cbn [length].
    assert (W : wrap bits (k + 1) = (- 2 ^ (bits - 1))%Z).
    { unfold wrap, int_max in *. replace (k + 1 + 2 ^ (bits - 1))%Z with (2 ^ bits)%Z by lia.
      rewrite Z.mod_same by lia. lia. }
    rewrite W. destruct (Z.geb_spec (- 2 ^ (bits - 1)) (Z.of_nat 0)); [lia|].
    destruct (Z.ltb_spec (- 2 ^ (bits - 1)) 0); [reflexivity|lia].
  - destruct (R k ops prods Hk) as (ops' & prods' & H).
    rewrite wrap_id in H by lia.
    destruct (IH (k + 1)%Z ops' prods') as (fuel & F); [lia|lia|].
    exists (4 + fuel). rewrite H. exact F.
Qed.

Theorem C73_refuted_nul_terminal : forall bits, (1 <= bits)%Z ->
  (exists fuel, po_result (iParse bits fuel (NewLL1Parser nul_loop (Some [])) (SrcString [])) = Panic PanicIndex) /\
  (forall fuel, po_result (Parse fuel (NewLL1Parser nul_loop (Some [])) (SrcString [])) = NoFuel).
Proof.
  intros bits Hb. split.
  - destruct (nul_loop_overflow bits (Some []) Hb (Z.to_nat (int_max bits)) 0 [IEOS] []) as (fuel & F).
    + lia.
    + assert (0 < 2 ^ (bits - 1))%Z by (apply Z.pow_pos_nonneg; lia). unfold int_max. lia.
    + exists fuel. unfold iParse, NewLL1Parser. cbn [p_table p_names nul_loop table_get map_get Z.eqb readSource].
      unfold iinit_state.
      match goal with |- context [irun ?a ?b ?c ?d ?e ?f] => change (irun a b c d e f) with (irun bits nul_loop [] (Some []) fuel (mkIS [INonTerminal 0; IEOS] [] 0)) end.
      destruct (irun bits nul_loop [] (Some []) fuel (mkIS [INonTerminal 0; IEOS] [] 0)) as [r nm]. exact F.
  - intros fuel. unfold Parse, NewLL1Parser. cbn [p_table p_names nul_loop table_get map_get Z.eqb readSource].
    assert (G : forall fuel off ops prods,
      fst (run nul_loop [] (Some []) fuel (mkPS (OpNonTerminal 0 :: ops) prods off)) = NoFuel).
    { clear fuel. intros fuel. induction fuel as [fuel IH] using lt_wf_ind. intros off ops prods.
      assert (Pk : forall k, peek [] k = NUL) by (intros [|k]; reflexivity).
      assert (S1 : step nul_loop [] (Some []) (mkPS (OpNonTerminal 0 :: ops) prods off) =
              SNext (mkPS (OpTerminal [NUL] :: OpNonTerminal 0 :: OpFunction 0 off 2 :: ops) prods off)).
      { unfold step. cbn. unfold processNonTerminal. cbn. unfold processTableNonTerminal. rewrite Pk. reflexivity. }
      set (ops2 := OpNonTerminal 0 :: OpFunction 0 off 2 :: ops) in *.
      assert (S2 : step nul_loop [] (Some []) (mkPS (OpTerminal [NUL] :: ops2) prods off) =
              SNext (mkPS (OpChar NUL :: OpFunction (-1) off 1 :: ops2) prods off)) by reflexivity.
      set (n3 := Node builtinTerminal (Z.of_nat off) (Z.of_nat off + 1) []).
      assert (S3 : step nul_loop [] (Some []) (mkPS (OpChar NUL :: OpFunction (-1) off 1 :: ops2) prods off) =
              SNext (mkPS (OpFunction (-1) off 1 :: ops2) (n3 :: prods) (S off))).
      { unfold step. cbn [ps_ops ps_prods ps_off]. unfold processChar. rewrite Pk. reflexivity. }
      assert (S4 : step nul_loop [] (Some []) (mkPS (OpFunction (-1) off 1 :: ops2) (n3 :: prods) (S off)) =
              SNext (mkPS ops2 (Node (-1) (Z.of_nat off) (Z.of_nat (S off)) [] :: prods) (S off))) by reflexivity.
      destruct fuel as [|fuel]; [reflexivity|]. cbn [run]. rewrite S1.
      destruct fuel as [|fuel]; [reflexivity|]. cbn [run]. rewrite S2.
      destruct fuel as [|fuel]; [reflexivity|]. cbn [run]. rewrite S3.
      destruct fuel as [|fuel]; [reflexivity|]. cbn [run]. rewrite S4.
      apply IH. lia. }
    specialize (G fuel 0 [OpEOS] []). unfold init_state.
    match goal with |- context [run ?b ?c ?d ?e ?f] => change (run b c d e f) with (run nul_loop [] (Some []) fuel (mkPS [OpNonTerminal 0; OpEOS] [] 0)) end.
    destruct (run nul_loop [] (Some []) fuel (mkPS [OpNonTerminal 0; OpEOS] [] 0)) as [r nm]. exact G.
Qed.
Print Assumptions C73_refuted_nul_terminal.

(** A concrete case: ints of 4 bits hold numbers up to 7, the text has 7 bytes. *)
Definition int_case : table := [(0%Z, [("a"%char, [OpTerminal (s2b "a"); OpNonTerminal 0]); ("b"%char, [OpTerminal (s2b "b")])])].
Example C73_case :
  table_public int_case /\ table_nulfree int_case /\ (Z.of_nat (length (s2b "aaaaaab")) <= int_max 4)%Z /\
  exists t nm, po_result (iParse 4 100 (NewLL1Parser int_case (Some [])) (SrcString (s2b "aaaaaab"))) =
            Ok (mkRet (Some t) nm None) /\ n_end t = 7%Z.
Proof.
  split; [|split; [|split]].
  - intros n r c ops [H|[]] H2. injection H as <- <-. destruct H2 as [H2|[H2|[]]]; injection H2 as <- <-; repeat constructor.
  - intros n r c ops t [H|[]] H2 H3. injection H as <- <-.
    destruct H2 as [H2|[H2|[]]]; injection H2 as <- <-;
      repeat (destruct H3 as [H3|H3]; [try discriminate; injection H3 as <-; intros [X|[]]; discriminate|]); contradiction.
  - vm_compute. discriminate.
  - vm_compute. eexists _, _. split; reflexivity.
Qed.
