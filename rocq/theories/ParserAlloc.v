(** * ParserAlloc: what Parse allocates, and how many rounds its loops make. *)
From Verif Require Import Base Cst Parser Spec_Parse SliceMem ParserMem Spec_Mem Spec_Size Spec_Stack Spec_Alloc
  ParserProofs ParserMemProofs ParserTime.

(** ** Heaps *)
Lemma cells_app {T} (h h' : heap T) : cells (h ++ h') = cells h + cells h'.
Proof. unfold cells. rewrite map_app, list_sum_app. reflexivity. Qed.
Lemma cells_one {T} (arr : list T) : cells [arr] = length arr.
Proof. unfold cells. cbn. lia. Qed.
Lemma cells_set {T} (h : heap T) : forall a arr arr', nth_error h a = Some arr -> length arr' = length arr ->
  cells (list_set h a arr') = cells h.
Proof.
  assert (X : forall (x : list T) l, cells (x :: l) = length x + cells l) by reflexivity.
  induction h as [|x h IH]; intros [|a] arr arr' E L; try discriminate; cbn [list_set nth_error] in *; rewrite !X.
  - injection E as ->. lia.
  - rewrite (IH a arr arr' E L). reflexivity.
Qed.
Lemma cells_write {T} (h : heap T) a i x : cells (heap_write h a i x) = cells h.
Proof.
  unfold heap_write. destruct (nth_error h a) as [arr|] eqn:E; [|reflexivity].
  eapply cells_set; [exact E|]. apply list_set_length.
Qed.
Lemma elems_le {T} (h : heap T) s : length (slice_elems h s) <= sl_len s.
Proof. unfold slice_elems. destruct (nth_error h (sl_arr s)); [rewrite firstn_length; lia|cbn; lia]. Qed.

Section Alloc.
  Variable a : nat.
  Variable grow : nat -> nat.
  Hypothesis Steady : steady a grow.

  (** A stack [s] whose arrays so far, with everything else there was ([C]
      cells), are the heap [h]; it never had more than [H] elements. *)
  Definition AI {T} (H C : nat) (h : heap T) (s : slice) : Prop :=
    cells h <= C + 5 * sl_cap s /\ sl_cap s <= a * H /\ sl_len s <= sl_cap s.

  Lemma AI_more {T} H H' C C' (h : heap T) s : AI H C h s -> H <= H' -> C <= C' -> AI H' C' h s.
  Proof. intros (A1 & A2 & A3) L L'. split; [lia|]. split; [|exact A3]. nia. Qed.
  Lemma AI_trunc {T} H C (h : heap T) s n : AI H C h s -> n <= sl_len s -> AI H C h (slice_trunc s n).
  Proof. intros (A1 & A2 & A3) L. unfold AI. cbn. lia. Qed.
  Lemma AI_nil {T} H (h : heap T) : AI H (cells h) h nil_slice.
  Proof. unfold AI. cbn. lia. Qed.

  Lemma append_alloc {T} (zero : T) H C (h : heap T) s x h' s' :
    AI H C h s -> slice_append zero grow h s [x] = (h', s') -> sl_len s + 1 <= H ->
    AI H C h' s' /\ sl_len s' = sl_len s + 1.
  Proof.
    intros (A1 & A2 & A3) E L. unfold slice_append in E. cbn [length heap_write_all] in E.
    destruct (Nat.leb_spec (sl_len s + 1) (sl_cap s)) as [K|K]; injection E as <- <-; (split; [|reflexivity]).
    - unfold AI. cbn. rewrite cells_write. lia.
    - destruct Steady as (G0 & G). destruct (G (sl_len s + 1)) as (G1 & G2); [lia|].
      set (n := sl_len s + 1) in *. set (c := Nat.max n (grow n)).
      assert (Hc : c <= a * n) by (unfold c; nia).
      unfold AI. cbn [sl_cap sl_len]. rewrite cells_app, cells_one, app_length. cbn [app length]. rewrite repeat_length.
      pose proof (elems_le h s) as Le. assert (n <= c /\ 4 * grow n <= 4 * c) by (unfold c; lia).
      assert (sl_cap s = n - 1) by (unfold n in *; lia). fold n c.
      split; [lia|]. split; [|lia]. assert (a * n <= a * H) by (apply Nat.mul_le_mono_l; exact L). lia.
  Qed.

  Lemma push_op_alloc H C m s op m' s' :
    AI H C (m_ops m) s -> push_op grow m s op = (m', s') -> sl_len s + 1 <= H ->
    AI H C (m_ops m') s' /\ sl_len s' = sl_len s + 1 /\ m_nodes m' = m_nodes m /\ m_bytes m' = m_bytes m.
  Proof.
    intros A E L. unfold push_op in E. destruct (slice_append OpNil grow (m_ops m) s [op]) as [h sl] eqn:Ea.
    injection E as <- <-. destruct (append_alloc _ _ _ _ _ _ _ _ A Ea L). auto.
  Qed.
  Lemma push_node_alloc H C m s n m' s' :
    AI H C (m_nodes m) s -> push_node grow m s n = (m', s') -> sl_len s + 1 <= H ->
    AI H C (m_nodes m') s' /\ sl_len s' = sl_len s + 1 /\ m_ops m' = m_ops m /\ m_bytes m' = m_bytes m.
  Proof.
    intros A E L. unfold push_node in E. destruct (slice_append None grow (m_nodes m) s [Some n]) as [h sl] eqn:Ea.
    injection E as <- <-. destruct (append_alloc _ _ _ _ _ _ _ _ A Ea L). auto.
  Qed.
  Lemma push_cell_alloc H C cell : forall i m s m' s', AI H C (m_ops m) s -> sl_len s + i <= H ->
    push_cell grow m cell i s = Ok (m', s') ->
    AI H C (m_ops m') s' /\ sl_len s' = sl_len s + i /\ m_nodes m' = m_nodes m /\ m_bytes m' = m_bytes m.
  Proof.
    induction i as [|i IH]; intros m s m' s' A L E; cbn [push_cell] in E.
    - injection E as <- <-. rewrite Nat.add_0_r. auto.
    - destruct (slice_get (m_ops m) cell i) as [op|]; [|discriminate].
      destruct (push_op grow m s op) as [m1 s1] eqn:E1.
      destruct (push_op_alloc _ _ _ _ _ _ _ A E1) as (A1 & L1 & N1 & B1); [lia|].
      destruct (IH _ _ _ _ A1 ltac:(lia) E) as (A2 & L2 & N2 & B2). split; [exact A2|]. split; [lia|]. split; congruence.
  Qed.
  Lemma push_chars_alloc H C : forall cs m s m' s', AI H C (m_ops m) s -> sl_len s + length cs <= H ->
    push_chars grow m cs s = (m', s') ->
    AI H C (m_ops m') s' /\ sl_len s' = sl_len s + length cs /\ m_nodes m' = m_nodes m /\ m_bytes m' = m_bytes m.
  Proof.
    induction cs as [|c cs IH]; intros m s m' s' A L E; cbn [push_chars length] in *.
    - injection E as <- <-. rewrite Nat.add_0_r. auto.
    - destruct (push_op grow m s (OpChar c)) as [m1 s1] eqn:E1.
      destruct (push_op_alloc _ _ _ _ _ _ _ A E1) as (A1 & L1 & N1 & B1); [lia|].
      destruct (IH _ _ _ _ A1 ltac:(lia) E) as (A2 & L2 & N2 & B2). split; [exact A2|]. split; [lia|]. split; congruence.
  Qed.
  Lemma pop_into_alloc d childs : forall i m s m' s', pop_into d m i s childs = Ok (m', s') ->
    cells (m_nodes m') = cells (m_nodes m) /\ m_ops m' = m_ops m /\ m_bytes m' = m_bytes m /\
    i <= sl_len s /\ s' = slice_trunc s (sl_len s - i).
  Proof.
    induction i as [|i IH]; intros m s m' s' E; cbn [pop_into] in E.
    - injection E as <- <-. rewrite Nat.sub_0_r. destruct s. auto with arith.
    - unfold pop_node in E. destruct (Nat.eqb_spec (sl_len s) 0) as [Z|Z]; [discriminate|].
      destruct (slice_get (m_nodes m) s (sl_len s - 1)) as [nd|]; [|discriminate].
      destruct (negb d).
      + unfold slice_set in E. destruct (Nat.ltb i (sl_len childs)); [|discriminate].
        destruct (IH _ _ _ _ E) as (I1 & I2 & I3 & I4 & I5).
        cbn [m_nodes m_ops m_bytes set_nodes slice_trunc sl_len sl_arr sl_off sl_cap] in *. rewrite cells_write in I1.
        repeat (split; [assumption || lia|]). rewrite I5. unfold slice_trunc. cbn [sl_len sl_arr sl_off sl_cap]. f_equal. lia.
      + destruct nd as [nd|]; [|discriminate]. destruct (negb (mn_type nd =? builtinTerminal)%Z); [discriminate|].
        destruct (IH _ _ _ _ E) as (I1 & I2 & I3 & I4 & I5).
        cbn [m_nodes m_ops m_bytes set_nodes slice_trunc sl_len sl_arr sl_off sl_cap] in *.
        repeat (split; [assumption || lia|]). rewrite I5. unfold slice_trunc. cbn [sl_len sl_arr sl_off sl_cap]. f_equal. lia.
  Qed.
End Alloc.

(** ** One iteration *)
Section Step.
  Variable a w : nat.
  Variable grow : nat -> nat.
  Hypothesis Steady : steady a grow.
  Hypothesis W2 : 2 <= w.
  Variable m0 : mem.
  Variable mtbl : mtable.
  Variable tbl : table.
  Variable msrc : slice.
  Variable text : bytes.
  Variable names : names_map.
  Hypothesis Htbl : table_in m0 mtbl tbl.
  Hypothesis Hsrc : holds (m_bytes m0) msrc text.
  Hypothesis Wid : width_at_most w tbl.
  Hypothesis Pub : table_public tbl.

  (** Operands that a run with this table meets. *)
  Definition tame (op : ParserOp) : Prop :=
    match op with OpTerminal t => length t <= w | OpFunction _ _ amount => amount <= w | _ => True end.

  Lemma step_tame st st' : Forall tame (ps_ops st) -> step tbl text names st = SNext st' -> Forall tame (ps_ops st').
  Proof.
    unfold step. destruct (ps_ops st) as [|op ops]; [discriminate|]. intros F. inversion F as [|? ? F1 F2]; subst.
    destruct op as [n|v|n p am| |c| |].
    - unfold processNonTerminal. destruct (n <? 0)%Z.
      + unfold processBuiltinNonTerminal. destruct (n =? -2)%Z; [|discriminate].
        destruct (Ascii.eqb (peek text (ps_off st)) LF).
        { intros H; injection H as <-. cbn [ps_ops]. constructor; [cbn; lia|]. constructor; [cbn; lia|exact F2]. }
        destruct (Ascii.eqb (peek text (ps_off st)) CR); [|discriminate].
        intros H; injection H as <-. cbn [ps_ops].
        constructor; [cbn; lia|]. constructor; [cbn; lia|]. constructor; [cbn; lia|exact F2].
      + unfold processTableNonTerminal. destruct (table_get n tbl) as [rw|] eqn:Et; [|discriminate].
        destruct (row_get (peek text (ps_off st)) rw) as [o|] eqn:Er; [|discriminate]. intros H; injection H as <-.
        cbn [ps_ops]. rewrite push_all_app. destruct (Wid _ _ _ _ Et Er) as [L T].
        apply Forall_app. split; [|constructor; [exact L|exact F2]].
        rewrite Forall_forall. intros op Hop. destruct op as [|t|n0 p0 a0| | | |]; cbn; auto.
        assert (P : Forall (fun op => op_public op = true) o).
        { eapply Pub; [eapply map_get_in; [apply Z.eqb_eq|exact Et]|eapply map_get_in; [apply Ascii.eqb_eq|exact Er]]. }
        rewrite Forall_forall in P. specialize (P _ Hop). discriminate.
    - unfold processTerminal. intros H; injection H as <-. cbn [ps_ops]. rewrite push_all_app.
      apply Forall_app. split; [|constructor; [exact F1|exact F2]].
      rewrite Forall_forall. intros op Hop. apply in_map_iff in Hop. destruct Hop as (c & <- & Hc). exact I.
    - unfold processFunction. destruct (Nat.eqb am 0); [intros H; injection H as <-; exact F2|].
      destruct (pop_childs (n =? builtinTerminal)%Z am (ps_prods st) []) as [[ch pr]|[]|q|]; try discriminate.
      intros H; injection H as <-; exact F2.
    - unfold processEOS. destruct (negb (Ascii.eqb (peek text (ps_off st)) NUL)); [discriminate|].
      destruct (ps_prods st); [discriminate|]. destruct names; discriminate.
    - unfold processChar. destruct (Ascii.eqb c (peek text (ps_off st))); cbn; [|discriminate].
      intros H; injection H as <-. exact F2.
    - discriminate.
    - discriminate.
  Qed.

  (** After [k] iterations: the operands, the nodes, and [ch] cells of children. *)
  Variable Co Cn : nat.
  Definition J (k : nat) (st : mstate) : Prop :=
    AI a (2 + k * w) Co (m_ops (ms_mem st)) (ms_ops st) /\ sl_len (ms_ops st) <= 2 + k * w /\
    exists ch, AI a k (Cn + ch) (m_nodes (ms_mem st)) (ms_prods st) /\
      sl_len (ms_prods st) <= k /\ sl_len (ms_prods st) + ch <= 2 * k.
  Definition bounded (k : nat) (m : mem) : Prop :=
    cells (m_ops m) <= Co + 5 * a * (2 + k * w) /\ cells (m_nodes m) <= Cn + 5 * a * k + 2 * k + w.

  Lemma AI_cells {T} H C (h : heap T) s : AI a H C h s -> cells h <= C + 5 * a * H.
  Proof. intros (A1 & A2 & _). nia. Qed.
  Lemma J_bounded k st : J k st -> bounded k (ms_mem st).
  Proof.
    intros (A & L & ch & B & L1 & L2). pose proof (AI_cells _ _ _ _ A). pose proof (AI_cells _ _ _ _ B).
    split; lia.
  Qed.
  Lemma bounded_le k k' m : bounded k m -> k <= k' -> bounded k' m.
  Proof.
    intros (A & B) L. assert (k * w <= k' * w) by (apply Nat.mul_le_mono_r; exact L).
    assert (5 * a * (2 + k * w) <= 5 * a * (2 + k' * w)) by (apply Nat.mul_le_mono_l; lia).
    assert (5 * a * k <= 5 * a * k') by (apply Nat.mul_le_mono_l; lia). split; lia.
  Qed.

  Definition step_alloc (k : nat) (r : mstepres) : Prop :=
    match r with
    | MNext st => J (S k) st
    | MReturn _ _ m | MPanic _ m => bounded (S k) m
    end.

  Lemma mstep_alloc k st pst : inv m0 st pst -> Forall tame (ps_ops pst) -> J k st ->
    step_alloc k (mstep grow mtbl msrc names st).
  Proof.
    intros (Ho & Hn & Eoff) F HJ. pose proof (J_bounded _ _ HJ) as HB.
    pose proof (bounded_le _ (S k) _ HB ltac:(lia)) as HB'.
    destruct HJ as (A & L & ch & B & L1 & L2).
    assert (A' : AI a (2 + S k * w) Co (m_ops (ms_mem st)) (ms_ops st)) by (eapply AI_more; [exact A|lia|lia]).
    assert (B' : AI a (S k) (Cn + ch) (m_nodes (ms_mem st)) (ms_prods st)) by (eapply AI_more; [exact B|lia|lia]).
    assert (KW : S k * w = w + k * w) by reflexivity.
    unfold mstep, pop_op. pose proof Ho as (U & H & O).
    destruct (ps_ops pst) as [|op ops] eqn:Eops.
    { destruct H as (_ & Ll & _). simpl in Ll. rewrite Ll. exact HB'. }
    simpl in H. destruct (holds_pop _ _ _ _ H) as (N & G & H').
    destruct (Nat.eqb_spec (sl_len (ms_ops st)) 0) as [Ez|_]; [contradiction|]. rewrite G.
    inversion F as [|? ? F1 F2]; subst.
    set (stk := slice_trunc (ms_ops st) (sl_len (ms_ops st) - 1)) in *.
    assert (As : AI a (2 + S k * w) Co (m_ops (ms_mem st)) stk) by (apply AI_trunc; [exact A'|lia]).
    assert (Ls : sl_len stk + 1 <= 2 + k * w) by (unfold stk; cbn; lia).
    assert (Keep : forall m s, AI a (2 + S k * w) Co (m_ops m) s -> sl_len s <= 2 + S k * w ->
              m_nodes m = m_nodes (ms_mem st) -> J (S k) (mkMS s (ms_prods st) (ms_off st) m)).
    { intros m s A1 Lm En. split; [exact A1|]. split; [exact Lm|]. exists ch. cbn [ms_mem ms_prods]. rewrite En.
      split; [exact B'|]. lia. }
    destruct op as [name|v|name pos amount| |c| |emb].
    - unfold mprocessNonTerminal. destruct (name <? 0)%Z.
      + unfold mprocessBuiltinNonTerminal. cbn [ms_mem ms_off ms_ops ms_prods].
        destruct (name =? -2)%Z; [|exact HB'].
        destruct (Ascii.eqb (mpeek msrc (ms_mem st) (ms_off st)) LF).
        { destruct (push_op grow (ms_mem st) stk _) as [m1 s1] eqn:E1.
          destruct (push_op_alloc a grow Steady _ _ _ _ _ _ _ As E1) as (A1 & S1 & N1 & B1); [lia|].
          destruct (push_op grow m1 s1 _) as [m2 s2] eqn:E2.
          destruct (push_op_alloc a grow Steady _ _ _ _ _ _ _ A1 E2) as (A2 & S2 & N2 & B2); [lia|].
          apply Keep; [exact A2|lia|congruence]. }
        destruct (Ascii.eqb (mpeek msrc (ms_mem st) (ms_off st)) CR); [|exact HB'].
        destruct (push_op grow (ms_mem st) stk _) as [m1 s1] eqn:E1.
        destruct (push_op_alloc a grow Steady _ _ _ _ _ _ _ As E1) as (A1 & S1 & N1 & B1); [lia|].
        destruct (push_op grow m1 s1 _) as [m2 s2] eqn:E2.
        destruct (push_op_alloc a grow Steady _ _ _ _ _ _ _ A1 E2) as (A2 & S2 & N2 & B2); [lia|].
        destruct (push_op grow m2 s2 _) as [m3 s3] eqn:E3.
        destruct (push_op_alloc a grow Steady _ _ _ _ _ _ _ A2 E3) as (A3 & S3 & N3 & B3); [lia|].
        apply Keep; [exact A3|lia|congruence].
      + unfold mprocessTableNonTerminal. cbn [ms_mem ms_off ms_ops ms_prods].
        pose proof (table_get_in _ _ _ Htbl name) as T.
        destruct (mtable_get name mtbl) as [mr|]; [|exact HB'].
        destruct (table_get name tbl) as [r|] eqn:Et; [|contradiction].
        pose proof (row_get_in _ (mpeek msrc (ms_mem st) (ms_off st)) _ _ T) as C.
        destruct (mrow_get (mpeek msrc (ms_mem st) (ms_off st)) mr) as [cell|]; [|exact HB'].
        destruct (row_get (mpeek msrc (ms_mem st) (ms_off st)) r) as [cops|] eqn:Er; [|contradiction].
        pose proof C as (_ & Lc & _). destruct (Wid _ _ _ _ Et Er) as [Lw _].
        destruct (push_op grow (ms_mem st) stk _) as [m1 s1] eqn:E1.
        destruct (push_op_alloc a grow Steady _ _ _ _ _ _ _ As E1) as (A1 & S1 & N1 & B1); [lia|].
        destruct (push_cell grow m1 cell (sl_len cell) s1) as [[m2 s2]|[]|p|] eqn:E2.
        * assert (Lx : sl_len s1 + sl_len cell <= 2 + S k * w) by lia.
          destruct (push_cell_alloc a grow Steady _ _ _ _ _ _ _ _ A1 Lx E2) as (A2 & S2 & N2 & B2).
          apply Keep; [exact A2|lia|congruence].
        * split; [apply (AI_cells _ _ _ _ A1)|]. rewrite N1. apply HB'.
        * split; [apply (AI_cells _ _ _ _ A1)|]. rewrite N1. apply HB'.
    - unfold mprocessTerminal. cbn [ms_mem ms_off ms_ops ms_prods].
      destruct (push_op grow (ms_mem st) stk _) as [m1 s1] eqn:E1.
      destruct (push_op_alloc a grow Steady _ _ _ _ _ _ _ As E1) as (A1 & S1 & N1 & B1); [lia|].
      destruct (push_chars grow m1 (rev v) s1) as [m2 s2] eqn:E2. cbn in F1.
      assert (Lx : sl_len s1 + length (rev v) <= 2 + S k * w) by (rewrite rev_length; lia).
      destruct (push_chars_alloc a grow Steady _ _ _ _ _ _ _ A1 Lx E2) as (A2 & S2 & N2 & B2).
      rewrite rev_length in S2. apply Keep; [exact A2|lia|congruence].
    - unfold mprocessFunction. cbn [ms_mem ms_off ms_ops ms_prods]. cbn in F1.
      assert (Hops : forall m, m_ops m = m_ops (ms_mem st) ->
                AI a (2 + S k * w) Co (m_ops m) stk /\ sl_len stk <= 2 + S k * w) by (intros m ->; split; [exact As|lia]).
      destruct (Nat.eqb_spec amount 0) as [Z|Z].
      + unfold heap_alloc.
        destruct (push_node grow _ (ms_prods st) _) as [m2 s2] eqn:E2.
        set (m1 := set_nodes (ms_mem st) _) in E2.
        assert (B1 : AI a (S k) (Cn + (ch + 1)) (m_nodes m1) (ms_prods st)).
        { destruct B' as (X1 & X2 & X3). split; [|split; assumption]. subst m1.
          cbn [m_nodes set_nodes]. rewrite cells_app, cells_one. cbn [length]. lia. }
        destruct (push_node_alloc a grow Steady _ _ _ _ _ _ _ B1 E2) as (A2 & S2 & N2 & _); [lia|].
        destruct (Hops m2 N2) as (P1 & P2). split; [exact P1|]. split; [exact P2|].
        exists (ch + 1). cbn [ms_mem ms_prods]. split; [exact A2|]. lia.
      + set (d := (name =? builtinTerminal)%Z).
        destruct (if negb d then let (h, s) := heap_make None (m_nodes (ms_mem st)) amount in (set_nodes (ms_mem st) h, s)
                  else (ms_mem st, nil_slice)) as [m1 childs] eqn:E1.
        assert (B1 : m_ops m1 = m_ops (ms_mem st) /\ cells (m_nodes m1) <= cells (m_nodes (ms_mem st)) + amount).
        { destruct (negb d).
          - unfold heap_make, heap_alloc in E1. injection E1 as <- _. cbn [m_nodes m_ops set_nodes].
            rewrite cells_app, cells_one, repeat_length. split; [reflexivity|lia].
          - injection E1 as <- _. split; [reflexivity|lia]. }
        destruct B1 as (O1 & C1).
        destruct (pop_into d m1 amount (ms_prods st) childs) as [[m2 s2]|[]|p|] eqn:E2.
        * destruct (pop_into_alloc d childs _ _ _ _ _ E2) as (I1 & I2 & I3 & I4 & I5).
          destruct (push_node grow m2 s2 _) as [m3 s3] eqn:E3.
          assert (B2 : AI a (S k) (Cn + (ch + amount)) (m_nodes m2) s2).
          { subst s2. apply AI_trunc; [|lia]. destruct B' as (X1 & X2 & X3). split; [lia|]. split; assumption. }
          assert (L3 : sl_len s2 = sl_len (ms_prods st) - amount) by (subst s2; reflexivity).
          destruct (push_node_alloc a grow Steady _ _ _ _ _ _ _ B2 E3) as (A2 & S2 & N2 & _); [lia|].
          destruct (Hops m3 ltac:(congruence)) as (P1 & P2). split; [exact P1|]. split; [exact P2|].
          exists (ch + amount). cbn [ms_mem ms_prods]. split; [exact A2|]. lia.
        * destruct HB as [HB1 HB2]. destruct HB' as [HB3 _]. split; [rewrite O1; exact HB3|].
          destruct B' as (X1 & X2 & X3). nia.
        * destruct HB' as [HB3 _]. split; [rewrite O1; exact HB3|].
          destruct B' as (X1 & X2 & X3). nia.
    - unfold mprocessEOS. cbn [ms_mem ms_off ms_ops ms_prods].
      destruct (negb (Ascii.eqb (mpeek msrc (ms_mem st) (ms_off st)) NUL)); [exact HB'|].
      destruct (pop_node (ms_mem st) (ms_prods st)) as [[[n x]|]|[]|p|]; try exact HB'.
      destruct names; exact HB'.
    - unfold mprocessChar. cbn [ms_mem ms_off ms_ops ms_prods].
      destruct (negb (Ascii.eqb c (mpeek msrc (ms_mem st) (ms_off st)))); [exact HB'|].
      destruct (push_node grow (ms_mem st) (ms_prods st) _) as [m2 s2] eqn:E2.
      destruct (push_node_alloc a grow Steady _ _ _ _ _ _ _ B' E2) as (A2 & S2 & N2 & _); [lia|].
      split; [cbn [ms_mem ms_ops]; rewrite N2; exact As|]. split; [cbn [ms_ops]; lia|].
      exists ch. cbn [ms_mem ms_prods]. split; [exact A2|]. lia.
    - exact HB'.
    - exact HB'.
  Qed.

  Lemma mrun_alloc fuel : forall k st pst, inv m0 st pst -> Forall tame (ps_ops pst) -> J k st ->
    bounded (k + fuel) (snd (mrun grow mtbl msrc names fuel st)).
  Proof.
    induction fuel as [|fuel IH]; intros k st pst Hi F HJ; cbn [mrun].
    - rewrite Nat.add_0_r. apply J_bounded, HJ.
    - pose proof (mstep_sim grow m0 mtbl tbl msrc text names Htbl Hsrc st pst Hi) as S.
      pose proof (mstep_alloc k st pst Hi F HJ) as A. unfold step_alloc in A.
      destruct (mstep grow mtbl msrc names st) as [st'|mr nm m|p m].
      + destruct (step tbl text names pst) as [pst'|pr pn|q] eqn:E; try contradiction.
        replace (k + Datatypes.S fuel) with (Datatypes.S k + fuel) by lia.
        eapply IH; [exact S|eapply step_tame; eassumption|exact A].
      + cbn [snd]. eapply bounded_le; [exact A|lia].
      + cbn [snd]. eapply bounded_le; [exact A|lia].
  Qed.
End Step.

(** ** Rounds *)
Lemma push_rev_t_eq rev_ops : forall stack,
  push_rev_t rev_ops stack = (length rev_ops, fold_left (fun st op => op :: st) rev_ops stack).
Proof. induction rev_ops as [|op l IH]; intros stack; cbn; [reflexivity|]. rewrite IH. reflexivity. Qed.
Lemma push_all_t_eq ops stack : push_all_t ops stack = (length ops, push_all ops stack).
Proof. unfold push_all_t, push_all. rewrite push_rev_t_eq, rev_length. reflexivity. Qed.
Lemma pop_childs_t_eq d : forall amount prods childs,
  snd (pop_childs_t d amount prods childs) = pop_childs d amount prods childs.
Proof.
  induction amount as [|i IH]; intros prods childs; cbn; [reflexivity|]. destruct prods as [|n prods]; [reflexivity|].
  destruct (negb d).
  - specialize (IH prods (n :: childs)). destruct (pop_childs_t d i prods (n :: childs)). exact IH.
  - destruct (negb (n_type n =? builtinTerminal)%Z); [reflexivity|]. specialize (IH prods childs).
    destruct (pop_childs_t d i prods childs). exact IH.
Qed.
Lemma pop_childs_t_le d : forall amount prods childs,
  fst (pop_childs_t d amount prods childs) <= 1 + length prods /\
  forall c prods', snd (pop_childs_t d amount prods childs) = Ok (c, prods') ->
    fst (pop_childs_t d amount prods childs) + length prods' = length prods.
Proof.
  induction amount as [|i IH]; intros prods childs; cbn.
  - split; [lia|]. intros c p [= _ <-]. lia.
  - destruct prods as [|n prods]; [cbn; split; [lia|discriminate]|].
    destruct (negb d).
    + specialize (IH prods (n :: childs)). destruct (pop_childs_t d i prods (n :: childs)) as [k r]. cbn in *.
      destruct IH as (I1 & I2). split; [lia|]. intros c p E. specialize (I2 _ _ E). lia.
    + destruct (negb (n_type n =? builtinTerminal)%Z); [cbn; split; [lia|discriminate]|]. specialize (IH prods childs).
      destruct (pop_childs_t d i prods childs) as [k r]. cbn in *.
      destruct IH as (I1 & I2). split; [lia|]. intros c p E. specialize (I2 _ _ E). lia.
Qed.

Section Rounds.
  Variable tbl : table.
  Variable src : bytes.
  Variable names : names_map.

  Lemma step_t_eq st : snd (step_t tbl src names st) = step tbl src names st.
  Proof.
    unfold step_t, step. destruct (ps_ops st) as [|op ops]; [reflexivity|]. destruct op as [n|v|n p a| |c| |]; try reflexivity.
    - unfold processNonTerminal_t, processNonTerminal. destruct (n <? 0)%Z; [reflexivity|].
      unfold processTableNonTerminal_t, processTableNonTerminal. destruct (table_get n tbl) as [r|]; [|reflexivity].
      destruct (row_get (peek src (ps_off st)) r) as [o|]; [|reflexivity]. rewrite push_all_t_eq. reflexivity.
    - unfold processTerminal_t, processTerminal. rewrite push_all_t_eq. reflexivity.
    - unfold processFunction_t, processFunction. destruct (Nat.eqb a 0); [reflexivity|].
      rewrite <- pop_childs_t_eq. destruct (pop_childs_t (n =? builtinTerminal)%Z a (ps_prods st) []) as [k r]. reflexivity.
  Qed.

  (** Every round is paid for by the iteration, by an operand that waits or by a
      node that is popped. *)
  Lemma step_t_rounds st :
    match step_t tbl src names st with
    | (k, SNext st') =>
        1 + k + length (ps_prods st') + length (ps_ops st) <= 3 + length (ps_prods st) + length (ps_ops st')
    | (k, _) => 1 + k <= 2 + length (ps_prods st)
    end.
  Proof.
    unfold step_t. destruct (ps_ops st) as [|op ops]; [cbn; lia|]. destruct op as [n|v|n p a| |c| |].
    - unfold processNonTerminal_t. destruct (n <? 0)%Z.
      + unfold processBuiltinNonTerminal. destruct (n =? -2)%Z; [|lia].
        destruct (Ascii.eqb (peek src (ps_off st)) LF); [cbn; lia|].
        destruct (Ascii.eqb (peek src (ps_off st)) CR); cbn; lia.
      + unfold processTableNonTerminal_t. destruct (table_get n tbl) as [r|]; [|lia].
        destruct (row_get (peek src (ps_off st)) r) as [o|]; [|lia]. rewrite push_all_t_eq. cbn [ps_ops ps_prods].
        rewrite push_all_app, app_length. cbn [length]. lia.
    - unfold processTerminal_t. rewrite push_all_t_eq. cbn [ps_ops ps_prods]. rewrite push_all_app, app_length, map_length.
      cbn [length]. lia.
    - unfold processFunction_t. destruct (Nat.eqb a 0); [cbn; lia|].
      destruct (pop_childs_t_le (n =? builtinTerminal)%Z a (ps_prods st) []) as (P1 & P2).
      destruct (pop_childs_t (n =? builtinTerminal)%Z a (ps_prods st) []) as [k [[c pr]|[]|q|]]; cbn [fst snd] in *; try lia.
      specialize (P2 _ _ eq_refl). cbn [ps_ops ps_prods length]. lia.
    - unfold processEOS. destruct (negb (Ascii.eqb (peek src (ps_off st)) NUL)); [lia|].
      destruct (ps_prods st); [lia|]. destruct names; lia.
    - unfold processChar. destruct (negb (Ascii.eqb c (peek src (ps_off st)))); [lia|]. cbn [ps_ops ps_prods length]. lia.
    - lia.
    - lia.
  Qed.

  Lemma run_t_eq fuel : forall st, snd (run_t tbl src names fuel st) = run tbl src names fuel st.
  Proof.
    induction fuel as [|fuel IH]; intros st; [reflexivity|]. cbn [run_t run]. rewrite <- step_t_eq.
    destruct (step_t tbl src names st) as [k [st'|r nm|p]]; cbn [snd]; try reflexivity.
    rewrite <- IH. destruct (run_t tbl src names fuel st'). reflexivity.
  Qed.

  (** The last state a run gets to within [fuel] iterations. *)
  Lemma run_t_rounds w : 2 <= w -> width_at_most w tbl -> table_public tbl -> forall fuel k st,
    Forall (tame w) (ps_ops st) -> length (ps_ops st) <= 2 + k * w ->
    fst (run_t tbl src names fuel st) + length (ps_ops st) <= 3 * fuel + length (ps_prods st) + (2 + (k + fuel) * w).
  Proof.
    intros W2 Wid Pub. induction fuel as [|fuel IH]; intros k st F L; cbn [run_t]; [cbn; lia|].
    pose proof (step_t_rounds st) as R. pose proof (step_t_eq st) as E.
    destruct (step_t tbl src names st) as [j [st'|r nm|p]]; cbn [snd] in E.
    - pose proof (step_tame w W2 tbl src names Wid Pub st st' F (eq_sym E)) as F'.
      assert (L' : length (ps_ops st') <= 2 + S k * w).
      { clear -L E W2 Wid F. symmetry in E. unfold step in E. destruct (ps_ops st) as [|op ops]; [discriminate|].
        inversion F as [|? ? F1 F2]; subst. cbn [length] in L. cbn [Nat.mul].
        destruct op as [n|v|n p a| |c| |]; try discriminate.
        - unfold processNonTerminal in E. destruct (n <? 0)%Z.
          + unfold processBuiltinNonTerminal in E. destruct (n =? -2)%Z; [|discriminate].
            destruct (Ascii.eqb (peek src (ps_off st)) LF); [injection E as <-; cbn; lia|].
            destruct (Ascii.eqb (peek src (ps_off st)) CR); [injection E as <-; cbn; lia|discriminate].
          + unfold processTableNonTerminal in E. destruct (table_get n tbl) as [r|] eqn:Et; [|discriminate].
            destruct (row_get (peek src (ps_off st)) r) as [o|] eqn:Er; [|discriminate]. injection E as <-.
            destruct (Wid _ _ _ _ Et Er) as [Lo _]. cbn [ps_ops]. rewrite push_all_app, app_length. cbn [length]. lia.
        - unfold processTerminal in E. injection E as <-. cbn [ps_ops]. rewrite push_all_app, app_length, map_length.
          cbn in F1. cbn [length]. lia.
        - unfold processFunction in E. destruct (Nat.eqb a 0); [injection E as <-; cbn; lia|].
          destruct (pop_childs (n =? builtinTerminal)%Z a (ps_prods st) []) as [[ch pr]|[]|q|]; try discriminate.
          injection E as <-; cbn; lia.
        - unfold processEOS in E. destruct (negb (Ascii.eqb (peek src (ps_off st)) NUL)); [discriminate|].
          destruct (ps_prods st); [discriminate|]. destruct names; discriminate.
        - unfold processChar in E. destruct (negb (Ascii.eqb c (peek src (ps_off st)))); [discriminate|].
          injection E as <-; cbn; lia. }
      specialize (IH (S k) st' F' L'). destruct (run_t tbl src names fuel st') as [j' x]. cbn [fst] in *.
      replace (k + S fuel) with (S k + fuel) by lia. lia.
    - cbn [fst]. assert (k * w <= (k + S fuel) * w) by (apply Nat.mul_le_mono_r; lia). lia.
    - cbn [fst]. assert (k * w <= (k + S fuel) * w) by (apply Nat.mul_le_mono_r; lia). lia.
  Qed.

  (** The end operand is at the bottom of the stack and nowhere else. *)
  Definition lone (ops : list ParserOp) : Prop := exists l, ops = l ++ [OpEOS] /\ Forall (fun op => op <> OpEOS) l.
  Lemma step_lone st st' : table_public tbl -> lone (ps_ops st) -> step tbl src names st = SNext st' -> lone (ps_ops st').
  Proof.
    intros Pub (l & El & F) E. unfold step in E. rewrite El in E. destruct l as [|op l]; cbn [app] in E.
    { unfold processEOS in E. destruct (negb (Ascii.eqb (peek src (ps_off st)) NUL)); [discriminate|].
      destruct (ps_prods st); [discriminate|]. destruct names; discriminate. }
    inversion F as [|? ? F1 F2]; subst.
    assert (X : forall ops', Forall (fun op => op <> OpEOS) ops' -> lone (ops' ++ l ++ [OpEOS])).
    { intros ops' F'. exists (ops' ++ l). rewrite app_assoc. split; [reflexivity|]. apply Forall_app. auto. }
    destruct op as [n|v|n p a| |c| |]; try discriminate.
    - unfold processNonTerminal in E. destruct (n <? 0)%Z.
      + unfold processBuiltinNonTerminal in E. destruct (n =? -2)%Z; [|discriminate].
        destruct (Ascii.eqb (peek src (ps_off st)) LF).
        { injection E as <-. cbn [ps_ops]. apply (X [_; _]). repeat constructor; discriminate. }
        destruct (Ascii.eqb (peek src (ps_off st)) CR); [|discriminate].
        injection E as <-. cbn [ps_ops]. apply (X [_; _; _]). repeat constructor; discriminate.
      + unfold processTableNonTerminal in E. destruct (table_get n tbl) as [r|] eqn:Et; [|discriminate].
        destruct (row_get (peek src (ps_off st)) r) as [o|] eqn:Er; [|discriminate]. injection E as <-.
        cbn [ps_ops]. rewrite push_all_app.
        assert (P : Forall (fun op => op_public op = true) o).
        { eapply Pub; [eapply map_get_in; [apply Z.eqb_eq|exact Et]|eapply map_get_in; [apply Ascii.eqb_eq|exact Er]]. }
        replace (o ++ OpFunction n (ps_off st) (length o) :: l ++ [OpEOS])
          with ((o ++ [OpFunction n (ps_off st) (length o)]) ++ l ++ [OpEOS]) by (rewrite <- app_assoc; reflexivity).
        apply X. apply Forall_app. split; [|repeat constructor; discriminate].
        eapply Forall_impl; [|exact P]. cbn. intros op Ho ->. discriminate.
    - unfold processTerminal in E. injection E as <-. cbn [ps_ops]. rewrite push_all_app.
      match goal with |- lone (?a ++ ?b :: ?c) => replace (a ++ b :: c) with ((a ++ [b]) ++ c) by (rewrite <- app_assoc; reflexivity) end.
      apply X. apply Forall_app. split; [|repeat constructor; discriminate].
      rewrite Forall_forall. intros op Ho. apply in_map_iff in Ho. destruct Ho as (c & <- & _). discriminate.
    - unfold processFunction in E. destruct (Nat.eqb a 0); [injection E as <-; apply (X []); constructor|].
      destruct (pop_childs (n =? builtinTerminal)%Z a (ps_prods st) []) as [[ch pr]|[]|q|]; try discriminate.
      injection E as <-. apply (X []). constructor.
    - contradiction F1. reflexivity.
    - unfold processChar in E. destruct (negb (Ascii.eqb c (peek src (ps_off st)))); [discriminate|].
      injection E as <-. apply (X []). constructor.
  Qed.

  Lemma run_t_success : table_public tbl -> forall fuel st t nm nm',
    lone (ps_ops st) -> run tbl src names fuel st = (Ok (mkRet (Some t) nm None), nm') ->
    fst (run_t tbl src names fuel st) + length (ps_ops st) <= 3 * fuel + length (ps_prods st).
  Proof.
    intros Pub. induction fuel as [|fuel IH]; intros st t nm nm' Lo E; [discriminate|]. cbn [run run_t] in *.
    pose proof (step_t_rounds st) as R. rewrite <- step_t_eq in E. pose proof (step_t_eq st) as Es.
    destruct (step_t tbl src names st) as [j [st'|r nm0|p]] eqn:Et; cbn [snd] in *; [| |discriminate].
    - pose proof (step_lone _ _ Pub Lo (eq_sym Es)) as Lo'. specialize (IH _ _ _ _ Lo' E).
      destruct (run_t tbl src names fuel st') as [j' x]. cbn [fst] in *. lia.
    - injection E as -> ->. cbn [fst].
      assert (length (ps_ops st) = 1 /\ j = 0) as [-> ->]; [|lia].
      destruct Lo as (l & El & F). unfold step_t in Et. rewrite El in *. clear R Es. destruct l as [|op l]; cbn [app] in Et.
      + injection Et as <- _. split; reflexivity.
      + exfalso. inversion F as [|? ? F1 F2]; subst. destruct op as [n|v|n p a| |c| |]; try discriminate.
        * unfold processNonTerminal_t in Et. destruct (n <? 0)%Z.
          { injection Et as _ Et. unfold processBuiltinNonTerminal in Et. destruct (n =? -2)%Z; [|discriminate].
            destruct (Ascii.eqb (peek src (ps_off st)) LF); [discriminate|].
            destruct (Ascii.eqb (peek src (ps_off st)) CR); discriminate. }
          unfold processTableNonTerminal_t in Et. destruct (table_get n tbl) as [r|]; [|discriminate].
          destruct (row_get (peek src (ps_off st)) r) as [o|]; [|discriminate]. rewrite push_all_t_eq in Et. discriminate.
        * unfold processTerminal_t in Et. rewrite push_all_t_eq in Et. discriminate.
        * unfold processFunction_t in Et. destruct (Nat.eqb a 0); [discriminate|].
          destruct (pop_childs_t (n =? builtinTerminal)%Z a (ps_prods st) []) as [k [[c pr]|[]|q|]]; discriminate.
        * contradiction F1; reflexivity.
        * injection Et as _ Et. unfold processChar in Et.
          destruct (negb (Ascii.eqb c (peek src (ps_off st)))); discriminate.
  Qed.
End Rounds.
