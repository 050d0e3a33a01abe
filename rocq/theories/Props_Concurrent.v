(** * Props_Concurrent: property C87, concurrent calls that share maps. *)
From Verif Require Import Base Cst Parser Histories Spec_Histories ConcurrentMany Spec_Concurrent Spec_Parse ParserProofs TGFirsts TreeProofs ParseApi ParseApi2 Props_Parser Props_Histories.

(** ** One call alone on a map that nobody changes *)
Section Solo.
  Variable j : job.
  Variable nm : names_map.

  Definition turn1 (ts : tstate) : tstate := match turn j ts nm with Some (ts', _) => ts' | None => ts end.
  Fixpoint solo (n : nat) (ts : tstate) : tstate := match n with O => ts | S n' => solo n' (turn1 ts) end.

  Lemma solo_add a : forall b ts, solo (a + b) ts = solo b (solo a ts).
  Proof. induction a as [|a IH]; intros b ts; cbn; [reflexivity|apply IH]. Qed.
  Lemma solo_S n ts : solo (S n) ts = turn1 (solo n ts).
  Proof. replace (S n) with (n + 1) by lia. rewrite solo_add. reflexivity. Qed.
  Lemma solo_done n : forall ts, has_returned ts -> solo n ts = ts.
  Proof. induction n as [|n IH]; intros ts H; [reflexivity|]. cbn. destruct ts; try contradiction; apply IH; exact I. Qed.
  Lemma solo_stays n m ts : n <= m -> has_returned (solo n ts) -> solo m ts = solo n ts.
  Proof. intros L H. replace m with (n + (m - n)) by lia. rewrite solo_add. apply solo_done, H. Qed.

  Lemma solo_run text fuel : forall st,
    match fst (run (j_table j) text nm fuel st) with
    | NoFuel => exists st', solo fuel (RRun text st) = RRun text st'
    | Ok r =>
        match r_tree r, r_err r with
        | Some t, _ => (exists n, n <= fuel /\ solo n (RRun text st) = RWrite1 t) /\ nm <> None
        | None, Some e =>
            exists n st', n < fuel /\ solo n (RRun text st) = RRun text st' /\
              (exists r nm', step (j_table j) text nm st' = SReturn r nm' /\ r_tree r = None /\ r_err r = Some e)
        | None, None => False
        end
    | Panic p => exists n, n <= fuel /\ solo n (RRun text st) = RPanic p
    | Err _ => False
    end.
  Proof.
    induction fuel as [|fuel IH]; intros st; cbn [run]; [exists st; reflexivity|].
    destruct (step (j_table j) text nm st) as [st'|r nm'|p] eqn:E.
    - specialize (IH st'). assert (T : forall n, solo (S n) (RRun text st) = solo n (RRun text st')).
      { intros n. cbn [solo]. unfold turn1. cbn [turn]. rewrite E. reflexivity. }
      destruct (fst (run (j_table j) text nm fuel st')) as [r|[]|p|].
      + destruct (r_tree r) as [t|].
        * destruct IH as ((n & L & H) & N). split; [|exact N]. exists (S n). rewrite T. split; [lia|exact H].
        * destruct (r_err r) as [e|]; [|exact IH]. destruct IH as (n & s & L & H & X). exists (S n), s. rewrite T. split; [lia|]. split; assumption.
      + destruct IH as (n & L & H). exists (S n). rewrite T. split; [lia|exact H].
      + destruct IH as (s & H). exists s. rewrite T. exact H.
    - cbn [fst].
      assert (Sh : (exists t m, r = mkRet (Some t) (Some (Some m)) None) \/ (exists e, r = mkRet None None (Some e))).
      { apply (run_shape (j_table j) text nm 1 st r nm'). cbn. rewrite E. reflexivity. }
      destruct Sh as [(t & m & ->)|(e & ->)]; cbn [r_tree r_err].
      + split.
        * exists 1. split; [lia|]. cbn [solo]. unfold turn1. cbn [turn]. rewrite E. reflexivity.
        * intros ->. unfold step in E. destruct (ps_ops st) as [|[n0|v|n0 ps k| |c| |e] ops]; try discriminate.
          -- unfold processNonTerminal, processBuiltinNonTerminal, processTableNonTerminal in E.
             destruct (n0 <? 0)%Z.
             ++ destruct (n0 =? -2)%Z; [|discriminate].
                destruct (Ascii.eqb _ LF); [discriminate|]. destruct (Ascii.eqb _ CR); discriminate.
             ++ destruct (table_get n0 (j_table j)) as [rw|]; [|discriminate]. destruct (row_get _ rw); discriminate.
          -- unfold processFunction in E. destruct (Nat.eqb k 0); [discriminate|].
             destruct (pop_childs (n0 =? builtinTerminal)%Z k (ps_prods st) []) as [[ch pr]| [] | |]; discriminate.
          -- unfold processEOS in E. destruct (negb _); [discriminate|]. destruct (ps_prods st); discriminate.
          -- unfold processChar in E. destruct (negb _); discriminate.
      + exists 0, st. split; [lia|]. split; [reflexivity|]. exists (mkRet None None (Some e)), nm'. auto.
    - cbn [fst]. exists 1. split; [lia|]. cbn [solo]. unfold turn1. cbn [turn]. rewrite E. reflexivity.
  Qed.

  (** A call alone and the result of Parse. *)
  Lemma solo_result fuel :
    match result fuel (j_table j) nm (j_source j) with
    | NoFuel => exists text st, solo (S fuel) RStart = RRun text st
    | Ok r =>
        match r_tree r, r_err r with
        | Some t, _ => (exists n, n <= S fuel /\ solo n RStart = RWrite1 t) /\ nm <> None
        | None, Some e =>
            (solo 1 RStart = RErr e /\ ~ names_a_row e) \/
            exists n text st', n <= fuel /\ solo n RStart = RRun text st' /\
              (exists r nm', step (j_table j) text nm st' = SReturn r nm' /\ r_tree r = None /\ r_err r = Some e)
        | None, None => False
        end
    | Panic p => exists n, n <= S fuel /\ solo n RStart = RPanic p
    | Err _ => False
    end.
  Proof.
    assert (NA : forall e, match e with EEmptyTable | ENoBaseEntry | EEmptySource | EInvalidSource | EReader _ => True | _ => False end -> ~ names_a_row e)
      by (intros e H [(n & ->)|(c & n & ->)]; exact H).
    unfold result, Parse, NewLL1Parser. cbn [p_table p_names]. destruct (j_table j) as [|x tb] eqn:Et.
    { left. cbn [solo]. unfold turn1. cbn [turn]. rewrite Et. split; [reflexivity|apply NA; exact I]. }
    destruct (table_get 0 (x :: tb)) as [rw|] eqn:E0.
    2: { left. cbn [solo]. unfold turn1. cbn [turn]. rewrite Et, E0. split; [reflexivity|apply NA; exact I]. }
    assert (T : forall text n, fst (readSource (j_source j)) = Ok text -> solo (S n) RStart = solo n (RRun text init_state)).
    { intros text n H. cbn [solo]. unfold turn1. cbn [turn]. rewrite Et, E0, H. reflexivity. }
    assert (U : forall e, fst (readSource (j_source j)) = Err e -> solo 1 RStart = RErr e).
    { intros e H. cbn [solo]. unfold turn1. cbn [turn]. rewrite Et, E0, H. reflexivity. }
    pose proof (readSource_cases (j_source j)) as C.
    destruct (readSource (j_source j)) as [[text|e|q|] s'] eqn:Er; cbn [fst] in *.
    - pose proof (solo_run text fuel init_state) as R. rewrite Et in R.
      destruct (run (x :: tb) text nm fuel init_state) as [r nm']. cbn [po_result fst] in *.
      destruct r as [r|[]|p|].
      + destruct (r_tree r) as [t|].
        * destruct R as ((n & L & H) & N). split; [|exact N]. exists (S n). rewrite (T text n eq_refl). split; [lia|exact H].
        * destruct (r_err r) as [e|]; [|exact R]. destruct R as (n & st & L & H & X). right. exists (S n), text, st.
          rewrite (T text n eq_refl). split; [lia|]. split; assumption.
      + destruct R as (n & L & H). exists (S n). rewrite (T text n eq_refl). split; [lia|exact H].
      + destruct R as (st & H). exists text, st. rewrite (T text fuel eq_refl). exact H.
    - cbn [po_result r_tree r_err ret_err]. left. split; [apply U; reflexivity|]. apply NA.
      unfold readSource in Er. destruct (j_source j) as [|u|u|[u|]|[ch [u|]]|]; cbn in Er; try discriminate; injection Er as <- _; exact I.
    - destruct C as [(t & _ & C)|(e & C & _)]; discriminate.
    - destruct C as [(t & _ & C)|(e & C & _)]; discriminate.
  Qed.
End Solo.

Section SoloEnd.
  Variable j : job.
  Variable nm : names_map.
  Notation solo := (solo j nm).
  Notation res fuel := (result fuel (j_table j) nm (j_source j)).

  Lemma solo_write1 n t : solo n RStart = RWrite1 t -> nm <> None -> solo (n + 2) RStart = RTree t.
  Proof.
    intros H N. rewrite solo_add, H. destruct nm as [m|]; [reflexivity|congruence].
  Qed.

  Lemma solo_end fuel :
    match res fuel with
    | NoFuel => exists text st, solo (S fuel) RStart = RRun text st
    | Ok r =>
        match r_tree r, r_err r with
        | Some t, _ => solo (fuel + 3) RStart = RTree t
        | None, Some e => solo (fuel + 3) RStart = RErr e
        | None, None => False
        end
    | Panic p => solo (fuel + 3) RStart = RPanic p
    | Err _ => False
    end.
  Proof.
    pose proof (solo_result j nm fuel) as R. destruct (res fuel) as [r|[]|p|]; [| |exact R].
    - destruct (r_tree r) as [t|].
      + destruct R as ((n & L & H) & N). pose proof (solo_write1 n t H N) as W.
        rewrite (solo_stays j nm (n + 2)); [exact W|lia|]. rewrite W. exact I.
      + destruct (r_err r) as [e|]; [|exact R]. destruct R as [(H & _)|(n & text & st & L & H & r' & nm' & E & Er & Ee)].
        * rewrite (solo_stays j nm 1); [exact H|lia|]. rewrite H. exact I.
        * assert (W : solo (S n) RStart = RErr e).
          { rewrite solo_S, H. unfold turn1. cbn [turn]. rewrite E, Er, Ee. reflexivity. }
          rewrite (solo_stays j nm (S n)); [exact W|lia|]. rewrite W. exact I.
    - destruct R as (n & L & H). rewrite (solo_stays j nm n); [exact H|lia|]. rewrite H. exact I.
  Qed.

  Lemma solo_back n : has_returned (solo n RStart) ->
    match res n with
    | Ok r => match r_tree r, r_err r with
              | Some t, _ => solo n RStart = RTree t
              | None, Some e => solo n RStart = RErr e
              | None, None => False
              end
    | Panic p => solo n RStart = RPanic p
    | _ => False
    end.
  Proof.
    intros H. pose proof (solo_end n) as E. rewrite (solo_stays j nm n (n + 3)) in E by (lia || exact H).
    rewrite (solo_stays j nm n (S n)) in E by (lia || exact H).
    destruct (res n) as [r|e|p|]; try exact E. destruct E as (text & st & E). rewrite E in H. exact H.
  Qed.

  Lemma res_shape fuel r : res fuel = Ok r ->
    (exists t m, r = mkRet (Some t) (Some (Some m)) None) \/ (exists e, r = mkRet None None (Some e)).
  Proof.
    unfold result, Parse, NewLL1Parser. cbn [p_table p_names]. destruct (j_table j) as [|x tb].
    { intros E. injection E as <-. right. eexists. reflexivity. }
    destruct (table_get 0 (x :: tb)).
    2: { intros E. injection E as <-. right. eexists. reflexivity. }
    destruct (readSource (j_source j)) as [[text|e|q|] s']; try discriminate.
    - destruct (run (x :: tb) text nm fuel init_state) as [o nm'] eqn:R. cbn [po_result]. intros ->.
      eapply run_shape. exact R.
    - intros E. injection E as <-. right. eexists. reflexivity.
  Qed.

  (** The end of a call that runs alone is what Parse returns. *)
  Lemma solo_outcome n ts : solo n RStart = ts ->
    match ts with
    | RTree t => exists fuel, parses_to fuel (j_table j) nm (j_source j) t
    | RErr e => exists fuel, fails_with fuel (j_table j) nm (j_source j) e
    | RPanic p => exists fuel, res fuel = Panic p
    | _ => True
    end.
  Proof.
    intros E. destruct ts as [|text st|t|t|t|e|p]; try exact I; pose proof (solo_back n) as B; rewrite E in B; specialize (B I);
      destruct (res n) as [r|e'|q|] eqn:R; try contradiction; try discriminate;
      try (destruct (res_shape n r R) as [(t' & m & ->)|(e' & ->)]; cbn in B; try discriminate; injection B as <-).
    - exists n, m. exact R.
    - exists n. exact R.
    - injection B as <-. exists n. exact R.
  Qed.

  (** Writing means success, and a nil map is never written. *)
  Lemma solo_writing n : match solo n RStart with RWrite1 _ | RWrite2 _ | RTree _ => nm <> None | _ => True end.
  Proof.
    induction n as [|n IH]; [exact I|]. rewrite solo_S. destruct (solo n RStart) as [|text st|t|t|t|e|p] eqn:E; unfold turn1; cbn [turn].
    - destruct (j_table j); [exact I|]. destruct (table_get 0 _); [|exact I]. destruct (fst (readSource (j_source j))); exact I.
    - destruct (step (j_table j) text nm st) as [st'|r nm'|p] eqn:S; [exact I| |exact I].
      destruct (r_tree r) as [t|] eqn:Et; [|destruct (r_err r); exact I].
      pose proof (solo_run j nm text 1 st) as R. cbn [run] in R. rewrite S in R. cbn [fst] in R. rewrite Et in R. apply R.
    - destruct nm; [discriminate|exact I].
    - destruct nm; [discriminate|exact I].
    - exact IH.
    - exact I.
    - exact I.
  Qed.

  Lemma solo_write_tree n t : solo n RStart = RWrite1 t \/ solo n RStart = RWrite2 t ->
    exists fuel, parses_to fuel (j_table j) nm (j_source j) t.
  Proof.
    intros H. pose proof (solo_writing n) as W.
    assert (E : exists k, solo k RStart = RTree t).
    { destruct H as [H|H]; rewrite H in W.
      - exists (n + 2). apply solo_write1; assumption.
      - exists (S n). rewrite solo_S, H. unfold turn1. cbn. destruct nm; [reflexivity|congruence]. }
    destruct E as (k & E). exact (solo_outcome k _ E).
  Qed.

  (** The map is read exactly for the errors with a row's name. *)
  Lemma access_read text st : access j (RRun text st) = Some false <->
    exists r nm' e, step (j_table j) text nm st = SReturn r nm' /\ r_tree r = None /\ r_err r = Some e /\ names_a_row e.
  Proof.
    cbn [access]. unfold step. destruct (ps_ops st) as [|[n|v|n ps k| |c| |e] ops]; (split; [intros H; try discriminate|intros (r & nm' & e' & H & Er & Ee & N)]); try discriminate.
    - destruct (n <? 0)%Z eqn:L; [discriminate|]. unfold processNonTerminal, processTableNonTerminal. rewrite L.
      destruct (table_get n (j_table j)) as [rw|].
      + destruct (row_get _ rw); [discriminate|]. do 3 eexists. split; [reflexivity|]. split; [reflexivity|]. split; [reflexivity|].
        right. do 2 eexists. reflexivity.
      + do 3 eexists. split; [reflexivity|]. split; [reflexivity|]. split; [reflexivity|]. left. eexists. reflexivity.
    - unfold processNonTerminal, processBuiltinNonTerminal, processTableNonTerminal in H. destruct (n <? 0)%Z eqn:L.
      + exfalso. destruct (n =? -2)%Z; [destruct (Ascii.eqb _ LF); [discriminate|]; destruct (Ascii.eqb _ CR); [discriminate|]|];
          injection H as <- _; cbn in Ee; injection Ee as <-; destruct N as [(x & N)|(x & y & N)]; discriminate.
      + destruct (table_get n (j_table j)) as [rw|]; [|reflexivity]. destruct (row_get _ rw); [discriminate|reflexivity].
    - unfold processFunction in H. destruct (Nat.eqb k 0); [discriminate|].
      destruct (pop_childs (n =? builtinTerminal)%Z k (ps_prods st) []) as [[ch pr]| [] | |]; discriminate.
    - exfalso. unfold processEOS in H. destruct (negb _); [injection H as <- _; injection Ee as <-; destruct N as [(x & N)|(x & y & N)]; discriminate|].
      destruct (ps_prods st); [injection H as <- _; injection Ee as <-; destruct N as [(x & N)|(x & y & N)]; discriminate|].
      destruct nm; [|discriminate]. injection H as <- _. discriminate.
    - exfalso. unfold processChar in H. destruct (negb _); [|discriminate]. injection H as <- _. injection Ee as <-. destruct N as [(x & N)|(x & y & N)]; discriminate.
  Qed.
End SoloEnd.

(** ** All calls together *)
Lemma step_agree tbl text m m' st : agree_names m m' ->
  match step tbl text m st, step tbl text m' st with
  | SNext s, SNext s' => s = s'
  | SReturn r _, SReturn r' _ => r_tree r = r_tree r' /\ r_err r = r_err r'
  | SPanic p, SPanic p' => p = p'
  | _, _ => False
  end.
Proof.
  intros Ag. unfold step. destruct (ps_ops st) as [|[n|v|n ps k| |c| |e] ops]; try reflexivity.
  - unfold processNonTerminal, processBuiltinNonTerminal, processTableNonTerminal. destruct (n <? 0)%Z eqn:L.
    + destruct (n =? -2)%Z; [|split; reflexivity]. destruct (Ascii.eqb _ LF); [reflexivity|]. destruct (Ascii.eqb _ CR); [reflexivity|split; reflexivity].
    + apply Z.ltb_ge in L. rewrite (typeName_agree m m' Ag n L). destruct (table_get n tbl) as [r|]; [|split; reflexivity].
      destruct (row_get _ r); [reflexivity|split; reflexivity].
  - unfold processFunction. destruct (Nat.eqb k 0); [reflexivity|].
    destruct (pop_childs (n =? builtinTerminal)%Z k (ps_prods st) []) as [[ch pr]| [] | |]; reflexivity.
  - unfold processEOS. destruct (negb _); [split; reflexivity|]. destruct (ps_prods st); [split; reflexivity|].
    destruct m, m'; try contradiction; [split; reflexivity|reflexivity].
  - unfold processChar. destruct (negb _); [split; reflexivity|reflexivity].
Qed.

Lemma turn_agree j ts m m' : agree_names m m' -> turn1 j m ts = turn1 j m' ts.
Proof.
  intros Ag. unfold turn1. destruct ts as [|text st|t|t|t|e|p]; cbn [turn]; try reflexivity.
  - pose proof (step_agree (j_table j) text m m' st Ag) as S.
    destruct (step (j_table j) text m st), (step (j_table j) text m' st); try contradiction; [congruence| |congruence].
    destruct S as (-> & ->). reflexivity.
  - destruct m, m'; try contradiction; reflexivity.
  - destruct m, m'; try contradiction; reflexivity.
Qed.

Section All.
  Variable jobs : list job.
  Variable maps : list (list (Z * bytes)).

  Definition on_map (c : config) (x : nat) (P : tstate -> Prop) : Prop :=
    exists i j ts, nth_error jobs i = Some j /\ nth_error (c_calls c) i = Some ts /\ j_map j = Some x /\ P ts.
  Definition wrote1 (ts : tstate) : Prop := match ts with RWrite2 _ | RTree _ => True | _ => False end.
  Definition wrote2 (ts : tstate) : Prop := match ts with RTree _ => True | _ => False end.

  Record map_inv (c : config) (x : nat) (m0 m : list (Z * bytes)) : Prop := mkMapInv {
    mi_agree : agree m0 m;
    mi_literal : on_map c x wrote1 -> map_get Z.eqb (-1)%Z m = Some (s2b "_literal");
    mi_nothing : on_map c x wrote2 -> map_get Z.eqb (-2)%Z m = Some (s2b "_nothing");
    mi_clean : ~ on_map c x wrote1 -> m = m0;
    mi_one : map_get Z.eqb (-1)%Z m = map_get Z.eqb (-1)%Z m0 \/ map_get Z.eqb (-1)%Z m = Some (s2b "_literal");
    mi_two : map_get Z.eqb (-2)%Z m = map_get Z.eqb (-2)%Z m0 \/ map_get Z.eqb (-2)%Z m = Some (s2b "_nothing") }.

  Record conf_inv (sched : list nat) (c : config) : Prop := mkConfInv {
    ci_len : length (c_calls c) = length jobs;
    ci_calls : forall i j, nth_error jobs i = Some j ->
      nth_error (c_calls c) i = Some (solo j (map_of maps j) (turns_of i sched) RStart);
    ci_maps : forall x, match nth_error maps x, nth_error (c_maps c) x with
                        | Some m0, Some m => map_inv c x m0 m
                        | None, None => True
                        | _, _ => False
                        end }.

  Lemma put_same ms j : put_map ms j (map_of ms j) = ms.
  Proof.
    unfold put_map, map_of. destruct (j_map j) as [x|]; [|reflexivity]. revert x.
    induction ms as [|m ms IH]; intros [|x]; cbn; try reflexivity. specialize (IH x). destruct (nth_error ms x); [congruence|reflexivity].
  Qed.

  Lemma turns_snoc i sched k : turns_of i (sched ++ [k]) = turns_of i sched + (if Nat.eqb i k then 1 else 0).
  Proof.
    unfold turns_of. rewrite count_occ_app. cbn. destruct (Nat.eq_dec k i) as [E|N], (Nat.eqb_spec i k); try lia; congruence.
  Qed.

  Lemma map_of_agree sched c j : conf_inv sched c -> agree_names (map_of maps j) (map_of (c_maps c) j).
  Proof.
    intros I. unfold map_of. destruct (j_map j) as [x|]; [|exact Logic.I]. pose proof (ci_maps _ _ I x) as M.
    destruct (nth_error maps x), (nth_error (c_maps c) x); try contradiction; [apply M|exact Logic.I].
  Qed.

  Lemma conf_step sched c k : conf_inv sched c -> conf_inv (sched ++ [k]) (take_turn jobs c k).
  Proof.
    intros I. pose proof I as [Il Ic Im]. unfold take_turn.
    destruct (nth_error jobs k) as [j|] eqn:Ej.
    2: { split; [exact Il| |exact Im]. intros i j H. rewrite turns_snoc, (Ic i j H).
         destruct (Nat.eqb_spec i k) as [->|_]; [congruence|]. rewrite Nat.add_0_r. reflexivity. }
    rewrite (Ic k j Ej). set (ts := solo j (map_of maps j) (turns_of k sched) RStart).
    pose proof (map_of_agree sched c j I) as Ag.
    pose proof (turn_agree j ts _ _ Ag) as Tn.
    assert (Nx : solo j (map_of maps j) (turns_of k (sched ++ [k])) RStart = turn1 j (map_of (c_maps c) j) ts).
    { rewrite turns_snoc, Nat.eqb_refl, Nat.add_1_r, solo_S. exact Tn. }
    destruct (turn j ts (map_of (c_maps c) j)) as [[ts' nm]|] eqn:Et.
    2: { split; [exact Il| |exact Im]. intros i j' H. rewrite (Ic i j' H). f_equal. destruct (Nat.eq_dec i k) as [E|N].
         - rewrite E in H |- *. rewrite Ej in H. injection H as <-. rewrite Nx. unfold turn1. rewrite Et. reflexivity.
         - rewrite turns_snoc. destruct (Nat.eqb_spec i k); [congruence|]. rewrite Nat.add_0_r. reflexivity. }
    assert (C' : forall i j', nth_error jobs i = Some j' ->
      nth_error (replace (c_calls c) k ts') i = Some (solo j' (map_of maps j') (turns_of i (sched ++ [k])) RStart)).
    { intros i j' H. rewrite replace_nth. destruct (Nat.eqb_spec k i) as [E|N].
      - rewrite <- E in H |- *. rewrite (Ic k j Ej). cbn. rewrite Ej in H. injection H as <-. rewrite Nx. unfold turn1. rewrite Et. reflexivity.
      - rewrite (Ic i j' H), turns_snoc. destruct (Nat.eqb_spec i k); [congruence|]. rewrite Nat.add_0_r. reflexivity. }
    split; cbn [c_calls c_maps]; [rewrite replace_length; exact Il|exact C'|].
    (* who has written *)
    assert (O : forall x (P : tstate -> Prop), on_map (mkConfig (replace (c_calls c) k ts') (put_map (c_maps c) j nm)) x P <->
      (j_map j = Some x /\ P ts') \/ (exists i j' s, i <> k /\ nth_error jobs i = Some j' /\ nth_error (c_calls c) i = Some s /\ j_map j' = Some x /\ P s)).
    { intros x P. split.
      - intros (i & j' & s & A & B & Cc & D). cbn in B. rewrite replace_nth in B. destruct (Nat.eqb_spec k i) as [<-|N].
        + left. rewrite Ej in A. injection A as <-. rewrite (Ic k j Ej) in B. cbn in B. injection B as <-. auto.
        + right. exists i, j', s. auto.
      - intros [(A & B)|(i & j' & s & N & A & B & Cc & D)].
        + exists k, j, ts'. split; [exact Ej|]. split; [cbn; rewrite replace_nth, Nat.eqb_refl, (Ic k j Ej); reflexivity|]. auto.
        + exists i, j', s. split; [exact A|]. split; [cbn; rewrite replace_nth; destruct (Nat.eqb_spec k i); [congruence|exact B]|]. auto. }
    assert (O0 : forall x (P : tstate -> Prop), on_map c x P <->
      (j_map j = Some x /\ P ts) \/ (exists i j' s, i <> k /\ nth_error jobs i = Some j' /\ nth_error (c_calls c) i = Some s /\ j_map j' = Some x /\ P s)).
    { intros x P. split.
      - intros (i & j' & s & A & B & Cc & D). destruct (Nat.eq_dec k i) as [<-|N].
        + left. rewrite Ej in A. injection A as <-. rewrite (Ic k j Ej) in B. injection B as <-. auto.
        + right. exists i, j', s. auto.
      - intros [(A & B)|(i & j' & s & N & A & B & Cc & D)].
        + exists k, j, ts. split; [exact Ej|]. split; [exact (Ic k j Ej)|]. auto.
        + exists i, j', s. auto. }
    (* turns that do not write *)
    assert (Q : nm = map_of (c_maps c) j -> (wrote1 ts' <-> wrote1 ts) -> (wrote2 ts' <-> wrote2 ts) ->
      forall x, match nth_error maps x, nth_error (put_map (c_maps c) j nm) x with
                | Some m0, Some m => map_inv (mkConfig (replace (c_calls c) k ts') (put_map (c_maps c) j nm)) x m0 m
                | None, None => True | _, _ => False end).
    { intros -> W1 W2 x. specialize (Im x). rewrite put_same in *. destruct (nth_error maps x), (nth_error (c_maps c) x); try contradiction; [|exact Logic.I].
      assert (E1 : on_map (mkConfig (replace (c_calls c) k ts') (c_maps c)) x wrote1 <-> on_map c x wrote1) by (rewrite O, O0, W1; reflexivity).
      assert (E2 : on_map (mkConfig (replace (c_calls c) k ts') (c_maps c)) x wrote2 <-> on_map c x wrote2) by (rewrite O, O0, W2; reflexivity).
      destruct Im. split; rewrite ?E1, ?E2; assumption. }
    pose proof (solo_writing j (map_of maps j) (turns_of k sched)) as Wr. fold ts in Wr.
    destruct ts as [|text st|t|t|t|e|p] eqn:Ets; cbn [turn] in Et; try discriminate.
    - injection Et as <- <-. apply Q; [reflexivity| |]; (destruct (j_table j); [reflexivity|]; destruct (table_get 0 _); [|reflexivity];
        destruct (fst (readSource (j_source j))); reflexivity).
    - injection Et as <- <-. apply Q; [reflexivity| |]; (destruct (step (j_table j) text (map_of (c_maps c) j) st) as [?|r ?|?]; try reflexivity;
        destruct (r_tree r); [reflexivity|]; destruct (r_err r); reflexivity).
    - (* the first write *)
      destruct (map_of (c_maps c) j) as [mj|] eqn:Em; injection Et as <- <-; [|apply Q; reflexivity].
      unfold map_of in Em. destruct (j_map j) as [y|] eqn:Ey; [|discriminate]. intros x. specialize (Im x). unfold put_map in *. rewrite Ey in *.
      rewrite replace_nth. destruct (Nat.eqb_spec y x) as [->|N].
      + rewrite Em in *. cbn [option_map]. destruct (nth_error maps x) as [m0|]; [|contradiction]. destruct Im as [Ia I1 I2 I3 I4 I5].
        split.
        * intros z N1 N2. rewrite (map_get_set Z.eqb Z.eqb_eq). destruct (Z.eqb_spec z builtinTerminal) as [->|_]; [destruct (N1 eq_refl)|apply Ia; assumption].
        * intros _. rewrite (map_get_set Z.eqb Z.eqb_eq). reflexivity.
        * rewrite (map_get_set Z.eqb Z.eqb_eq). intros H. apply I2. apply O in H. apply O0. destruct H as [(_ & [])|H]; right; exact H.
        * intros H. destruct H. apply O. left. split; [reflexivity|exact Logic.I].
        * right. rewrite (map_get_set Z.eqb Z.eqb_eq). reflexivity.
        * rewrite (map_get_set Z.eqb Z.eqb_eq). exact I5.
      + destruct (nth_error maps x) as [m0|], (nth_error (c_maps c) x) as [m|]; try contradiction; [|exact Logic.I].
        assert (E : forall P, on_map (mkConfig (replace (c_calls c) k (RWrite2 t)) (replace (c_maps c) y (map_set Z.eqb builtinTerminal (s2b "_literal") mj))) x P <-> on_map c x P).
        { intros P. rewrite O, O0. split; (intros [(A & _)|A]; [congruence|right; exact A]). }
        destruct Im. split; rewrite ?E; assumption.
    - (* the second write *)
      destruct (map_of (c_maps c) j) as [mj|] eqn:Em; injection Et as <- <-.
      2: { exfalso. apply Wr. destruct (map_of maps j); [destruct Ag|reflexivity]. }
      unfold map_of in Em. destruct (j_map j) as [y|] eqn:Ey; [|discriminate]. intros x. specialize (Im x). unfold put_map in *. rewrite Ey in *.
      rewrite replace_nth. destruct (Nat.eqb_spec y x) as [->|N].
      + rewrite Em in *. cbn [option_map]. destruct (nth_error maps x) as [m0|]; [|contradiction]. destruct Im as [Ia I1 I2 I3 I4 I5].
        assert (L1 : map_get Z.eqb (-1)%Z mj = Some (s2b "_literal")).
        { apply I1. apply O0. left. split; [reflexivity|exact Logic.I]. }
        split.
        * intros z N1 N2. rewrite (map_get_set Z.eqb Z.eqb_eq). destruct (Z.eqb_spec z builtinNothing) as [->|_]; [destruct (N2 eq_refl)|apply Ia; assumption].
        * intros _. rewrite (map_get_set Z.eqb Z.eqb_eq). exact L1.
        * intros _. rewrite (map_get_set Z.eqb Z.eqb_eq). reflexivity.
        * intros H. destruct H. apply O. left. split; [reflexivity|exact Logic.I].
        * right. rewrite (map_get_set Z.eqb Z.eqb_eq). exact L1.
        * right. rewrite (map_get_set Z.eqb Z.eqb_eq). reflexivity.
      + destruct (nth_error maps x) as [m0|], (nth_error (c_maps c) x) as [m|]; try contradiction; [|exact Logic.I].
        assert (E : forall P, on_map (mkConfig (replace (c_calls c) k (RTree t)) (replace (c_maps c) y (map_set Z.eqb builtinNothing (s2b "_nothing") mj))) x P <-> on_map c x P).
        { intros P. rewrite O, O0. split; (intros [(A & _)|A]; [congruence|right; exact A]). }
        destruct Im. split; rewrite ?E; assumption.
  Qed.

  Lemma conf_all sched : conf_inv sched (after_turns jobs maps sched).
  Proof.
    induction sched as [|k sched IH] using rev_ind.
    - split; cbn.
      + apply map_length.
      + intros i j H. rewrite nth_error_map, H. reflexivity.
      + intros x. destruct (nth_error maps x) as [m|]; [|exact I].
        assert (N : forall P : tstate -> Prop, ~ P RStart -> ~ on_map (all_start jobs maps) x P).
        { intros P NP (i & j & ts & A & B & _ & D). cbn in B. rewrite nth_error_map, A in B. injection B as <-. contradiction. }
        split; [intros z _ _; reflexivity| | |reflexivity|left; reflexivity|left; reflexivity].
        * intros H. destruct (N wrote1 (fun h => h) H).
        * intros H. destruct (N wrote2 (fun h => h) H).
    - unfold after_turns. rewrite fold_left_app. apply conf_step, IH.
  Qed.
End All.

Lemma turns_app i a b : turns_of i (a ++ b) = turns_of i a + turns_of i b.
Proof. apply count_occ_app. Qed.
Lemma turns_repeat i k n : turns_of i (repeat k n) = if Nat.eqb i k then n else 0.
Proof.
  unfold turns_of. induction n as [|n IH]; cbn; [destruct (Nat.eqb i k); reflexivity|].
  destruct (Nat.eq_dec k i), (Nat.eqb_spec i k); try congruence; rewrite IH; reflexivity.
Qed.

(** ** C87 *)

(** Whatever the schedule and whatever maps are shared, a call returns what it
    returns alone. *)
Theorem C87_results :
  forall jobs maps sched i j ts,
    nth_error jobs i = Some j -> nth_error (c_calls (after_turns jobs maps sched)) i = Some ts ->
    match ts with
    | RTree t => alone_tree maps j t
    | RErr e => alone_error maps j e
    | RPanic p => alone_panic maps j p
    | _ => True
    end.
Proof.
  intros jobs maps sched i j ts Ej Et. rewrite (ci_calls _ _ _ _ (conf_all jobs maps sched) i j Ej) in Et.
  injection Et as Et. exact (solo_outcome j (map_of maps j) _ ts Et).
Qed.
Print Assumptions C87_results.

(** Nobody waits for anybody: a call that alone returns within [fuel] iterations
    has returned when it has had [fuel + 3] turns, whatever the others did. *)
Theorem C87_no_waiting :
  forall jobs maps sched i j fuel,
    nth_error jobs i = Some j ->
    result fuel (j_table j) (names_given maps j) (j_source j) <> NoFuel ->
    fuel + 3 <= turns_of i sched ->
    exists ts, nth_error (c_calls (after_turns jobs maps sched)) i = Some ts /\ has_returned ts.
Proof.
  intros jobs maps sched i j fuel Ej R L. change (names_given maps j) with (map_of maps j) in R. eexists. split; [exact (ci_calls _ _ _ _ (conf_all jobs maps sched) i j Ej)|].
  pose proof (solo_end j (map_of maps j) fuel) as E.
  assert (H : has_returned (solo j (map_of maps j) (fuel + 3) RStart)).
  { destruct (result fuel (j_table j) (map_of maps j) (j_source j)) as [r|[]|p|]; [| |congruence].
    - destruct (r_tree r); [rewrite E; exact I|]. destruct (r_err r); [rewrite E; exact I|destruct E].
    - rewrite E. exact I. }
  rewrite (solo_stays j (map_of maps j) (fuel + 3)); assumption.
Qed.
Print Assumptions C87_no_waiting.

(** What becomes of the naming maps: only the names of -1 and -2 ever change,
    and when all calls have returned a map has these two names if a call on it
    has succeeded, and is as it was if none has. *)
Theorem C87_maps :
  forall jobs maps sched x m0,
    nth_error maps x = Some m0 ->
    exists m, nth_error (c_maps (after_turns jobs maps sched)) x = Some m /\
      (forall k, map_get Z.eqb k m = map_get Z.eqb k m0 \/
         k = (-1)%Z /\ map_get Z.eqb k m = Some (s2b "_literal") \/
         k = (-2)%Z /\ map_get Z.eqb k m = Some (s2b "_nothing")) /\
      (Forall has_returned (c_calls (after_turns jobs maps sched)) ->
        ((exists i j t, nth_error jobs i = Some j /\ j_map j = Some x /\
            nth_error (c_calls (after_turns jobs maps sched)) i = Some (RTree t)) ->
          forall k, map_get Z.eqb k m =
            if (k =? -1)%Z then Some (s2b "_literal")
            else if (k =? -2)%Z then Some (s2b "_nothing") else map_get Z.eqb k m0) /\
        ((~ exists i j t, nth_error jobs i = Some j /\ j_map j = Some x /\
            nth_error (c_calls (after_turns jobs maps sched)) i = Some (RTree t)) -> m = m0)).
Proof.
  intros jobs maps sched x m0 E0. pose proof (conf_all jobs maps sched) as I0. pose proof (ci_maps _ _ _ _ I0 x) as M.
  rewrite E0 in M. destruct (nth_error (c_maps (after_turns jobs maps sched)) x) as [m|]; [|contradiction].
  exists m. split; [reflexivity|]. destruct M as [Ia I1 I2 I3 I4 I5]. split.
  - intros k. destruct (Z.eq_dec k (-1)) as [->|N1]; [destruct I4 as [I4|I4]; auto|].
    destruct (Z.eq_dec k (-2)) as [->|N2]; [destruct I5 as [I5|I5]; auto|]. left. symmetry. apply Ia; assumption.
  - intros F. split.
    + intros (i & j & t & Ej & Ex & Et) k.
      assert (On : forall P : tstate -> Prop, P (RTree t) -> on_map jobs (after_turns jobs maps sched) x P)
        by (intros P H; exists i, j, (RTree t); auto).
      destruct (Z.eqb_spec k (-1)) as [->|N1]; [apply I1, On; exact I|].
      destruct (Z.eqb_spec k (-2)) as [->|N2]; [apply I2, On; exact I|]. symmetry. apply Ia; assumption.
    + intros N. apply I3. intros (i & j & ts & Ej & Et & Ex & W). apply N.
      rewrite Forall_forall in F. specialize (F ts (nth_error_In _ _ Et)).
      destruct ts as [| | | |t| |]; try contradiction. exists i, j, t. auto.
Qed.
Print Assumptions C87_maps.

(** Exactly when there is a schedule with a data race: when two calls have the
    same naming map, one of them succeeds, and the other succeeds too or fails
    with an error that names a row. *)
Theorem C87_race :
  forall jobs maps,
    (exists sched, race jobs (after_turns jobs maps sched)) <->
    exists i k ji jk x t,
      i <> k /\ nth_error jobs i = Some ji /\ nth_error jobs k = Some jk /\
      j_map ji = Some x /\ j_map jk = Some x /\
      alone_tree maps ji t /\
      ((exists t', alone_tree maps jk t') \/ (exists e, names_a_row e /\ alone_error maps jk e)).
Proof.
  assert (W : forall maps j t, alone_tree maps j t -> exists n, access j (solo j (map_of maps j) n RStart) = Some true).
  { intros maps j t (fuel & m & H). pose proof (solo_result j (map_of maps j) fuel) as R. change (names_given maps j) with (map_of maps j) in H. rewrite H in R. cbn in R.
    destruct R as ((n & _ & R) & _). exists n. rewrite R. reflexivity. }
  assert (W' : forall maps j n, access j (solo j (map_of maps j) n RStart) = Some true -> exists t, alone_tree maps j t).
  { intros maps j n H. destruct (solo j (map_of maps j) n RStart) as [|text st|t|t|t|e|p] eqn:E; cbn [access] in H; try discriminate.
    - destruct (ps_ops st) as [|[z| | | | | |] ?]; try discriminate. destruct (z <? 0)%Z; [discriminate|].
      destruct (table_get z (j_table j)) as [r|]; [|discriminate]. destruct (row_get _ r); discriminate.
    - exists t. exact (solo_write_tree j (map_of maps j) n t (or_introl E)).
    - exists t. exact (solo_write_tree j (map_of maps j) n t (or_intror E)). }
  intros jobs maps. split.
  - intros (sched & i & k & ji & jk & si & sk & x & b & N & Ei & Ek & Si & Sk & Xi & Xk & Ai & Ak).
    pose proof (conf_all jobs maps sched) as I0.
    rewrite (ci_calls _ _ _ _ I0 i ji Ei) in Si. injection Si as <-. rewrite (ci_calls _ _ _ _ I0 k jk Ek) in Sk. injection Sk as Sk.
    destruct (W' _ _ _ Ai) as (t & Ht). exists i, k, ji, jk, x, t. repeat (split; [assumption|]). destruct b.
    + left. rewrite <- Sk in Ak. exact (W' _ _ _ Ak).
    + right. destruct sk as [|text st|t0|t0|t0|e|p]; try discriminate.
      apply (access_read jk (map_of maps jk)) in Ak. destruct Ak as (r & nm' & e & St & Er & Ee & Na). exists e. split; [exact Na|].
      apply (solo_outcome jk (map_of maps jk) (S (turns_of k sched)) (RErr e)). rewrite solo_S, Sk. unfold turn1. cbn [turn]. rewrite St, Er, Ee. reflexivity.
  - intros (i & k & ji & jk & x & t & N & Ei & Ek & Xi & Xk & Ti & O).
    destruct (W _ _ _ Ti) as (ni & Ai).
    assert (A : exists nk b, access jk (solo jk (map_of maps jk) nk RStart) = Some b).
    { destruct O as [(t' & T')|(e & Na & fuel & F)].
      - destruct (W _ _ _ T') as (nk & Ak). exists nk, true. exact Ak.
      - pose proof (solo_result jk (map_of maps jk) fuel) as R. unfold fails_with in F. change (names_given maps jk) with (map_of maps jk) in F. rewrite F in R. cbn in R.
        destruct R as [(_ & R)|(n & text & st & _ & R & r & nm' & St & Er & Ee)]; [contradiction|].
        exists n, false. rewrite R. apply (access_read jk (map_of maps jk)). exists r, nm', e. auto. }
    destruct A as (nk & b & Ak). exists (repeat i ni ++ repeat k nk).
    set (sched := repeat i ni ++ repeat k nk).
    assert (Ri : turns_of i sched = ni).
    { unfold sched. rewrite turns_app, !turns_repeat, Nat.eqb_refl. destruct (Nat.eqb_spec i k), (Nat.eqb_spec k i); congruence || lia. }
    assert (Rk : turns_of k sched = nk).
    { unfold sched. rewrite turns_app, !turns_repeat, Nat.eqb_refl. destruct (Nat.eqb_spec i k), (Nat.eqb_spec k i); congruence || lia. }
    pose proof (conf_all jobs maps sched) as I0. pose proof (ci_calls _ _ _ _ I0 i ji Ei) as Ci. pose proof (ci_calls _ _ _ _ I0 k jk Ek) as Ck.
    rewrite Ri in Ci. rewrite Rk in Ck.
    exists i, k, ji, jk. do 2 eexists. exists x, b. repeat (split; [eassumption|]). exact Ak.
Qed.
Print Assumptions C87_race.

(** In particular: calls with naming maps of their own never race, even if they
    share the table. *)
Theorem C87_separate :
  forall jobs maps sched,
    (forall i k ji jk x, nth_error jobs i = Some ji -> nth_error jobs k = Some jk ->
       j_map ji = Some x -> j_map jk = Some x -> i = k) ->
    ~ race jobs (after_turns jobs maps sched).
Proof.
  intros jobs maps sched H (i & k & ji & jk & si & sk & x & b & N & Ei & Ek & _ & _ & Xi & Xk & _).
  apply N. eapply H; eassumption.
Qed.
Print Assumptions C87_separate.

(** Three calls: two on one map, of which one fails with an error that names a
    row, and one on a map of its own. *)
Definition three : list job :=
  [mkJob ex_table (Some 0) (SrcString ex_text); mkJob ex_table (Some 0) (SrcString (s2b "az"));
   mkJob ex_table (Some 1) (SrcString (s2b "abxz"))].
Definition two_maps : list (list (Z * bytes)) := [ex_names; []].
Example C87_case :
  map (fun ts => match ts with RTree _ => 1 | RErr _ => 2 | _ => 0 end)
    (c_calls (after_turns three two_maps (flat_map (fun _ => [0; 1; 2]) (seq 0 60)))) = [1; 2; 2] /\
  (exists sched, race three (after_turns three two_maps sched)) /\
  (forall sched, ~ race (skipn 1 three) (after_turns (skipn 1 three) two_maps sched)) /\
  nth_error (c_calls (after_turns three two_maps (flat_map (fun _ => [0; 1; 2]) (seq 0 60)))) 1 =
    Some (RErr (ENoRulesForByte "z" (s2b "list"))).
Proof.
  split; [vm_compute; reflexivity|]. split; [|split; [|vm_compute; reflexivity]].
  - apply C87_race. exists 0, 1. do 2 eexists. exists 0, ex_tree. split; [discriminate|]. do 4 (split; [reflexivity|]). split.
    + exists 100. eexists. vm_compute. reflexivity.
    + right. exists (ENoRulesForByte "z" (s2b "list")). split; [right; do 2 eexists; reflexivity|]. exists 100. vm_compute. reflexivity.
  - intros sched. apply C87_separate. intros [|[|[|i]]] [|[|[|k]]] ji jk x; cbn; intros Ei Ek Xi Xk; try discriminate; try reflexivity;
      injection Ei as <-; injection Ek as <-; cbn in *; congruence.
Qed.
