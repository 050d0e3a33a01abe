From Verif Require Import Base Cst Parser Spec_Parse ParserProofs TreeProofs ParseApi Concurrent.

Section Proofs.
  Variable tbl : table.
  Variable m : list (Z * bytes).

  Definition m1 := map_set Z.eqb builtinTerminal (s2b "_literal") m.
  Definition shared_ok (nm : names_map) : Prop :=
    nm = Some m \/ nm = Some m1 \/ nm = Some (names_after m).

  (** Outside the loop's last step the map's extra entries are invisible. *)
  Lemma row_name_shared nm n :
    shared_ok nm -> (0 <= n)%Z -> row_name nm n = row_name (Some m) n.
  Proof.
    intros [->|[->| ->]] Hn; [reflexivity| |apply row_name_after, Hn].
    unfold row_name, m1. rewrite map_set_get.
    assert ((n =? builtinTerminal)%Z = false) as -> by (apply Z.eqb_neq; unfold builtinTerminal; lia).
    reflexivity.
  Qed.

  Definition same_step (a b : stepres) : Prop :=
    match a, b with
    | SNext s, SNext s' => s = s'
    | SReturn r _, SReturn r' _ => r_tree r = r_tree r' /\ r_err r = r_err r'
    | SPanic p, SPanic p' => p = p'
    | _, _ => False
    end.

  Lemma step_shared text nm st :
    shared_ok nm -> same_step (step tbl text nm st) (step tbl text (Some m) st).
  Proof.
    intros Hs. unfold step. destruct (ps_ops st) as [|op ops]; [reflexivity|].
    destruct op as [n|t|n p a| |c| |]; try reflexivity.
    - unfold processNonTerminal, processBuiltinNonTerminal, processTableNonTerminal.
      destruct (Z.ltb_spec n 0) as [Hn|Hn].
      + destruct (n =? -2)%Z; [|split; reflexivity].
        destruct (Ascii.eqb (peek text (ps_off st)) LF); [reflexivity|].
        destruct (Ascii.eqb (peek text (ps_off st)) CR); [reflexivity|split; reflexivity].
      + rewrite !nodeTypeName_eq, (row_name_shared nm) by assumption.
        destruct (table_get n tbl); [|split; reflexivity].
        destruct (row_get (peek text (ps_off st)) r); [reflexivity|split; reflexivity].
    - unfold processFunction. destruct (Nat.eqb a 0); [reflexivity|].
      destruct (pop_childs (n =? builtinTerminal)%Z a (ps_prods st) []) as [[? ?]| | |]; reflexivity.
    - unfold processEOS. destruct (negb (Ascii.eqb (peek text (ps_off st)) NUL)); [split; reflexivity|].
      destruct (ps_prods st); [split; reflexivity|].
      destruct nm as [x|]; [split; reflexivity|].
      destruct Hs as [H|[H|H]]; discriminate.
    - unfold processChar.
      destruct (negb (Ascii.eqb c (peek text (ps_off st)))); [split; reflexivity|reflexivity].
  Qed.

  (** [alone text st]: the call running alone on a fresh map reaches [st]. *)
  Inductive alone (text : bytes) : pstate -> Prop :=
  | al_init : alone text init_state
  | al_step st st' : alone text st -> step tbl text (Some m) st = SNext st' -> alone text st'.

  Lemma alone_goes text st : alone text st -> exists f, goes tbl text (Some m) f init_state st.
  Proof.
    induction 1 as [|st st' _ (f & IH) H]; [exists 0; apply goes_0|].
    exists (f + 1). eapply goes_trans; [exact IH|]. apply goes_step, H.
  Qed.

  Definition returns_alone (text : bytes) (r : option node * option perror) : Prop :=
    exists fuel nm, fst (run tbl text (Some m) fuel init_state) = Ok (mkRet (fst r) nm (snd r)).

  Definition thread_ok (th : thread) : Prop :=
    match th with
    | TRun text st => alone text st
    | TWrite1 text t | TWrite2 text t | TTree text t => returns_alone text (Some t, None)
    | TErr text e => returns_alone text (None, Some e)
    | TPanic text p => exists fuel, fst (run tbl text (Some m) fuel init_state) = Panic p
    end.

  (** How far the shared map has come. *)
  Definition wrote1 (th : thread) : Prop :=
    match th with TWrite2 _ _ | TTree _ _ => True | _ => False end.
  Definition map_ok (ths : list thread) (nm : names_map) : Prop :=
    shared_ok nm /\
    ((exists text t, In (TWrite2 text t) ths) -> nm = Some m1 \/ nm = Some (names_after m)) /\
    ((exists text t, In (TTree text t) ths) -> nm = Some (names_after m)) /\
    ((forall th, In th ths -> ~ wrote1 th) -> nm = Some m).

  Lemma in_mid {A} (l1 : list A) x l2 y : In y (l1 ++ x :: l2) <-> y = x \/ In y (l1 ++ l2).
  Proof. rewrite !in_app_iff. simpl. intuition. Qed.

  Lemma m1_set : map_set Z.eqb builtinTerminal (s2b "_literal") m1 = m1.
  Proof. apply map_set_idem. unfold m1. rewrite map_set_get, Z.eqb_refl. reflexivity. Qed.
  Lemma after_set1 : map_set Z.eqb builtinTerminal (s2b "_literal") (names_after m) = names_after m.
  Proof. apply map_set_idem. rewrite names_after_get. reflexivity. Qed.
  Lemma after_set2 : map_set Z.eqb builtinNothing (s2b "_nothing") (names_after m) = names_after m.
  Proof. apply map_set_idem. rewrite names_after_get. reflexivity. Qed.
  Lemma m1_after : map_set Z.eqb builtinNothing (s2b "_nothing") m1 = names_after m.
  Proof. reflexivity. Qed.

  Definition inv (c : conc) : Prop :=
    Forall thread_ok (fst c) /\ map_ok (fst c) (snd c).

  Lemma step_inv a b : inv a -> conc_step tbl a b -> inv b.
  Proof.
    intros [HF (Hsh & Hm & Ht & Hz)] Hstep.
    destruct Hstep as [l1 th l2 nm th' nm' Hts]. cbn [fst snd] in *.
    apply Forall_app in HF. destruct HF as [HF1 HF2].
    inversion HF2 as [|? ? Hth HF3]; subst.
    assert (Rebuild : thread_ok th' -> map_ok (l1 ++ th' :: l2) nm' ->
                      inv (l1 ++ th' :: l2, nm')).
    { intros A B. split; [|exact B]. apply Forall_app. split; [exact HF1|]. constructor; assumption. }
    (* steps that leave the map alone and do not reach TWrite2/TTree *)
    assert (Quiet : nm' = nm ->
       (match th with TRun _ _ => True | _ => False end) ->
       ~ wrote1 th' -> map_ok (l1 ++ th' :: l2) nm').
    { intros -> C1 C2. split; [exact Hsh|]. split; [|split].
      - intros (text & t & Hx). apply Hm. exists text, t. apply in_mid in Hx.
        destruct Hx as [E|Hx]; [subst th'; destruct C2; exact I|]. apply in_mid. right. exact Hx.
      - intros (text & t & Hx). apply Ht. exists text, t. apply in_mid in Hx.
        destruct Hx as [E|Hx]; [subst th'; destruct C2; exact I|]. apply in_mid. right. exact Hx.
      - intros A. apply Hz. intros x Hx. apply in_mid in Hx. destruct Hx as [->|Hx].
        + destruct th; auto.
        + apply A, in_mid. right. exact Hx. }
    inversion Hts; subst.
    - (* next *)
      apply Rebuild; [|apply Quiet; simpl; auto].
      pose proof (step_shared text nm' st Hsh) as S. rewrite H in S.
      destruct (step tbl text (Some m) st) eqn:E; try (destruct S; fail). simpl in S. subst.
      simpl in *. econstructor; eassumption.
    - (* error *)
      apply Rebuild; [|apply Quiet; simpl; auto].
      pose proof (step_shared text nm' st Hsh) as S. rewrite H in S.
      destruct (step tbl text (Some m) st) as [|r nm2|] eqn:E; try (destruct S; fail).
      simpl in S, Hth. destruct S as [S1 S2]. destruct (alone_goes _ _ Hth) as (f & Hf).
      exists (f + 1). simpl. exists (r_names r). rewrite Hf. simpl. rewrite E.
      destruct r; simpl in *. subst. reflexivity.
    - (* found *)
      apply Rebuild; [|apply Quiet; simpl; auto].
      pose proof (step_shared text nm' st Hsh) as S. rewrite H in S.
      destruct (step tbl text (Some m) st) as [|r nm2|] eqn:E; try (destruct S; fail).
      simpl in S, Hth. destruct S as [S1 S2]. destruct (alone_goes _ _ Hth) as (f & Hf).
      assert (R : run tbl text (Some m) (f + 1) init_state = (Ok r, nm2))
        by (rewrite Hf; simpl; rewrite E; reflexivity).
      exists (f + 1). simpl. exists (r_names r). rewrite R. simpl.
      destruct (run_shape _ _ _ _ _ _ _ R) as [(t' & m' & ->)|(e & ->)]; simpl in *; [|discriminate].
      congruence.
    - (* panic *)
      apply Rebuild; [|apply Quiet; simpl; auto].
      pose proof (step_shared text nm' st Hsh) as S. rewrite H in S.
      destruct (step tbl text (Some m) st) as [| |q] eqn:E; try (destruct S; fail).
      simpl in S, Hth. subst q. destruct (alone_goes _ _ Hth) as (f & Hf).
      exists (f + 1). rewrite Hf. simpl. rewrite E. reflexivity.
    - (* write 1 *)
      rename m0 into x. apply Rebuild; [exact Hth|].
      assert (X : map_set Z.eqb builtinTerminal (s2b "_literal") x = m1 \/
                  (x = names_after m /\ map_set Z.eqb builtinTerminal (s2b "_literal") x = names_after m)).
      { destruct Hsh as [E|[E|E]]; injection E as ->; [left; reflexivity|left; apply m1_set|].
        right. split; [reflexivity|apply after_set1]. }
      split; [|split; [|split]].
      + destruct X as [->|[_ ->]]; [right; left|right; right]; reflexivity.
      + intros _. destruct X as [->|[_ ->]]; [left|right]; reflexivity.
      + intros (text' & t' & Hx). apply in_mid in Hx. destruct Hx as [E|Hx]; [discriminate|].
        assert (E : Some x = Some (names_after m)).
        { apply Ht. exists text', t'. apply in_mid. right. exact Hx. }
        injection E as ->. rewrite after_set1. reflexivity.
      + intros A. destruct (A (TWrite2 text t)); [|exact I]. apply in_mid. left. reflexivity.
    - (* write 2 *)
      rename m0 into x. apply Rebuild; [exact Hth|].
      assert (X : map_set Z.eqb builtinNothing (s2b "_nothing") x = names_after m).
      { destruct Hm as [E|E].
        - exists text, t. apply in_mid. left. reflexivity.
        - injection E as ->. reflexivity.
        - injection E as ->. apply after_set2. }
      rewrite X. split; [right; right; reflexivity|]. split; [right; reflexivity|].
      split; [reflexivity|]. intros A. destruct (A (TTree text t)); [|exact I].
      apply in_mid. left. reflexivity.
  Qed.

  Lemma init_inv texts : inv (conc_init texts m).
  Proof.
    split.
    - apply Forall_forall. intros th Hth. apply in_map_iff in Hth.
      destruct Hth as (text & <- & _). constructor.
    - assert (N : forall th, In th (map (fun text => TRun text init_state) texts) -> ~ wrote1 th).
      { intros th Hth. apply in_map_iff in Hth. destruct Hth as (text & <- & _). intros []. }
      split; [left; reflexivity|]. split; [|split; [|reflexivity]].
      + intros (text & t & H). destruct (N _ H). exact I.
      + intros (text & t & H). destruct (N _ H). exact I.
  Qed.

  Lemma steps_inv a b : inv a -> conc_steps tbl a b -> inv b.
  Proof. intros H S. induction S as [|a b c _ IH St]; [exact H|]. eapply step_inv; [apply IH, H|exact St]. Qed.

  (** A thread keeps its text. *)
  Definition text_of_thread (th : thread) : bytes :=
    match th with
    | TRun t _ | TWrite1 t _ | TWrite2 t _ | TTree t _ | TErr t _ | TPanic t _ => t
    end.
  Lemma step_texts a b :
    conc_step tbl a b -> map text_of_thread (fst b) = map text_of_thread (fst a).
  Proof.
    intros [l1 th l2 nm th' nm' H]. simpl. rewrite !map_app. simpl. f_equal. f_equal.
    inversion H; reflexivity.
  Qed.
  Lemma steps_texts a b :
    conc_steps tbl a b -> map text_of_thread (fst b) = map text_of_thread (fst a).
  Proof.
    induction 1 as [|a b c _ IH St]; [reflexivity|]. rewrite (step_texts _ _ St). exact IH.
  Qed.

  Lemma init_texts texts : map text_of_thread (fst (conc_init texts m)) = texts.
  Proof. simpl. rewrite map_map. simpl. apply map_id. Qed.

  (** Main lemma: what the calls return, and the final map. *)
  Definition finished (th : thread) : Prop :=
    match th with TTree _ _ | TErr _ _ | TPanic _ _ => True | _ => False end.

  Lemma conc_results texts ths nm i text th :
    conc_steps tbl (conc_init texts m) (ths, nm) ->
    nth_error texts i = Some text -> nth_error ths i = Some th ->
    match th with
    | TTree x t => x = text /\ returns_alone text (Some t, None)
    | TErr x e => x = text /\ returns_alone text (None, Some e)
    | TPanic x p => x = text /\ exists fuel, fst (run tbl text (Some m) fuel init_state) = Panic p
    | _ => True
    end.
  Proof.
    intros Hs Ht Hth.
    pose proof (steps_inv _ _ (init_inv texts) Hs) as [HF _].
    pose proof (steps_texts _ _ Hs) as HT. rewrite init_texts in HT. cbn [fst] in *.
    assert (E : text_of_thread th = text).
    { apply (map_nth_error text_of_thread) in Hth. rewrite HT in Hth. congruence. }
    rewrite Forall_forall in HF. pose proof (HF th (nth_error_In _ _ Hth)) as Hok.
    destruct th; simpl in *; subst; auto.
  Qed.

  Lemma conc_map texts ths nm :
    conc_steps tbl (conc_init texts m) (ths, nm) -> Forall finished ths ->
    ((exists text t, In (TTree text t) ths) /\ nm = Some (names_after m)) \/
    ((~ exists text t, In (TTree text t) ths) /\ nm = Some m).
  Proof.
    intros Hs Hf. pose proof (steps_inv _ _ (init_inv texts) Hs) as [_ (_ & _ & Ht & Hz)].
    cbn [fst snd] in *.
    assert (D : (exists text t, In (TTree text t) ths) \/ ~ (exists text t, In (TTree text t) ths)).
    { clear. induction ths as [|th l IH]; [right; intros (? & ? & [])|].
      destruct IH as [(x & t & H)|H]; [left; exists x, t; right; exact H|].
      destruct th; try (right; intros (x & t' & [E|H']); [discriminate|apply H; eauto]).
      left. do 2 eexists. left. reflexivity. }
    destruct D as [D|D]; [left|right]; (split; [exact D|auto]).
    apply Hz. intros th Hin Hw. rewrite Forall_forall in Hf. specialize (Hf th Hin).
    destruct th; simpl in *; try contradiction. apply D. eauto.
  Qed.
End Proofs.

(** ** The data race *)

Section Race.
  Variable tbl : table.
  Variable m : list (Z * bytes).

  Lemma conc_trans a b c : conc_steps tbl a b -> conc_steps tbl b c -> conc_steps tbl a c.
  Proof.
    intros H1 H2. revert H1. induction H2 as [|x y z _ IH S]; intros H1; [exact H1|].
    eapply css_more; [apply IH, H1|exact S].
  Qed.

  (** A call that would succeed can run up to its first write. *)
  Lemma run_to_write text t nm fuel : forall st l1 l2,
    fst (run tbl text (Some m) fuel st) = Ok (mkRet (Some t) nm None) ->
    conc_steps tbl (l1 ++ TRun text st :: l2, Some m) (l1 ++ TWrite1 text t :: l2, Some m).
  Proof.
    induction fuel as [|fuel IH]; intros st l1 l2 H; [discriminate|]. simpl in H.
    destruct (step tbl text (Some m) st) as [st'|r nm'|p] eqn:E.
    - eapply conc_trans; [|apply IH, H]. econstructor; [constructor|]. constructor. apply ts_next, E.
    - simpl in H. injection H as ->. econstructor; [constructor|]. constructor.
      eapply ts_found. exact E.
    - discriminate.
  Qed.

  Lemma race_reachable text1 text2 t1 t2 f1 f2 nm1 nm2 :
    fst (run tbl text1 (Some m) f1 init_state) = Ok (mkRet (Some t1) nm1 None) ->
    fst (run tbl text2 (Some m) f2 init_state) = Ok (mkRet (Some t2) nm2 None) ->
    exists c, conc_steps tbl (conc_init [text1; text2] m) c /\ racy c.
  Proof.
    intros H1 H2. exists ([TWrite1 text1 t1; TWrite1 text2 t2], Some m). split.
    - eapply conc_trans.
      + apply (run_to_write text1 t1 nm1 f1 init_state [] [TRun text2 init_state] H1).
      + apply (run_to_write text2 t2 nm2 f2 init_state [TWrite1 text1 t1] [] H2).
    - exists 0, 1. do 2 eexists. split; [discriminate|]. repeat split.
  Qed.
End Race.
