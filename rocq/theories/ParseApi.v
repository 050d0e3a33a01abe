(** * ParseApi: from the loop to the exported Parse. *)
From Verif Require Import Base Cst Parser Spec_Parse Spec_Tree ParserProofs TreeProofs.

(** What a source delivers when read to its end (Go documentation of the four
    kinds of sources; an io.Reader may cut its bytes into any chunks). *)
Inductive delivers : source -> bytes -> Prop :=
| dl_string s : delivers (SrcString s) s
| dl_bytes s : delivers (SrcBytes s) s
| dl_buffer s : delivers (SrcBuffer (Some s)) s
| dl_reader chunks : delivers (SrcReader (mkReader chunks None)) (concat chunks).

(** Result of a call. *)
Definition result (fuel : nat) (tbl : table) (names : names_map) (src : source)
  : gores Empty_set preturn := po_result (Parse fuel (NewLL1Parser tbl names) src).

(** "returns tree [t] without error". *)
Definition parses_to (fuel : nat) (tbl : table) (names : names_map) (src : source) (t : node)
  : Prop := exists nm, result fuel tbl names src = Ok (mkRet (Some t) (Some (Some nm)) None).
(** "returns error [e]". *)
Definition fails_with (fuel : nat) (tbl : table) (names : names_map) (src : source) (e : perror)
  : Prop := result fuel tbl names src = Ok (mkRet None None (Some e)).

Definition has_row0 (tbl : table) : Prop := exists r, map_get Z.eqb 0%Z tbl = Some r.

Lemma readSource_delivers src text : delivers src text -> fst (readSource src) = Ok text.
Proof. destruct 1; reflexivity. Qed.

Lemma readSource_cases src :
  (exists text, delivers src text /\ fst (readSource src) = Ok text) \/
  (exists e, fst (readSource src) = Err e /\
             (e = EEmptySource \/ e = EInvalidSource \/ exists m, e = EReader m)).
Proof.
  destruct src as [|s|s|[s|]|[chunks [m|]]|]; simpl; eauto 8 using delivers.
Qed.

Lemma Parse_usable fuel tbl names src text :
  has_row0 tbl -> delivers src text ->
  Parse fuel (NewLL1Parser tbl names) src =
  mkOut (fst (run tbl text names fuel init_state)) (snd (run tbl text names fuel init_state))
        (snd (readSource src)).
Proof.
  intros (r & Hr) Hd. unfold Parse, NewLL1Parser. cbn [p_table p_names].
  destruct tbl as [|row tbl]; [discriminate|]. unfold table_get. rewrite Hr.
  pose proof (readSource_delivers _ _ Hd) as E.
  destruct (readSource src) as [o s']. simpl in E. subst o. cbn [snd].
  destruct (run (row :: tbl) text names fuel init_state). reflexivity.
Qed.

Lemma has_row0_dec (tbl : table) : {r | map_get Z.eqb 0%Z tbl = Some r} + {map_get Z.eqb 0%Z tbl = None}.
Proof. destruct (map_get Z.eqb 0%Z tbl) as [r|]; [left; exists r; reflexivity|right; reflexivity]. Qed.

Lemma Parse_no_row0 fuel (tbl : table) names src :
  map_get Z.eqb 0%Z tbl = None ->
  Parse fuel (NewLL1Parser tbl names) src =
  mkOut (Ok (ret_err (match tbl with [] => EEmptyTable | _ => ENoBaseEntry end))) names src.
Proof.
  intros H. unfold Parse, NewLL1Parser. cbn [p_table p_names].
  destruct tbl as [|row tbl]; [reflexivity|]. unfold table_get. rewrite H. reflexivity.
Qed.

Lemma Parse_bad_source fuel tbl names src e :
  has_row0 tbl -> fst (readSource src) = Err e ->
  Parse fuel (NewLL1Parser tbl names) src = mkOut (Ok (ret_err e)) names (snd (readSource src)).
Proof.
  intros (r & Hr) E. unfold Parse, NewLL1Parser. cbn [p_table p_names].
  destruct tbl as [|row tbl]; [discriminate|]. unfold table_get. rewrite Hr.
  destruct (readSource src) as [o s']. simpl in E. subst o. reflexivity.
Qed.

(** All calls are of one of these forms. *)
Lemma result_cases fuel tbl names src :
  (exists e, (map_get Z.eqb 0%Z tbl = None \/ fst (readSource src) = Err e) /\
             Parse fuel (NewLL1Parser tbl names) src
             = mkOut (Ok (ret_err e)) names
                 (match map_get Z.eqb 0%Z tbl with None => src | _ => snd (readSource src) end)) \/
  (exists text, has_row0 tbl /\ delivers src text /\
     Parse fuel (NewLL1Parser tbl names) src =
     mkOut (fst (run tbl text names fuel init_state)) (snd (run tbl text names fuel init_state))
           (snd (readSource src))).
Proof.
  destruct (has_row0_dec tbl) as [[r Hr]|Hn].
  - destruct (readSource_cases src) as [(text & Hd & _)|(e & He & _)].
    + right. exists text. split; [exists r; exact Hr|]. split; [exact Hd|].
      apply Parse_usable; [exists r; exact Hr|exact Hd].
    + left. exists e. split; [right; exact He|]. rewrite Hr.
      apply Parse_bad_source; [exists r; exact Hr|exact He].
  - left. eexists. split; [left; exact Hn|]. rewrite Hn. apply Parse_no_row0, Hn.
Qed.

Lemma derives_text_row0 tbl text t : derives_text tbl text t -> has_row0 tbl.
Proof.
  intros (q & H & _). inversion H; subst; try lia.
  - match goal with H : cell _ _ _ _ |- _ => destruct H as (r & Hr & _) end. exists r. exact Hr.
  - match goal with H : cell _ _ _ _ |- _ => destruct H as (r & Hr & _) end. exists r. exact Hr.
Qed.

(** ** C07, C08 *)

Lemma run_shape tbl text names fuel : forall st r nm,
  run tbl text names fuel st = (Ok r, nm) ->
  (exists t m, r = mkRet (Some t) (Some (Some m)) None) \/ (exists e, r = mkRet None None (Some e)).
Proof.
  induction fuel as [|fuel IH]; intros st r nm H; simpl in H; [discriminate|].
  destruct (step tbl text names st) as [st'|r' nm'|p] eqn:E; [eapply IH; exact H| |discriminate].
  injection H as <- <-. clear IH. unfold step in E.
  destruct (ps_ops st) as [|op ops]; [discriminate|].
  destruct op as [n|t|n p a| |c| |]; try discriminate.
  - unfold processNonTerminal, processBuiltinNonTerminal, processTableNonTerminal in E.
    destruct (n <? 0)%Z.
    + destruct (n =? -2)%Z; [|injection E as <- <-; right; eexists; reflexivity].
      destruct (Ascii.eqb (peek text (ps_off st)) LF); [discriminate|].
      destruct (Ascii.eqb (peek text (ps_off st)) CR); [discriminate|].
      injection E as <- <-. right. eexists. reflexivity.
    + destruct (table_get n tbl); [|injection E as <- <-; right; eexists; reflexivity].
      destruct (row_get (peek text (ps_off st)) r); [discriminate|].
      injection E as <- <-. right. eexists. reflexivity.
  - unfold processFunction in E. destruct (Nat.eqb a 0); [discriminate|].
    destruct (pop_childs (n =? builtinTerminal)%Z a (ps_prods st) []) as [[? ?]| | |]; discriminate.
  - unfold processEOS in E.
    destruct (negb (Ascii.eqb (peek text (ps_off st)) NUL));
      [injection E as <- <-; right; eexists; reflexivity|].
    destruct (ps_prods st); [injection E as <- <-; right; eexists; reflexivity|].
    destruct names; [|discriminate]. injection E as <- <-. left. do 2 eexists. reflexivity.
  - unfold processChar in E. destruct (negb (Ascii.eqb c (peek text (ps_off st))));
      [injection E as <- <-; right; eexists; reflexivity|discriminate].
Qed.

Lemma return_contract fuel tbl names src r :
  result fuel tbl names src = Ok r ->
  (exists t m, r = mkRet (Some t) (Some (Some m)) None) \/ (exists e, r = mkRet None None (Some e)).
Proof.
  unfold result. destruct (result_cases fuel tbl names src) as [(e & _ & ->)|(text & _ & _ & ->)].
  - simpl. intros [= <-]. right. exists e. reflexivity.
  - cbn [po_result]. intros H. destruct (run tbl text names fuel init_state) as [o nm] eqn:E.
    simpl in H. subst o. eapply run_shape. exact E.
Qed.

Lemma no_panic fuel tbl m src q : table_public tbl -> result fuel tbl (Some m) src <> Panic q.
Proof.
  intros Hp. unfold result.
  destruct (result_cases fuel tbl (Some m) src) as [(e & _ & ->)|(text & _ & _ & ->)];
    cbn [po_result]; [discriminate|].
  destruct (run_cases tbl text (Some m) Hp fuel) as [->|[(t & _ & ->)|(k & e & _ & ->)]];
    discriminate.
Qed.

(** ** C11 *)

Lemma parses_to_spec fuel tbl m src text t :
  table_public tbl -> delivers src text ->
  parses_to fuel tbl (Some m) src t -> derives_text tbl text t.
Proof.
  intros Hp Hd (nm & H). unfold result in H.
  destruct (has_row0_dec tbl) as [[r Hr]|Hn].
  - rewrite (Parse_usable _ _ _ _ text) in H by (first [assumption|exists r; exact Hr]).
    cbn [po_result] in H.
    destruct (run_cases tbl text (Some m) Hp fuel) as [E|[(t' & Ht & E)|(k & e & _ & E)]];
      rewrite E in H; try discriminate.
    injection H as <- _. exact Ht.
  - rewrite Parse_no_row0 in H by exact Hn. discriminate.
Qed.

Lemma spec_parses_to tbl m src text t :
  delivers src text -> derives_text tbl text t ->
  exists f, forall fuel, f <= fuel -> parses_to fuel tbl (Some m) src t.
Proof.
  intros Hd Ht. destruct (derives_text_runs tbl text (Some m) t Ht) as (f & Hf).
  exists f. intros fuel Hle. eexists. unfold result.
  rewrite (Parse_usable _ _ _ _ text) by (first [assumption|eapply derives_text_row0; eassumption]).
  cbn [po_result]. rewrite Hf by exact Hle. reflexivity.
Qed.

(** The error returned when the input is refused. *)
Lemma fails_with_spec fuel tbl m src text e :
  table_public tbl -> has_row0 tbl -> delivers src text ->
  fails_with fuel tbl (Some m) src e -> exists k, refuses tbl text (Some m) k e.
Proof.
  intros Hp H0 Hd H. unfold fails_with, result in H.
  rewrite (Parse_usable _ _ _ _ text) in H by assumption. cbn [po_result] in H.
  destruct (run_cases tbl text (Some m) Hp fuel) as [E|[(t' & Ht & E)|(k & e' & Hr & E)]];
    rewrite E in H; try discriminate.
  injection H as <-. exists k. apply rejects_refuses, Hr.
Qed.

Lemma spec_fails_with tbl m src text k e :
  table_public tbl -> has_row0 tbl -> delivers src text -> refuses tbl text (Some m) k e ->
  exists f, forall fuel, f <= fuel -> fails_with fuel tbl (Some m) src e.
Proof.
  intros Hp H0 Hd H. apply refuses_rejects in H; [|exact Hp].
  destruct (rejects_runs tbl text (Some m) k e H) as (f & Hf).
  exists f. intros fuel Hle. unfold fails_with, result.
  rewrite (Parse_usable _ _ _ _ text) by assumption. cbn [po_result]. rewrite Hf by exact Hle.
  reflexivity.
Qed.

(** ** C17: fuel *)

Lemma result_mono fuel fuel' tbl names src :
  result fuel tbl names src <> NoFuel -> fuel <= fuel' ->
  Parse fuel' (NewLL1Parser tbl names) src = Parse fuel (NewLL1Parser tbl names) src.
Proof.
  unfold result. intros H Hle.
  destruct (result_cases fuel tbl names src) as [(e & Hc & E)|(text & H0 & Hd & E)].
  - rewrite E. destruct Hc as [Hn|He].
    + rewrite Hn in *. rewrite Parse_no_row0 in * by exact Hn. exact E.
    + destruct (has_row0_dec tbl) as [[r Hr]|Hn].
      * rewrite Hr in *. apply Parse_bad_source; [exists r; exact Hr|exact He].
      * rewrite Hn in *. rewrite Parse_no_row0 in * by exact Hn. exact E.
  - rewrite E in *. cbn [po_result] in H. rewrite (Parse_usable _ _ _ _ text) by assumption.
    assert (R : run tbl text names fuel' init_state = run tbl text names fuel init_state).
    { replace fuel' with (fuel + (fuel' - fuel)) by lia. apply run_mono, H. }
    rewrite R. reflexivity.
Qed.

(** ** C14: the naming map *)

Lemma map_set_get {V} k (v : V) m k' :
  map_get Z.eqb k' (map_set Z.eqb k v m) = if (k' =? k)%Z then Some v else map_get Z.eqb k' m.
Proof.
  induction m as [|[a w] m IH]; simpl.
  - reflexivity.
  - destruct (Z.eqb_spec k a) as [->|N]; simpl.
    + destruct (k' =? a)%Z; reflexivity.
    + rewrite IH. destruct (Z.eqb_spec k' a) as [->|N']; [|reflexivity].
      destruct (Z.eqb_spec a k); [congruence|reflexivity].
Qed.

Lemma names_after_get m k :
  map_get Z.eqb k (names_after m) =
  if (k =? -2)%Z then Some (s2b "_nothing")
  else if (k =? -1)%Z then Some (s2b "_literal") else map_get Z.eqb k m.
Proof. unfold names_after, builtinNothing, builtinTerminal. rewrite !map_set_get. reflexivity. Qed.

Lemma map_set_idem {V} k (v : V) m : map_get Z.eqb k m = Some v -> map_set Z.eqb k v m = m.
Proof.
  induction m as [|[a w] m IH]; simpl; [discriminate|].
  destruct (Z.eqb_spec k a) as [->|N].
  - intros [= ->]. reflexivity.
  - intros H. rewrite IH by exact H. reflexivity.
Qed.

Lemma names_after_idem m : names_after (names_after m) = names_after m.
Proof.
  unfold names_after at 1.
  assert (E : map_set Z.eqb builtinTerminal (s2b "_literal") (names_after m) = names_after m)
    by (apply map_set_idem; rewrite names_after_get; reflexivity).
  rewrite E. apply map_set_idem. rewrite names_after_get. reflexivity.
Qed.

Lemma row_name_after m n : (0 <= n)%Z -> row_name (Some (names_after m)) n = row_name (Some m) n.
Proof.
  intros H. unfold row_name. rewrite names_after_get.
  assert ((n =? -2)%Z = false) as -> by (apply Z.eqb_neq; lia).
  assert ((n =? -1)%Z = false) as -> by (apply Z.eqb_neq; lia). reflexivity.
Qed.

Lemma run_names_after tbl text m fuel : forall st,
  run tbl text (Some (names_after m)) fuel st =
  (fst (run tbl text (Some m) fuel st),
   match fst (run tbl text (Some m) fuel st) with
   | Ok (mkRet _ _ None) => snd (run tbl text (Some m) fuel st)
   | _ => Some (names_after m)
   end).
Proof.
  induction fuel as [|fuel IH]; intros st; [reflexivity|]. simpl.
  assert (S : step tbl text (Some (names_after m)) st =
              match step tbl text (Some m) st with
              | SReturn (mkRet a b None) nm => SReturn (mkRet a b None) nm
              | SReturn r _ => SReturn r (Some (names_after m))
              | x => x
              end).
  { unfold step. destruct (ps_ops st) as [|op ops]; [reflexivity|].
    destruct op as [n|t|n p a| |c| |]; try reflexivity.
    - unfold processNonTerminal, processBuiltinNonTerminal, processTableNonTerminal.
      destruct (Z.ltb_spec n 0) as [Hn|Hn].
      + destruct (n =? -2)%Z; [|reflexivity].
        destruct (Ascii.eqb (peek text (ps_off st)) LF); [reflexivity|].
        destruct (Ascii.eqb (peek text (ps_off st)) CR); reflexivity.
      + rewrite !nodeTypeName_eq, row_name_after by exact Hn.
        destruct (table_get n tbl); [|reflexivity].
        destruct (row_get (peek text (ps_off st)) r); reflexivity.
    - unfold processFunction. destruct (Nat.eqb a 0); [reflexivity|].
      destruct (pop_childs (n =? builtinTerminal)%Z a (ps_prods st) []) as [[? ?]| | |]; reflexivity.
    - unfold processEOS. destruct (negb (Ascii.eqb (peek text (ps_off st)) NUL)); [reflexivity|].
      destruct (ps_prods st); [reflexivity|].
      fold (names_after (names_after m)). rewrite names_after_idem. reflexivity.
    - unfold processChar. destruct (negb (Ascii.eqb c (peek text (ps_off st)))); reflexivity. }
  rewrite S. destruct (step tbl text (Some m) st) as [st'|[a b [e|]] nm|p]; try reflexivity.
  apply IH.
Qed.

Lemma run_names tbl text names fuel : forall st,
  snd (run tbl text names fuel st) =
  match fst (run tbl text names fuel st) with
  | Ok (mkRet _ _ None) => match names with Some m => Some (names_after m) | None => None end
  | _ => names
  end.
Proof.
  induction fuel as [|fuel IH]; intros st; [reflexivity|]. simpl.
  destruct (step tbl text names st) as [st'|r nm|p] eqn:E; [apply IH| |reflexivity]. simpl.
  unfold step in E. destruct (ps_ops st) as [|op ops]; [discriminate|].
  destruct op as [n|t|n p a| |c| |]; try discriminate.
  - unfold processNonTerminal, processBuiltinNonTerminal, processTableNonTerminal in E.
    destruct (n <? 0)%Z.
    + destruct (n =? -2)%Z; [|injection E as <- <-; reflexivity].
      destruct (Ascii.eqb (peek text (ps_off st)) LF); [discriminate|].
      destruct (Ascii.eqb (peek text (ps_off st)) CR); [discriminate|].
      injection E as <- <-. reflexivity.
    + destruct (table_get n tbl); [|injection E as <- <-; reflexivity].
      destruct (row_get (peek text (ps_off st)) r0); [discriminate|].
      injection E as <- <-. reflexivity.
  - unfold processFunction in E. destruct (Nat.eqb a 0); [discriminate|].
    destruct (pop_childs (n =? builtinTerminal)%Z a (ps_prods st) []) as [[? ?]| | |]; discriminate.
  - unfold processEOS in E.
    destruct (negb (Ascii.eqb (peek text (ps_off st)) NUL));
      [injection E as <- <-; reflexivity|].
    destruct (ps_prods st); [injection E as <- <-; reflexivity|].
    destruct names; [|discriminate]. injection E as <- <-. reflexivity.
  - unfold processChar in E. destruct (negb (Ascii.eqb c (peek text (ps_off st))));
      [injection E as <- <-; reflexivity|discriminate].
Qed.

Lemma run_ret_names tbl text names fuel : forall st t nm e o,
  run tbl text names fuel st = (Ok (mkRet (Some t) nm e), o) ->
  nm = Some o /\ e = None.
Proof.
  intros st t nm e o H. destruct (run_shape _ _ _ _ _ _ _ H) as [(t' & m & E)|(e' & E)]; [|discriminate].
  injection E as -> -> ->. split; [|reflexivity].
  revert st H. induction fuel as [|fuel IH]; intros st H; simpl in H; [discriminate|].
  destruct (step tbl text names st) as [st'|r' nm'|p] eqn:E; [eapply IH; exact H| |discriminate].
  injection H as -> ->. clear IH. unfold step in E.
  destruct (ps_ops st) as [|op ops]; [discriminate|].
  destruct op as [n|v|n p a| |c| |]; try discriminate.
  - unfold processNonTerminal, processBuiltinNonTerminal, processTableNonTerminal in E.
    destruct (n <? 0)%Z.
    + destruct (n =? -2)%Z; [|discriminate].
      destruct (Ascii.eqb (peek text (ps_off st)) LF); [discriminate|].
      destruct (Ascii.eqb (peek text (ps_off st)) CR); discriminate.
    + destruct (table_get n tbl); [|discriminate].
      destruct (row_get (peek text (ps_off st)) r); discriminate.
  - unfold processFunction in E. destruct (Nat.eqb a 0); [discriminate|].
    destruct (pop_childs (n =? builtinTerminal)%Z a (ps_prods st) []) as [[? ?]| | |]; discriminate.
  - unfold processEOS in E. destruct (negb (Ascii.eqb (peek text (ps_off st)) NUL)); [discriminate|].
    destruct (ps_prods st); [discriminate|]. destruct names; [|discriminate].
    injection E as -> <- <-. reflexivity.
  - unfold processChar in E. destruct (negb (Ascii.eqb c (peek text (ps_off st)))); discriminate.
Qed.

(** A call leaves the map as it was, or extended after success. *)
Lemma names_left fuel tbl m src :
  po_names (Parse fuel (NewLL1Parser tbl (Some m)) src) =
  match result fuel tbl (Some m) src with
  | Ok (mkRet _ _ None) => Some (names_after m)
  | _ => Some m
  end.
Proof.
  unfold result. destruct (result_cases fuel tbl (Some m) src) as [(e & _ & ->)|(text & _ & _ & ->)];
    [reflexivity|]. cbn [po_result po_names]. apply run_names.
Qed.

Lemma names_returned fuel tbl m src t nm e :
  result fuel tbl (Some m) src = Ok (mkRet (Some t) nm e) ->
  nm = Some (Some (names_after m)) /\ e = None.
Proof.
  unfold result. destruct (result_cases fuel tbl (Some m) src) as [(e' & _ & ->)|(text & _ & _ & ->)];
    cbn [po_result]; [discriminate|].
  intros H. destruct (run tbl text (Some m) fuel init_state) as [o q] eqn:E. simpl in H. subst o.
  destruct (run_ret_names _ _ _ _ _ _ _ _ _ E) as [-> ->]. split; [|reflexivity].
  pose proof (run_names tbl text (Some m) fuel init_state) as N. rewrite E in N. simpl in N.
  rewrite N. reflexivity.
Qed.

Lemma result_after fuel tbl m src :
  result fuel tbl (Some (names_after m)) src = result fuel tbl (Some m) src.
Proof.
  unfold result.
  destruct (has_row0_dec tbl) as [[r Hr]|Hn].
  - destruct (readSource_cases src) as [(text & Hd & _)|(e & He & _)].
    + rewrite !(Parse_usable _ _ _ _ text) by (first [assumption|exists r; exact Hr]).
      cbn [po_result]. rewrite run_names_after. reflexivity.
    + rewrite !(Parse_bad_source _ _ _ _ e) by (first [assumption|exists r; exact Hr]). reflexivity.
  - rewrite !Parse_no_row0 by exact Hn. reflexivity.
Qed.

(** A history of calls on one parser: each call sees the map left by the
    previous ones. [fuels] says how long each call is run. *)
Fixpoint parse_history (tbl : table) (names : names_map) (calls : list (nat * source))
  : list (gores Empty_set preturn) * names_map :=
  match calls with
  | [] => ([], names)
  | (fuel, src) :: calls' =>
      let o := Parse fuel (NewLL1Parser tbl names) src in
      let (rs, names') := parse_history tbl (po_names o) calls' in
      (po_result o :: rs, names')
  end.

Definition succeeded (r : gores Empty_set preturn) : bool :=
  match r with Ok (mkRet _ _ None) => true | _ => false end.

Lemma history_results tbl m calls :
  let fresh := map (fun c => result (fst c) tbl (Some m) (snd c)) calls in
  parse_history tbl (Some m) calls =
  (fresh, Some (if existsb succeeded fresh then names_after m else m)).
Proof.
  simpl.
  assert (A : forall calls, parse_history tbl (Some (names_after m)) calls =
     (map (fun c => result (fst c) tbl (Some m) (snd c)) calls, Some (names_after m))).
  { clear calls. induction calls as [|[fuel src] calls IH]; [reflexivity|]. cbn [parse_history map fst snd].
    assert (po_names (Parse fuel (NewLL1Parser tbl (Some (names_after m))) src)
            = Some (names_after m)) as ->.
    { rewrite names_left, names_after_idem.
      destruct (result fuel tbl (Some (names_after m)) src) as [[? ? [?|]]| | |]; reflexivity. }
    rewrite IH. fold (result fuel tbl (Some (names_after m)) src). rewrite result_after. reflexivity. }
  induction calls as [|[fuel src] calls IH]; [reflexivity|]. cbn [parse_history map fst snd existsb].
  fold (result fuel tbl (Some m) src). rewrite names_left.
  destruct (result fuel tbl (Some m) src) as [[a b [e|]]| | |] eqn:E;
    cbn [succeeded orb]; try (rewrite IH; reflexivity).
  rewrite A. reflexivity.
Qed.
