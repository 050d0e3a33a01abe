(** * Props_Histories: property C86, programs with several parsers. *)
From Verif Require Import Base Cst Parser Histories Spec_Histories Spec_Parse ParserProofs TGFirsts TreeProofs ParseApi ParseApi2 Props_Parser.

(** ** Parse looks at no name below zero *)
Definition agree (m m' : list (Z * bytes)) : Prop :=
  forall k, k <> (-1)%Z -> k <> (-2)%Z -> map_get Z.eqb k m = map_get Z.eqb k m'.
Definition agree_names (m m' : names_map) : Prop :=
  match m, m' with Some a, Some b => agree a b | None, None => True | _, _ => False end.

Lemma agree_refl m : agree m m.
Proof. intros k _ _. reflexivity. Qed.

Section Names.
  Variable tbl : table.
  Variable src : bytes.
  Variable m m' : names_map.
  Hypothesis Ag : agree_names m m'.

  Lemma typeName_agree n : (0 <= n)%Z -> nodeTypeName m n = nodeTypeName m' n.
  Proof.
    intros L. unfold nodeTypeName, names_get. destruct m as [a|], m' as [b|]; try contradiction; [|reflexivity].
    rewrite (Ag n) by lia. reflexivity.
  Qed.

  Lemma run_agree fuel : forall st,
    same_answer (fst (run tbl src m fuel st)) (fst (run tbl src m' fuel st)) /\
    agree_names (snd (run tbl src m fuel st)) (snd (run tbl src m' fuel st)).
  Proof.
    assert (K : forall e, same_answer (Ok (ret_err e)) (Ok (ret_err e))) by (split; reflexivity).
    induction fuel as [|fuel IH]; intros st; cbn [run]; [split; [exact I|exact Ag]|].
    unfold step. destruct (ps_ops st) as [|op ops]; [split; [reflexivity|exact Ag]|].
    destruct op as [n|v|n ps k| |c| |e]; try (split; [reflexivity|exact Ag]).
    - unfold processNonTerminal. destruct (n <? 0)%Z eqn:En.
      + unfold processBuiltinNonTerminal. destruct (n =? -2)%Z; [|split; [apply K|exact Ag]].
        destruct (Ascii.eqb (peek src (ps_off st)) LF); [apply IH|].
        destruct (Ascii.eqb (peek src (ps_off st)) CR); [apply IH|split; [apply K|exact Ag]].
      + apply Z.ltb_ge in En. unfold processTableNonTerminal. rewrite (typeName_agree n En).
        destruct (table_get n tbl) as [r|]; [|split; [apply K|exact Ag]].
        destruct (row_get (peek src (ps_off st)) r); [apply IH|split; [apply K|exact Ag]].
    - apply IH.
    - unfold processFunction. destruct (Nat.eqb k 0); [apply IH|].
      destruct (pop_childs (n =? builtinTerminal)%Z k (ps_prods st) []) as [[ch pr]|[]|q|];
        [apply IH|split; [reflexivity|exact Ag]|split; [reflexivity|exact Ag]].
    - unfold processEOS. destruct (negb _); [split; [apply K|exact Ag]|].
      destruct (ps_prods st) as [|x l]; [split; [apply K|exact Ag]|].
      destruct m as [a|], m' as [b|]; try contradiction; [|split; [reflexivity|exact I]].
      split; [split; reflexivity|]. intros k N1 N2. cbn. rewrite !(map_get_set Z.eqb Z.eqb_eq).
      destruct (k =? builtinNothing)%Z; [reflexivity|]. destruct (k =? builtinTerminal)%Z; [reflexivity|]. apply Ag; assumption.
    - unfold processChar. destruct (negb _); [split; [apply K|exact Ag]|apply IH].
  Qed.

End Names.

Lemma Parse_agree tbl m m' fuel s : agree_names m m' ->
  same_answer (po_result (Parse fuel (NewLL1Parser tbl m) s)) (po_result (Parse fuel (NewLL1Parser tbl m') s)) /\
  agree_names (po_names (Parse fuel (NewLL1Parser tbl m) s)) (po_names (Parse fuel (NewLL1Parser tbl m') s)) /\
  po_source (Parse fuel (NewLL1Parser tbl m) s) = po_source (Parse fuel (NewLL1Parser tbl m') s).
Proof.
  intros Ag. unfold Parse, NewLL1Parser. cbn [p_table p_names].
  destruct tbl as [|x t]; [split; [split; reflexivity|split; [exact Ag|reflexivity]]|].
  destruct (table_get 0 (x :: t)); [|split; [split; reflexivity|split; [exact Ag|reflexivity]]].
  destruct (readSource s) as [[text|e|q|] s']; cbn [po_result po_names po_source].
  - destruct (run_agree (x :: t) text m m' Ag fuel init_state) as (A & B).
    destruct (run (x :: t) text m fuel init_state), (run (x :: t) text m' fuel init_state). cbn in *. auto.
  - split; [split; reflexivity|split; [exact Ag|reflexivity]].
  - split; [reflexivity|split; [exact Ag|reflexivity]].
  - split; [exact I|split; [exact Ag|reflexivity]].
Qed.

(** A call leaves the names except -1 and -2 as they are. *)
Lemma Parse_keeps tbl m fuel s :
  agree_names m (po_names (Parse fuel (NewLL1Parser tbl m) s)).
Proof.
  assert (R : agree_names m m) by (destruct m; [apply agree_refl|exact I]).
  unfold Parse, NewLL1Parser. cbn [p_table p_names].
  destruct tbl as [|x t]; [exact R|]. destruct (table_get 0 (x :: t)); [|exact R].
  destruct (readSource s) as [[text|e|q|] s']; try exact R.
  enough (X : forall fuel st, agree_names m (snd (run (x :: t) text m fuel st))).
  { specialize (X fuel init_state). destruct (run (x :: t) text m fuel init_state). exact X. }
  clear fuel s s'. induction fuel as [|fuel IH]; intros st; cbn [run]; [exact R|].
  destruct (step (x :: t) text m st) as [st'|ret n|p] eqn:S; [apply IH| |exact R].
  cbn [snd]. unfold step in S. destruct (ps_ops st) as [|[n0|v|n0 ps k| |c| |e] ops]; try discriminate.
  - unfold processNonTerminal, processBuiltinNonTerminal, processTableNonTerminal in S.
    destruct (n0 <? 0)%Z.
    + destruct (n0 =? -2)%Z; [|injection S as _ <-; exact R].
      destruct (Ascii.eqb _ LF); [discriminate|]. destruct (Ascii.eqb _ CR); [discriminate|]. injection S as _ <-. exact R.
    + destruct (table_get n0 (x :: t)) as [rw|]; [|injection S as _ <-; exact R].
      destruct (row_get _ rw); [discriminate|injection S as _ <-; exact R].
  - unfold processFunction in S. destruct (Nat.eqb k 0); [discriminate|].
    destruct (pop_childs (n0 =? builtinTerminal)%Z k (ps_prods st) []) as [[ch pr]| [] | |]; discriminate.
  - unfold processEOS in S. destruct (negb _); [injection S as _ <-; exact R|].
    destruct (ps_prods st); [injection S as _ <-; exact R|]. destruct m as [a|]; [|discriminate].
    injection S as _ <-. intros k N1 N2. cbn. rewrite !(map_get_set Z.eqb Z.eqb_eq).
    destruct (Z.eqb_spec k builtinNothing) as [->|_]; [destruct (N2 eq_refl)|].
    destruct (Z.eqb_spec k builtinTerminal) as [->|_]; [destruct (N1 eq_refl)|reflexivity].
  - unfold processChar in S. destruct (negb _); [injection S as _ <-; exact R|discriminate].
Qed.

Lemma Parse_source_kind fuel ps s : rereadable s -> po_source (Parse fuel ps s) = s.
Proof.
  intros R. unfold Parse. destruct (p_table ps) as [|x t]; [reflexivity|].
  destruct (table_get 0 (x :: t)); [|reflexivity].
  destruct s as [|u|u|[u|]|rd|]; cbn [readSource]; try contradiction; try reflexivity;
    destruct (run (x :: t) u (p_names ps) fuel init_state); reflexivity.
Qed.
Lemma Parse_source_back fuel ps s : rereadable (po_source (Parse fuel ps s)) -> rereadable s.
Proof.
  destruct s as [|u|u|u|[ch e]|]; intros H; try exact I. unfold Parse in H.
  destruct (p_table ps) as [|x t]; [exact H|]. destruct (table_get 0 (x :: t)); [|exact H].
  cbn [readSource] in H. destruct (match rd_end _ with None => _ | Some _ => _ end); try exact H.
  destruct (run (x :: t) a (p_names ps) fuel init_state). exact H.
Qed.

(** ** Lists of references *)
Lemma replace_length {A} (l : list A) : forall i x, length (replace l i x) = length l.
Proof. induction l as [|y l IH]; intros [|i] x; cbn; congruence. Qed.
Lemma replace_nth {A} (l : list A) : forall i j x,
  nth_error (replace l i x) j = if Nat.eqb i j then option_map (fun _ => x) (nth_error l j) else nth_error l j.
Proof.
  induction l as [|y l IH]; intros [|i] [|j] x; cbn [replace nth_error Nat.eqb option_map]; try reflexivity.
  - destruct (Nat.eqb i j); reflexivity.
  - apply IH.
Qed.
Lemma nth_app_one {A} (l : list A) x i : nth_error (l ++ [x]) i = if Nat.eqb i (length l) then Some x else nth_error l i.
Proof.
  destruct (Nat.eqb_spec i (length l)) as [->|N].
  - rewrite nth_error_app2, Nat.sub_diag by lia. reflexivity.
  - destruct (Nat.lt_ge_cases i (length l)) as [L|L]; [apply nth_error_app1, L|].
    rewrite (proj2 (nth_error_None l i)) by lia. apply nth_error_None. rewrite app_length. cbn. lia.
Qed.

(** ** Two worlds that differ only by calls of Parse *)
Definition opt_agree (a b : option (list (Z * bytes))) : Prop :=
  match a, b with Some x, Some y => agree x y | None, None => True | _, _ => False end.

Record alike (s : nat) (w w' : world) : Prop := mkAlike {
  al_tables : w_tables w = w_tables w';
  al_parsers : w_parsers w = w_parsers w';
  al_names : forall j, opt_agree (nth_error (w_names w) j) (nth_error (w_names w') j);
  al_sources : length (w_sources w) = length (w_sources w');
  al_source : nth_error (w_sources w) s = nth_error (w_sources w') s }.

Lemma alike_refl s w : alike s w w.
Proof. split; try reflexivity. intros j. destruct (nth_error (w_names w) j); [apply agree_refl|exact I]. Qed.

Lemma opt_agree_length a b : (forall j, opt_agree (nth_error a j) (nth_error b j)) -> length a = length b.
Proof.
  intros H. destruct (Nat.lt_total (length a) (length b)) as [L|[E|L]]; [|exact E|].
  - specialize (H (length a)). rewrite (proj2 (nth_error_None a _)) in H by lia.
    destruct (nth_error b (length a)) eqn:E; [destruct H|]. apply nth_error_None in E. lia.
  - specialize (H (length b)). rewrite (proj2 (nth_error_None b _)) in H by lia.
    destruct (nth_error a (length b)) eqn:E; [destruct H|]. apply nth_error_None in E. lia.
Qed.

Lemma parser_alike s w w' p : alike s w w' ->
  match parser_now w p, parser_now w' p with
  | Some a, Some b => p_table a = p_table b /\ agree_names (p_names a) (p_names b)
  | None, None => True
  | _, _ => False
  end.
Proof.
  intros [T P N _ _]. unfold parser_now. rewrite <- P, <- T.
  destruct (nth_error (w_parsers w) p) as [[t n]|]; [|exact I].
  destruct (nth_error (w_tables w) t) as [tbl|]; [|exact I]. destruct n as [j|]; cbn.
  - specialize (N j). destruct (nth_error (w_names w) j), (nth_error (w_names w') j); try contradiction; cbn; auto.
  - auto.
Qed.

(** A call leaves a world alike, as far as another source or a source that can
    be read again is concerned. *)
Lemma names_kept w p s fuel j :
  opt_agree (nth_error (w_names w) j) (nth_error (w_names (snd (call_parse w p s fuel))) j).
Proof.
  assert (R : opt_agree (nth_error (w_names w) j) (nth_error (w_names w) j))
    by (destruct (nth_error (w_names w) j); [apply agree_refl|exact I]).
  unfold call_parse. destruct (parser_now w p) as [ps|] eqn:Ep; [|exact R].
  destruct (nth_error (w_sources w) s) as [src|]; [|exact R]. cbn [snd w_names].
  unfold parser_now in Ep. destruct (nth_error (w_parsers w) p) as [[t [n|]]|]; [| |discriminate]; [|exact R].
  destruct (nth_error (w_tables w) t) as [tbl|]; [|discriminate]. cbn in Ep.
  destruct (nth_error (w_names w) n) as [m|] eqn:En; [|discriminate]. cbn in Ep. injection Ep as <-.
  pose proof (Parse_keeps tbl (Some m) fuel src) as K.
  destruct (po_names (Parse fuel (NewLL1Parser tbl (Some m)) src)) as [m'|]; [|exact R].
  rewrite replace_nth. destruct (Nat.eqb_spec n j) as [->|_]; [|exact R]. rewrite En. exact K.
Qed.

Lemma opt_agree_trans a b c : opt_agree a b -> opt_agree b c -> opt_agree a c.
Proof.
  destruct a, b, c; cbn; try contradiction; auto. intros A B k N1 N2. rewrite (A k N1 N2). apply B; assumption.
Qed.
Lemma opt_agree_sym a b : opt_agree a b -> opt_agree b a.
Proof. destruct a, b; cbn; try contradiction; auto. intros A k N1 N2. symmetry. apply A; assumption. Qed.

Lemma call_world w p s fuel :
  w_tables (snd (call_parse w p s fuel)) = w_tables w /\ w_parsers (snd (call_parse w p s fuel)) = w_parsers w /\
  length (w_sources (snd (call_parse w p s fuel))) = length (w_sources w) /\
  (forall s', s' <> s -> nth_error (w_sources (snd (call_parse w p s fuel))) s' = nth_error (w_sources w) s').
Proof.
  unfold call_parse. destruct (parser_now w p) as [ps|]; [|auto]. destruct (nth_error (w_sources w) s) as [src|]; [|auto].
  cbn [snd w_tables w_parsers w_sources]. rewrite replace_length. split; [reflexivity|]. split; [reflexivity|]. split; [reflexivity|].
  intros s' N. rewrite replace_nth. destruct (Nat.eqb_spec s s'); [congruence|reflexivity].
Qed.

Lemma source_same w p s fuel :
  (forall src, nth_error (w_sources w) s = Some src -> rereadable src) ->
  nth_error (w_sources (snd (call_parse w p s fuel))) s = nth_error (w_sources w) s.
Proof.
  intros R. unfold call_parse. destruct (parser_now w p) as [ps|]; [|reflexivity].
  destruct (nth_error (w_sources w) s) as [src|] eqn:Es; [|assumption].
  cbn [snd w_sources]. rewrite replace_nth, Nat.eqb_refl, Es. cbn. rewrite Parse_source_kind; [reflexivity|]. apply R. reflexivity.
Qed.

(** The same call in both worlds. *)
Lemma call_alike s w w' p s' fuel : alike s w w' ->
  alike s (snd (call_parse w p s' fuel)) (snd (call_parse w' p s' fuel)).
Proof.
  intros A. pose proof (parser_alike s w w' p A) as Pa. pose proof A as [T P N Ls Sc].
  destruct (call_world w p s' fuel) as (Ct & Cp & Cl & Cs). destruct (call_world w' p s' fuel) as (Ct' & Cp' & Cl' & Cs').
  split; try congruence.
  - intros j. eapply opt_agree_trans; [apply opt_agree_sym, names_kept|]. eapply opt_agree_trans; [apply N|apply names_kept].
  - destruct (Nat.eq_dec s s') as [<-|Ne]; [|rewrite Cs, Cs' by exact Ne; exact Sc].
    unfold call_parse. destruct (parser_now w p) as [ps|], (parser_now w' p) as [ps'|]; try contradiction; [|exact Sc].
    rewrite <- Sc. destruct (nth_error (w_sources w) s) as [src|] eqn:Es; [|cbn [snd]; congruence].
    cbn [snd w_sources]. rewrite !replace_nth, Nat.eqb_refl, <- Sc, Es. cbn. f_equal.
    destruct Pa as (Et & En). destruct ps as [tb nm], ps' as [tb' nm']. cbn in Et, En. subst tb'.
    exact (proj2 (proj2 (Parse_agree tb nm nm' fuel src En))).
Qed.

Lemma exec_alike s w w' c : alike s w w' -> alike s (exec w c) (exec w' c).
Proof.
  intros A. destruct c as [t|m|src|i t|i m|t n|p s' fuel]; [| | | | | |apply call_alike, A];
    pose proof (opt_agree_length _ _ (al_names _ _ _ A)) as L; destruct A as [T P N Ls Sc]; cbn [exec]; split; cbn; try congruence; try exact N; try exact Sc.
  - intros j. rewrite !nth_app_one, <- L. destruct (Nat.eqb j (length (w_names w))); [apply agree_refl|apply N].
  - rewrite !app_length, Ls. reflexivity.
  - rewrite !nth_app_one, <- Ls. destruct (Nat.eqb s (length (w_sources w))); [reflexivity|exact Sc].
  - intros j. rewrite !replace_nth. specialize (N j). destruct (Nat.eqb i j); [|exact N].
    destruct (nth_error (w_names w) j), (nth_error (w_names w') j); try contradiction; [apply agree_refl|exact I].
Qed.

(** Sources keep their kind. *)
Lemma kind_back w c s :
  (forall src, nth_error (w_sources (exec w c)) s = Some src -> rereadable src) ->
  forall src, nth_error (w_sources w) s = Some src -> rereadable src.
Proof.
  intros H src Es. destruct c as [t|m|src'|i t|i m|t n|p s' fuel]; cbn [exec w_sources] in H; try (apply H; exact Es).
  - apply H. rewrite nth_error_app1; [exact Es|]. apply nth_error_Some. congruence.
  - unfold call_parse in H. destruct (parser_now w p) as [ps|]; [|apply H; exact Es].
    destruct (nth_error (w_sources w) s') as [src'|] eqn:Es'; [|apply H; exact Es]. cbn [snd w_sources] in H.
    rewrite replace_nth in H. destruct (Nat.eqb_spec s' s) as [->|Ne]; [|apply H; exact Es].
    rewrite Es in Es'. injection Es' as <-. rewrite Es in H. cbn in H.
    apply (Parse_source_back fuel ps). apply H. reflexivity.
Qed.
Lemma kind_back_all h : forall w s,
  (forall src, nth_error (w_sources (fold_left exec h w)) s = Some src -> rereadable src) ->
  forall src, nth_error (w_sources w) s = Some src -> rereadable src.
Proof.
  induction h as [|c h IH]; intros w s H; [exact H|]. cbn in H. apply (kind_back w c). apply IH. exact H.
Qed.

Lemma thinned_alike s again h h' : thinned s again h h' -> forall w w',
  (again -> forall src, nth_error (w_sources (fold_left exec h w)) s = Some src -> rereadable src) ->
  alike s w w' -> alike s (fold_left exec h w) (fold_left exec h' w').
Proof.
  induction 1 as [|c h h' _ IH|p s' fuel h h' D _ IH]; intros w w' K A; [exact A| |].
  - cbn. apply IH; [exact K|]. apply exec_alike, A.
  - cbn [fold_left] in *. apply IH; [exact K|].
    destruct A as [T P N Ls Sc]. cbn [exec] in *. destruct (call_world w p s' fuel) as (Ct & Cp & Cl & Cs).
    split; try congruence.
    + intros j. eapply opt_agree_trans; [apply opt_agree_sym, names_kept|apply N].
    + destruct (Nat.eq_dec s s') as [<-|Ne]; [|rewrite Cs by exact Ne; exact Sc].
      rewrite source_same; [exact Sc|]. destruct D as [D|D]; [congruence|].
      apply (kind_back w (CallParse p s fuel)). apply (kind_back_all h). exact (K D).
Qed.

(** ** C86 *)
Definition r_err_of (r : gores Empty_set preturn) : option perror :=
  match r with Ok r => r_err r | _ => None end.

(** Calls of Parse that read other sources (or, if the source can be read again,
    any calls of Parse), on this or any other parser, whatever maps they share,
    can be left out of the history of a program without changing what a call
    answers. *)
Theorem C86_independent :
  forall s again h h' p fuel,
    thinned s again h h' ->
    (again -> forall src, nth_error (w_sources (after h)) s = Some src -> rereadable src) ->
    match answer h p s fuel, answer h' p s fuel with
    | Some o, Some o' => same_answer (po_result o) (po_result o')
    | None, None => True
    | _, _ => False
    end.
Proof.
  intros s again h h' p fuel T K. unfold answer.
  pose proof (thinned_alike s again h h' T nothing_yet nothing_yet K (alike_refl _ _)) as A.
  fold (after h) in A. fold (after h') in A. pose proof (parser_alike _ _ _ p A) as Pa. destruct A as [_ _ _ _ Sc].
  unfold call_parse. destruct (parser_now (after h) p) as [ps|], (parser_now (after h') p) as [ps'|]; try contradiction; [|exact I].
  rewrite <- Sc. destruct (nth_error (w_sources (after h)) s) as [src|]; [|exact I]. cbn [fst].
  destruct Pa as (Et & En). destruct ps as [tb nm], ps' as [tb' nm']. cbn in Et, En. subst tb'.
  exact (proj1 (Parse_agree tb nm nm' fuel src En)).
Qed.
Print Assumptions C86_independent.

Lemma after_more h c : after (h ++ [c]) = exec (after h) c.
Proof. unfold after. rewrite fold_left_app. reflexivity. Qed.
Lemma tables_more h c : given_tables (h ++ [c]) = match c with MakeTable t => given_tables h ++ [t] | WriteTable i t => replace (given_tables h) i t | _ => given_tables h end.
Proof. unfold given_tables. rewrite fold_left_app. reflexivity. Qed.
Lemma names_more h c : given_names (h ++ [c]) = match c with MakeNames m => given_names h ++ [m] | WriteNames i m => replace (given_names h) i m | _ => given_names h end.
Proof. unfold given_names. rewrite fold_left_app. reflexivity. Qed.
Lemma parsers_more h c : made_parsers (h ++ [c]) = match c with NewParser t n => made_parsers h ++ [(t, n)] | _ => made_parsers h end.
Proof. unfold made_parsers. rewrite fold_left_app. reflexivity. Qed.

(** Calls of Parse change no table and no parser; of a naming map they change
    no entries but -1 and -2, which they set to fixed names. *)
Theorem C86_maps :
  forall h,
    w_tables (after h) = given_tables h /\
    w_parsers (after h) = made_parsers h /\
    forall j,
      match nth_error (w_names (after h)) j, nth_error (given_names h) j with
      | Some m, Some m' => forall k, map_get Z.eqb k m = map_get Z.eqb k m' \/
          k = (-1)%Z /\ map_get Z.eqb k m = Some (s2b "_literal") \/
          k = (-2)%Z /\ map_get Z.eqb k m = Some (s2b "_nothing")
      | None, None => True
      | _, _ => False
      end.
Proof.
  intros h. split; [|split].
  - induction h as [|c h IH] using rev_ind; [reflexivity|]. rewrite after_more, tables_more, <- IH.
    destruct c as [t|m|src|i t|i m|t n|p s fuel]; try reflexivity. cbn [exec]. apply (call_world (after h) p s fuel).
  - induction h as [|c h IH] using rev_ind; [reflexivity|]. rewrite after_more, parsers_more, <- IH.
    destruct c as [t|m|src|i t|i m|t n|p s fuel]; try reflexivity. cbn [exec]. apply (call_world (after h) p s fuel).
  - induction h as [|c h IH] using rev_ind; intros j; [destruct j; exact I|].
    assert (L : length (w_names (after h)) = length (given_names h)).
    { clear - IH. set (a := w_names (after h)) in *. set (b := given_names h) in *.
      destruct (Nat.lt_total (length a) (length b)) as [L|[E|L]]; [|exact E|].
      - specialize (IH (length a)). rewrite (proj2 (nth_error_None a _)) in IH by lia.
        destruct (nth_error b (length a)) eqn:E; [destruct IH|]. apply nth_error_None in E. lia.
      - specialize (IH (length b)). rewrite (proj2 (nth_error_None b _)) in IH by lia.
        destruct (nth_error a (length b)) eqn:E; [destruct IH|]. apply nth_error_None in E. lia. }
    rewrite after_more, names_more. destruct c as [t|m|src|i t|i m|t n|p s fuel]; try exact (IH j).
    + cbn [exec w_names]. rewrite !nth_app_one, <- L. destruct (Nat.eqb j (length (w_names (after h)))); [left; reflexivity|exact (IH j)].
    + cbn [exec w_names]. rewrite !replace_nth. specialize (IH j). destruct (Nat.eqb i j); [|exact IH].
      destruct (nth_error (w_names (after h)) j), (nth_error (given_names h) j);
        cbn [option_map]; try contradiction; [left; reflexivity|exact I].
    + cbn [exec]. unfold call_parse. destruct (parser_now (after h) p) as [ps|] eqn:Ep; [|exact (IH j)].
      destruct (nth_error (w_sources (after h)) s) as [src|]; [|exact (IH j)]. cbn [snd w_names].
      unfold parser_now in Ep. destruct (nth_error (w_parsers (after h)) p) as [[t [n|]]|]; [| |discriminate]; [|exact (IH j)].
      destruct (nth_error (w_tables (after h)) t) as [tbl|]; [|discriminate]. cbn in Ep.
      destruct (nth_error (w_names (after h)) n) as [m|] eqn:En; [|discriminate]. cbn in Ep. injection Ep as <-.
      rewrite names_left.
      assert (X : forall m1, (m1 = m \/ m1 = names_after m) -> match nth_error (replace (w_names (after h)) n m1) j,
        nth_error (given_names h) j with
        | Some m, Some m' => forall k, map_get Z.eqb k m = map_get Z.eqb k m' \/
          k = (-1)%Z /\ map_get Z.eqb k m = Some (s2b "_literal") \/
          k = (-2)%Z /\ map_get Z.eqb k m = Some (s2b "_nothing")
        | None, None => True
        | _, _ => False
        end).
      { intros m1 M. rewrite replace_nth. specialize (IH j). destruct (Nat.eqb_spec n j) as [->|_]; [|exact IH].
        rewrite En in *. cbn. destruct (nth_error (given_names h) j); [|exact IH].
        destruct M as [->| ->]; [exact IH|]. intros k. unfold names_after. rewrite !(map_get_set Z.eqb Z.eqb_eq).
        destruct (Z.eqb_spec k builtinNothing) as [->|_]; [right; right; auto|].
        destruct (Z.eqb_spec k builtinTerminal) as [->|_]; [right; left; auto|]. apply IH. }
      destruct (result fuel tbl (Some m) src) as [[? ? [?|]]| | |]; apply X; auto.
Qed.
Print Assumptions C86_maps.

(** After any history, a parser answers what a parser that has never been used
    answers whose maps have the contents the caller gave them last. *)
Theorem C86_fresh :
  forall h p src fuel tbl nm,
    made_from h p tbl nm ->
    exists o, answer (h ++ [MakeSource src]) p (length (w_sources (after h))) fuel = Some o /\
      same_answer (po_result o) (po_result (Parse fuel (NewLL1Parser tbl nm) src)).
Proof.
  intros h p src fuel tbl nm (t & n & Ep & Et & En). destruct (C86_maps h) as (Wt & Wp & Wn).
  assert (P : exists nm', parser_now (after h) p = Some (NewLL1Parser tbl nm') /\ agree_names nm' nm).
  { unfold parser_now. rewrite Wp, Ep, Wt, Et. destruct n as [j|], nm as [m|]; try contradiction; cbn [names_now].
    - specialize (Wn j). rewrite En in Wn. destruct (nth_error (w_names (after h)) j) as [m'|]; [|contradiction].
      exists (Some m'). split; [reflexivity|]. intros k N1 N2. destruct (Wn k) as [E|[(E & _)|(E & _)]]; [exact E|congruence|congruence].
    - exists None. split; [reflexivity|exact I]. }
  destruct P as (nm' & P & Ag). unfold answer. rewrite after_more. cbn [exec]. unfold call_parse. cbn [w_sources].
  change (parser_now _ p) with (parser_now (after h) p) at 1. rewrite P, nth_app_one, Nat.eqb_refl. cbn [fst].
  eexists. split; [reflexivity|]. exact (proj1 (Parse_agree tbl nm' nm fuel src Ag)).
Qed.
Print Assumptions C86_fresh.

(** A reader that has been read delivers nothing more, so a source that is a
    reader is good for one call (with a table that can be used). *)
Theorem C86_reader_once :
  forall h p s fuel tbl nm r,
    made_from h p tbl nm -> has_row0 tbl ->
    nth_error (w_sources (after h)) s = Some (SrcReader r) ->
    nth_error (w_sources (after (h ++ [CallParse p s fuel]))) s = Some (SrcReader (mkReader [] (rd_end r))).
Proof.
  intros h p s fuel tbl nm r (t & n & Ep & Et & En) (rw & E0) Es. destruct (C86_maps h) as (Wt & Wp & Wn).
  assert (P : exists nm', parser_now (after h) p = Some (NewLL1Parser tbl nm')).
  { unfold parser_now. rewrite Wp, Ep, Wt, Et. destruct n as [j|]; cbn [names_now]; [|eexists; reflexivity].
    destruct nm as [m|]; [|contradiction]. specialize (Wn j). rewrite En in Wn.
    destruct (nth_error (w_names (after h)) j) as [m'|]; [|contradiction]. eexists. reflexivity. }
  destruct P as (nm' & P). rewrite after_more. cbn [exec]. unfold call_parse. rewrite P, Es. cbn [snd w_sources].
  rewrite replace_nth, Nat.eqb_refl, Es. cbn. unfold Parse, NewLL1Parser. cbn [p_table p_names].
  change (table_get 0 tbl = Some rw) in E0. destruct tbl as [|x tb]; [discriminate|].
  rewrite E0. cbn [readSource]. destruct r as [ch [e|]]; cbn [rd_end rd_chunks]; [reflexivity|].
  destruct (run (x :: tb) (concat ch) nm' fuel init_state). reflexivity.
Qed.
Print Assumptions C86_reader_once.

(** Two parsers on the same two maps and one with its own table; in between the
    caller changes the table and a name. *)
Definition story : list call :=
  [MakeTable ex_table; MakeNames ex_names; NewParser 0 (Some 0); NewParser 0 (Some 0);
   MakeSource (SrcString ex_text); MakeSource (SrcReader (mkReader [ex_text] None));
   CallParse 0 0 100; CallParse 1 1 100; WriteNames 0 [(0%Z, s2b "other")]; CallParse 0 1 100;
   WriteTable 0 (only 7); MakeTable ex_table; NewParser 1 (Some 0); CallParse 2 0 100].
Example C86_case :
  option_map (fun o => r_err_of (po_result o)) (answer story 0 0 100) =
    Some (Some (ENoRulesForNonTerminal (s2b "Unknown_7"))) /\
  option_map (fun o => succeeded (po_result o)) (answer story 2 0 100) = Some true /\
  nth_error (w_sources (after story)) 1 = Some (SrcReader (mkReader [] None)) /\
  nth_error (w_names (after story)) 0 =
    Some [(0%Z, s2b "other"); ((-1)%Z, s2b "_literal"); ((-2)%Z, s2b "_nothing")] /\
  made_from story 2 ex_table (Some [(0%Z, s2b "other")]) /\
  thinned 0 False story (firstn 7 story ++ [WriteNames 0 [(0%Z, s2b "other")]] ++ skipn 10 story).
Proof.
  split; [vm_compute; reflexivity|]. split; [vm_compute; reflexivity|]. split; [vm_compute; reflexivity|].
  split; [vm_compute; reflexivity|]. split.
  { exists 1, (Some 0). split; [reflexivity|]. split; [reflexivity|]. reflexivity. }
  unfold story. cbn [firstn skipn app].
  repeat (first [apply th_end|apply th_keep|apply th_drop; [left; discriminate|]]).
Qed.
