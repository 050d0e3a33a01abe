(** * Props_ExecuteTests: C113, the program that runs the repository's tests. *)
From Verif Require Import Base ExecuteTests Spec_ExecuteTests TGFirsts.

(** ** Lemmas *)
Lemma between_join : forall l, l <> [] -> Forall (fun p => ~ In "|"%char p) l -> between l (join_tests true l).
Proof.
  induction l as [|p l IH]; [contradiction|]. intros _ F. inversion F as [|? ? N F']; subst. cbn [join_tests app].
  destruct l as [|q l].
  - cbn [join_tests]. rewrite app_nil_r. constructor. exact N.
  - change (join_tests false (q :: l)) with ("|"%char :: join_tests true (q :: l)). constructor; [exact N|]. apply IH; [discriminate|exact F'].
Qed.
Lemma bar_cut (p q r s : bytes) : ~ In "|"%char p -> ~ In "|"%char q ->
  p ++ "|"%char :: r = q ++ "|"%char :: s -> p = q /\ r = s.
Proof.
  revert q. induction p as [|c p IH]; intros [|d q] Np Nq E; cbn in E.
  - injection E as ->. auto.
  - injection E as <- _. destruct Nq. left. reflexivity.
  - injection E as -> _. destruct Np. left. reflexivity.
  - injection E as <- E. destruct (IH q) as (-> & ->); [..|exact E|auto]; intros I; [apply Np|apply Nq]; right; exact I.
Qed.
Lemma between_unique l pat : between l pat -> forall l', between l' pat -> l' = l.
Proof.
  assert (Bar : forall a b : bytes, In "|"%char (a ++ "|"%char :: b)) by (intros a b; apply in_app_iff; right; left; reflexivity).
  induction 1 as [p N|p l pat N B IH]; intros l' B'.
  - destruct B' as [p' N'|p' l2 pat2 N' B2]; [reflexivity|]. destruct N. apply Bar.
  - remember (p ++ "|"%char :: pat) as whole eqn:E. destruct B' as [p' N'|p' l2 pat2 N' B2].
    + destruct N'. rewrite E. apply Bar.
    + apply bar_cut in E; [|assumption|assumption]. destruct E as (-> & ->). f_equal. apply IH, B2.
Qed.
Lemma plain_no_bar p : Forall plain p -> ~ In "|"%char p.
Proof.
  intros F I. rewrite Forall_forall in F. specialize (F _ I). unfold plain in F. vm_compute (code "|") in F.
  destruct F as [(A & B)|[(A & B)|[(A & B)|A]]]; (congruence || (apply B; reflexivity) || (apply A; reflexivity) || (discriminate A)).
Qed.

Fixpoint prefixb (p s : bytes) : bool :=
  match p, s with
  | [], _ => true
  | c :: p', d :: s' => Ascii.eqb c d && prefixb p' s'
  | _, [] => false
  end.
Fixpoint occursb (p s : bytes) : bool :=
  prefixb p s || match s with [] => false | _ :: s' => occursb p s' end.
Lemma prefixb_ok p : forall s, prefixb p s = true <-> exists b, s = p ++ b.
Proof.
  induction p as [|c p IH]; intros [|d s]; cbn [prefixb app]; split; try (intros; reflexivity); try discriminate; eauto.
  - intros (b & E). discriminate E.
  - rewrite andb_true_iff, Ascii.eqb_eq, IH. intros (-> & b & ->). eauto.
  - rewrite andb_true_iff, Ascii.eqb_eq, IH. intros (b & E). injection E as -> ->. eauto.
Qed.
Lemma occursb_ok p : forall s, occursb p s = true <-> occurs p s.
Proof.
  induction s as [|c s IH]; cbn [occursb]; rewrite orb_true_iff, prefixb_ok; unfold occurs in *.
  - split.
    + intros [(b & E)|E]; [exists [], b; exact E|discriminate E].
    + intros (a & b & E). left. exists b. destruct a; [exact E|discriminate E].
  - rewrite IH. split.
    + intros [(b & E)|(a & b & E)]; [exists [], b; exact E|exists (c :: a), b; rewrite E; reflexivity].
    + intros ([|d a] & b & E); [left; exists b; exact E|]. injection E as -> E. right. exists a, b. exact E.
Qed.

Definition ran_by {C} (ev : event C) : list (C * list bytes) :=
  match ev with Ran d argv => [(d, argv)] | _ => [] end.

(** ** C113 *)

(** The pattern made of a list of test names selects exactly the tests in whose
    names one of them occurs, and the tests that are listed in particular. *)
Theorem C113_selection :
  forall td name, td_tests td <> [] -> Forall (Forall plain) (td_tests td) ->
    (run_selects (pattern td) name <-> exists p, In p (td_tests td) /\ occurs p name).
Proof.
  intros td name N F.
  assert (B : between (td_tests td) (pattern td)).
  { apply between_join; [exact N|]. eapply Forall_impl; [|exact F]. intros p. apply plain_no_bar. }
  split.
  - intros (l & p & B' & I & O). rewrite (between_unique _ _ B _ B') in I. exists p. auto.
  - intros (p & I & O). exists (td_tests td), p. auto.
Qed.
Print Assumptions C113_selection.

(** Without names it selects every test. *)
Theorem C113_no_names : forall d name, run_selects (pattern (mkTestDir d [])) name.
Proof. intros d name. exists [[]], []. split; [constructor; intros []|]. split; [left; reflexivity|]. exists [], name. reflexivity. Qed.
Print Assumptions C113_no_names.

(** Of the test functions of the repository it runs all but one: the one that
    cannot pass (C110_refuted_error_test). *)
Theorem C113_repository :
  map td_name repository_tests = map fst test_functions /\
  forall d td fs f, In (d, fs) test_functions -> In td repository_tests -> td_name td = d -> In f fs ->
    (run_selects (pattern td) f <-> f <> s2b "TestLRecursiveGrammarToParsingTableResErr").
Proof.
  split; [reflexivity|]. intros d td fs f I T E If.
  assert (P : Forall (fun td => td_tests td <> [] /\ Forall (Forall plain) (td_tests td)) repository_tests).
  { assert (X : forallb (fun td => negb (length (td_tests td) =? 0) && forallb (forallb (fun c =>
       ((48 <=? code c) && (code c <=? 57) || (65 <=? code c) && (code c <=? 90) || (97 <=? code c) && (code c <=? 122) || (code c =? 95))%N)) (td_tests td))
       repository_tests = true) by (vm_compute; reflexivity).
    rewrite forallb_forall in X. apply Forall_forall. intros x Ix. specialize (X x Ix). apply andb_true_iff in X. destruct X as (X1 & X2).
    split; [intros Z; rewrite Z in X1; discriminate|]. apply Forall_forall. intros p Ip. apply Forall_forall. intros c Ic.
    rewrite forallb_forall in X2. specialize (X2 p Ip). rewrite forallb_forall in X2. specialize (X2 c Ic).
    unfold plain. rewrite !orb_true_iff, !andb_true_iff, !N.leb_le, N.eqb_eq in X2. tauto. }
  rewrite Forall_forall in P. destruct (P td T) as (P1 & P2). rewrite (C113_selection td f P1 P2).
  assert (X : forallb (fun e => forallb (fun td => negb (bytes_eqb (td_name td) (fst e)) || forallb (fun f =>
     Bool.eqb (existsb (fun p => occursb p f) (td_tests td)) (negb (bytes_eqb f (s2b "TestLRecursiveGrammarToParsingTableResErr")))) (snd e))
     repository_tests) test_functions = true) by (vm_compute; reflexivity).
  rewrite forallb_forall in X. specialize (X _ I). rewrite forallb_forall in X. specialize (X _ T). cbn [fst snd] in X.
  rewrite E in X. assert (Eb : bytes_eqb d d = true) by (apply bytes_eqb_eq; reflexivity). rewrite Eb in X. cbn [negb orb] in X.
  rewrite forallb_forall in X. specialize (X _ If). apply eqb_prop in X.
  transitivity (existsb (fun p => occursb p f) (td_tests td) = true).
  - rewrite existsb_exists. split; intros (p & Ip & O); exists p; (split; [exact Ip|apply occursb_ok, O]).
  - rewrite X, negb_true_iff. rewrite <- not_true_iff_false, bytes_eqb_eq. reflexivity.
Qed.
Print Assumptions C113_repository.

(** If each directory can be entered and left again, one [go test] is run in
    each, in order, whatever the tests do; and the exit code is 0, also if tests
    fail or [go] cannot be started. *)
Theorem C113_runs :
  forall C chdir command (cwd : C) tds k, 
    (forall td, In td tds -> exists dir, chdir cwd (td_name td) = inl dir /\ chdir dir (s2b "..") = inl cwd) ->
    let (events, exit) := execute C chdir command k cwd tds in
    exit = 0 /\
    Forall2 (fun td run => chdir cwd (td_name td) = inl (fst run) /\
               snd run = [s2b "go"; s2b "test"; s2b "-v"; s2b "-run"; pattern td])
      tds (flat_map ran_by events).
Proof.
  intros C chdir command cwd. induction tds as [|td tds IH]; intros k H; cbn [execute]; [split; [reflexivity|constructor]|].
  destruct (H td (or_introl eq_refl)) as (dir & E & Back). rewrite E.
  destruct (command k) as ((o, e), err). rewrite Back.
  specialize (IH (S k) (fun td' I => H td' (or_intror I))). destruct (execute C chdir command (S k) cwd tds) as (rest, code).
  destruct IH as (-> & IH). split; [reflexivity|]. cbn [flat_map ran_by app].
  assert (X : flat_map ran_by (match err with Some msg => [@Out C (msg ++ [LF])] | None => [] end ++ rest) = flat_map ran_by rest)
    by (destruct err; reflexivity). rewrite X. constructor; [|exact IH]. split; [exact E|reflexivity].
Qed.
Print Assumptions C113_runs.

(** If a directory cannot be entered, the tests of those before it have run,
    the program says so on standard error, ends with exit code 1 and runs no
    others. *)
Theorem C113_missing :
  forall C chdir command (cwd : C) before td after k msg,
    (forall td, In td before -> exists dir, chdir cwd (td_name td) = inl dir /\ chdir dir (s2b "..") = inl cwd) ->
    chdir cwd (td_name td) = inr msg ->
    execute C chdir command k cwd (before ++ td :: after) =
      (fst (execute C chdir command k cwd before) ++ [ErrOut (s2b "ERROR: can't open test folder: " ++ msg)], 1).
Proof.
  intros C chdir command cwd before td after k msg H M. revert k. induction before as [|b before IH]; intros k; cbn [app execute].
  - rewrite M. reflexivity.
  - destruct (H b (or_introl eq_refl)) as (dir & E & Back). rewrite E. destruct (command k) as ((o, e), err). rewrite Back.
    rewrite (IH (fun t I => H t (or_intror I)) (S k)). destruct (execute C chdir command (S k) cwd before) as (rest, code).
    cbn [fst app]. rewrite <- app_assoc. reflexivity.
Qed.
Print Assumptions C113_missing.

(** Once in a directory that cannot be left the next one is looked for in there. *)
Theorem C113_stuck :
  forall C chdir command (cwd dir : C) td next msg k,
    chdir cwd (td_name td) = inl dir -> (exists e, chdir dir (s2b "..") = inr e) ->
    chdir dir (td_name next) = inr msg ->
    snd (execute C chdir command k cwd [td; next]) = 1.
Proof.
  intros C chdir command cwd dir td next msg k E (e & Back) M. cbn [execute]. rewrite E. destruct (command k) as ((o, e'), err).
  rewrite Back, M. reflexivity.
Qed.
Print Assumptions C113_stuck.

(** The program itself, with directories named by paths and commands that fail. *)
Example C113_case :
  let chdir (d n : list ascii) := match d with
     | [] => if existsb (bytes_eqb n) (map td_name repository_tests) then inl n else inr (s2b "no such file or directory")
     | _ => if bytes_eqb n (s2b "..") then inl [] else inr (s2b "no such file or directory") end in
  let (events, exit) := executetests bytes chdir (fun k => (s2b "FAIL", [], Some (s2b "exit status 1"))) [] in
  exit = 0 /\ map fst (flat_map ran_by events) = [s2b "bnftablegen"; s2b "cst"; s2b "parser"] /\
  nth_error (map snd (flat_map ran_by events)) 1 = Some [s2b "go"; s2b "test"; s2b "-v"; s2b "-run"; s2b "TestFprintTreeNamed"] /\
  length events = 12.
Proof. vm_compute. repeat split. Qed.
