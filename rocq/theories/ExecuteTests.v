(** * ExecuteTests: model of test/executetests.go, the program that runs the
    repository's tests.

    What [go test] prints and whether it fails is a parameter, for each command
    that is started; so is which names lead from one working directory to which
    other one. *)
From Verif Require Import Base.

(** executetests.go:10-13 [testDir] *)
Record testDir := mkTestDir { td_name : bytes; td_tests : list bytes }.

(** executetests.go:15-46 [tests] (without the line that is commented out) *)
Definition repository_tests : list testDir :=
  [mkTestDir (s2b "bnftablegen")
     [s2b "TestLinearMultiRuleGrammarToParsingTableResTable";
      s2b "TestOrGrammarToParsingTableResTable";
      s2b "TestResolvedLRecursiveGrammarToParsingTableResTable";
      s2b "TestBNFGrammarToParsingTableResNamingMap";
      s2b "TestBNFGrammarToParsingTableResTable"];
   mkTestDir (s2b "cst") [s2b "TestFprintTreeNamed"];
   mkTestDir (s2b "parser")
     [s2b "TestCustomParserCanParse";
      s2b "TestLinearMultiRuleParserParse";
      s2b "TestOrParserParse";
      s2b "TestResolvedLRecursiveParserParse";
      s2b "TestBNFParserCanParse1";
      s2b "TestParserParseNamingMap"]].

(** executetests.go:58-64: the names joined by bars; [first] is [i = 0] *)
Fixpoint join_tests (first : bool) (l : list bytes) : bytes :=
  match l with
  | [] => []
  | t :: l' => (if first then [] else s2b "|") ++ t ++ join_tests false l'
  end.
Definition pattern (td : testDir) : bytes := join_tests true (td_tests td).

(** What the program does, as seen from outside. What a started command prints
    goes to the same two streams. *)
Inductive event {C : Type} : Type :=
| Ran (dir : C) (argv : list bytes)
| Out (s : bytes)
| ErrOut (s : bytes).
Arguments event C : clear implicits.

Section Execute.
  (** Working directories, and os.Chdir: the new one, or the text of the error. *)
  Variable C : Type.
  Variable chdir : C -> bytes -> C + bytes.
  (** The [k]-th command: what it prints on either stream, and the error Run
      returns (for instance "exit status 1"). *)
  Variable command : nat -> bytes * bytes * option bytes.

  Definition test_argv (td : testDir) : list bytes :=
    [s2b "go"; s2b "test"; s2b "-v"; s2b "-run"; pattern td].

  (** executetests.go:51-74 [main]: what it does, and its exit code *)
  Fixpoint execute (k : nat) (cwd : C) (tds : list testDir) : list (event C) * nat :=
    match tds with
    | [] => ([], 0)
    | td :: tds' =>
        match chdir cwd (td_name td) with
        | inr e => ([ErrOut (s2b "ERROR: can't open test folder: " ++ e)], 1)
        | inl dir =>
            let '(o, e, err) := command k in
            let printed := match err with None => [] | Some msg => [Out (msg ++ [LF])] end in
            let cwd' := match chdir dir (s2b "..") with inl c => c | inr _ => dir end in
            let (rest, code) := execute (S k) cwd' tds' in
            (Ran dir (test_argv td) :: Out o :: ErrOut e :: printed ++ rest, code)
        end
    end.
  Definition executetests (cwd : C) : list (event C) * nat := execute 0 cwd repository_tests.
End Execute.
