(** * Conformance: the model reproduces outputs recorded from the Go program.

    Tests, not proofs: every example evaluates the model on an input for which
    the repository stores the output of the real code (test/**/*.bin) or
    asserts it in a test, and compares. *)
From Verif Require Import Base ByteSet Cst Parser Ast SelfGrammar TableGen FromCst
  ExamplesModel RefTables.

(** All bytes in increasing order. *)
Definition all_bytes : list ascii := map (fun n => b8 (N.of_nat n)) (seq 0 256).

(** A table listed in key order, rows 0..n-1, as Go's %#v prints maps. *)
Definition dump_row (r : row) : row :=
  flat_map (fun c => match row_get c r with Some ops => [(c, ops)] | None => [] end)
    all_bytes.
Definition dump (t : table) : table :=
  flat_map (fun i => match table_get (Z.of_nat i) t with
                     | Some r => [(Z.of_nat i, dump_row r)] | None => [] end)
    (seq 0 (List.length t)).
Definition gen (g : grammar) : option table :=
  match FromGrammar 100 g with Ok (t, _) => Some (dump t) | _ => None end.

(** test/bnftablegen/tablegen_test.go *)
Example table_linear : gen LinearMultiRule = Some ref_linear.
Proof. vm_compute. reflexivity. Qed.
Example table_or : gen OrGrammar = Some ref_or.
Proof. vm_compute. reflexivity. Qed.
Example table_resolved : gen ResolvedLRecursive = Some ref_resolved.
Proof. vm_compute. reflexivity. Qed.
Example table_bnf : gen SelfGrammar = Some ref_bnf.
Proof. vm_compute. reflexivity. Qed.

(** test/parser/parser_test.go: trees, naming maps and error texts. *)
Definition try (g : grammar) (s : bytes) : option (option node) * option bytes :=
  match FromGrammar 100 g with
  | Ok (t, n) =>
      match po_result (Parse 10000 (NewLL1Parser t (Some n)) (SrcString s)) with
      | Ok r => (Some (r_tree r), option_map perror_string (r_err r))
      | _ => (None, None)
      end
  | _ => (None, None)
  end.

Definition N' t s e c : node := Node t s e c.
Local Open Scope Z_scope.

(** refTetsLinearMultiRuleParserParse10.bin *)
Example parse_linear : try LinearMultiRule (s2b "A::=C") =
  (Some (Some (N' 0 0 5 [N' (-1) 0 1 []; N' (-1) 1 4 []; N' 1 4 5 [N' (-1) 4 5 []]])), None).
Proof. vm_compute. reflexivity. Qed.
(** parser_test.go:182-210 *)
Example err_linear_1 : snd (try LinearMultiRule (s2b "!::=C")) =
  Some (s2b "no rules for '!' (33) and non terminal op <Expr>").
Proof. vm_compute. reflexivity. Qed.
Example err_linear_2 : snd (try LinearMultiRule (s2b "A:!=C")) =
  Some (s2b "expected char ':' (58), got '!' (33)").
Proof. vm_compute. reflexivity. Qed.
Example err_linear_3 : snd (try LinearMultiRule (s2b "A::=!")) =
  Some (s2b "no rules for '!' (33) and non terminal op <T>").
Proof. vm_compute. reflexivity. Qed.
Example err_linear_4 : snd (try LinearMultiRule (s2b "A::=C!")) =
  Some (s2b "expected end of input got '!' (33)").
Proof. vm_compute. reflexivity. Qed.
(** refTestOrParserParse10.bin, refTestOrParserParse20.bin *)
Example parse_or_1 : try OrGrammar [DQ; "B"; "^"]%char =
  (Some (Some (N' 0 0 3 [N' (-1) 0 1 []; N' 1 1 2 [N' (-1) 1 2 []]; N' (-1) 2 3 []])), None).
Proof. vm_compute. reflexivity. Qed.
Example parse_or_2 : try OrGrammar [DQ; "^"]%char =
  (Some (Some (N' 0 0 2 [N' (-1) 0 1 []; N' 1 1 1 [N' (-2) 1 1 []]; N' (-1) 1 2 []])), None).
Proof. vm_compute. reflexivity. Qed.
(** refTestResolvedLRecursiveParserParse10.bin, ..20.bin *)
Example parse_resolved_1 : try ResolvedLRecursive (s2b "_B") =
  (Some (Some (N' 0 0 2 [N' (-1) 0 1 []; N' 1 1 2 [N' (-1) 1 2 []; N' 1 2 2 [N' (-2) 2 2 []]]])), None).
Proof. vm_compute. reflexivity. Qed.
Example parse_resolved_2 : try ResolvedLRecursive (s2b "_") =
  (Some (Some (N' 0 0 1 [N' (-1) 0 1 []; N' 1 1 1 [N' (-2) 1 1 []]])), None).
Proof. vm_compute. reflexivity. Qed.
(** refTestResolvedLRecursiveParserParse30.bin *)
Example parse_resolved_3 : try ResolvedLRecursive (s2b "_BBBBBBB") =
  (Some (Some
    (N' 0 0 8 [N' (-1) 0 1 []; N' 1 1 8 [N' (-1) 1 2 []; N' 1 2 8 [N' (-1) 2 3 [];
     N' 1 3 8 [N' (-1) 3 4 []; N' 1 4 8 [N' (-1) 4 5 []; N' 1 5 8 [N' (-1) 5 6 [];
     N' 1 6 8 [N' (-1) 6 7 []; N' 1 7 8 [N' (-1) 7 8 []; N' 1 8 8 [N' (-2) 8 8 []]]]]]]]]])), None).
Proof. vm_compute. reflexivity. Qed.
