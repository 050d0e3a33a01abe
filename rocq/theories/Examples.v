(** * Examples: model of the code of examples/parseownsyntax/main.go and
    examples/json/main.go *)
From Verif Require Import Base Cst Ast Parser SelfGrammar TableGen TableGenOutput FromCst Messages.

(** ** Programs

    What can be seen of a program from outside: it exits with what it wrote and
    an exit code; it crashes (an unrecovered panic; Go then writes a trace to
    standard error and exits with code 2, which is not modelled); or it is still
    running when the fuel is used up. Simplification: writing to standard output
    and error does not fail. *)
Inductive process : Type :=
| Exited (stdout stderr : bytes) (exit_code : nat)
| Crashed (stdout : bytes) (p : gopanic)
| Running.

(** fmt.Println and fmt.Fprintln of strings: blanks between them, then LF *)
Definition line_with (args : list bytes) : bytes := spaced args ++ [LF].

(** ** examples/parseownsyntax/main.go *)

(** Result of a comparison: the answer, or the end of the process by
    os.Exit(1) (main.go:47-49). *)
Inductive answer := Answer (v : bool) | Exit1.

(** main.go:17-25 [isNonTerminalsEqual], [isTerminalsEqual] *)
Definition isNonTerminalsEqual (a b : bytes) : bool := bytes_eqb a b.
Definition isTerminalsEqual (a b : bytes) : bool := bytes_eqb a b.

(** main.go:27-50 [isSymbolsEqual]. Simplification: all foreign implementations
    of Symbol are taken to have one and the same fourth type. *)
Definition isSymbolsEqual (a b : symbol) : answer :=
  match a, b with
  | SNonTerminal x, SNonTerminal y => Answer (isNonTerminalsEqual x y)
  | STerminal x, STerminal y => Answer (isTerminalsEqual x y)
  | SNothing, SNothing => Answer true
  | SUnknown _, SUnknown _ => Exit1
  | _, _ => Answer false
  end.

(** main.go:57-61, 71-75, 93-97 the loops [for i := range a { if !eq(a[i], b[i])
    { return false } }; return true]; the lengths have been compared before, so
    the last case is not reached. *)
Fixpoint all_equal {A} (eq : A -> A -> answer) (a b : list A) : answer :=
  match a, b with
  | [], _ => Answer true
  | x :: a', y :: b' =>
      match eq x y with
      | Answer true => all_equal eq a' b'
      | r => r
      end
  | _ :: _, [] => Exit1
  end.

(** main.go:52-64 [isSequencesEqual] *)
Definition isSequencesEqual (a b : sequence) : answer :=
  if negb (Nat.eqb (length a) (length b)) then Answer false else all_equal isSymbolsEqual a b.

(** main.go:66-77 [isSubstitutionsEqual] *)
Definition isSubstitutionsEqual (a b : substitution) : answer :=
  if negb (Nat.eqb (length a) (length b)) then Answer false else all_equal isSequencesEqual a b.

(** main.go:79-86 [isRulesEqual] *)
Definition isRulesEqual (a b : rule) : answer :=
  if negb (isNonTerminalsEqual (r_head a) (r_head b)) then Answer false
  else isSubstitutionsEqual (r_tail a) (r_tail b).

(** main.go:88-100 [isGrammarsEqual] *)
Definition isGrammarsEqual (a b : grammar) : answer :=
  if negb (Nat.eqb (length a) (length b)) then Answer false else all_equal isRulesEqual a b.

(** main.go:102-138 [main]. [order] is the map iteration order in FromGrammar,
    [typename] what %T prints there, [foreign] the decimal number of the fourth
    type of isSymbolsEqual. *)
Definition selfsyntax_main (order : list (bytes * nat) -> list (bytes * nat)) (typename foreign : bytes)
    (fuel : nat) : process :=
  let reference := SelfGrammar in
  let bnfStr := grammar_string reference in
  let (out, made) := FromGrammar_io order fuel reference in
  match made with
  | Err e => Exited out (line_with [s2b "ERROR: can't build Parser table from grammar:"; tgerror_string typename e]) 1
  | Panic p => Crashed out p
  | NoFuel => Running
  | Ok (tbl, names) =>
  match po_result (Parse fuel (NewLL1Parser tbl (Some names)) (SrcString bnfStr)) with
  | Err e => match e with end
  | Panic p => Crashed out p
  | NoFuel => Running
  | Ok (mkRet _ _ (Some e)) => Exited out (line_with [s2b "ERROR: can't parse input:"; perror_string e]) 1
  | Ok (mkRet None _ None) => Crashed out PanicNilNode
  | Ok (mkRet (Some cst) _ None) =>
  match ToAST SelfCSTtoASTBindings cst bnfStr with
  | Err e => Exited out (line_with [s2b "ERROR: can't build AST from CST:"; fcerror_string e]) 1
  | Panic p => Crashed out p
  | NoFuel => Running
  | Ok result =>
  match isGrammarsEqual reference result with
  | Exit1 => Exited out (line_with [s2b "ERROR: unknown BNF type:"; foreign]) 1
  | Answer false => Exited out (line_with [s2b "ERROR: final AST not equal to initial"]) 1
  | Answer true => Exited (out ++ line_with [s2b "Resulted AST equal to initial"]) [] 0
  end end end end.

(** ** examples/json/main.go *)

(** [n.Childs()[i]] *)
Definition child (n : node) (i : nat) : gores Empty_set node :=
  match nth_error (n_childs n) i with Some c => Ok c | None => Panic PanicIndex end.

(** main.go:110-134 [keyPrintingVisitor.Visit]: the visitor is its level, the
    state what has been printed so far. *)
Definition keyVisit (str : bytes) (level : nat) (out : bytes) (n : node)
  : gores Empty_set (bytes * option nat) :=
  let nt := n_type n in
  if (10 <? nt)%Z then Ok (out, None)
  else
    go out <-
      (if (nt =? 6)%Z then
         go c <- child n 0;
         go s <- child c 1;
         go key <- slice str (n_pos s) (n_end s);
         Ok (out ++ concat (repeat (s2b "  ") level) ++ key ++ [LF])
       else Ok out);
    let level := if (nt =? 9)%Z || (nt =? 10)%Z then S level else level in
    Ok (out, Some level).

(** main.go:91, 93: the printed key structure *)
Definition printKeys (str : bytes) (jsonCST : node) : gores Empty_set bytes :=
  walk (keyVisit str) 0 [] jsonCST.

(** Once more, with what has been printed when it panics: the state is that, and
    the panic if there was one, behind which nothing happens any more. *)
Definition or_crash {A B} (out : bytes) (x : gores Empty_set A)
    (k : A -> gores Empty_set ((bytes * option gopanic) * option B)) : gores Empty_set ((bytes * option gopanic) * option B) :=
  match x with
  | Ok a => k a
  | Err e => match e with end
  | Panic p => Ok ((out, Some p), None)
  | NoFuel => NoFuel
  end.
(** main.go:110-134 [keyPrintingVisitor.Visit] *)
Definition keyVisit_io (str : bytes) (level : nat) (st : bytes * option gopanic) (n : node)
  : gores Empty_set ((bytes * option gopanic) * option nat) :=
  match st with
  | (out, Some p) => Ok ((out, Some p), None)
  | (out, None) =>
      let nt := n_type n in
      if (10 <? nt)%Z then Ok ((out, None), None)
      else
        let level' := if (nt =? 9)%Z || (nt =? 10)%Z then S level else level in
        if (nt =? 6)%Z then
          or_crash out (child n 0) (fun c =>
          or_crash out (child c 1) (fun s =>
          let out := out ++ concat (repeat (s2b "  ") level) in
          or_crash out (slice str (n_pos s) (n_end s)) (fun key =>
          Ok ((out ++ key ++ [LF], None), Some level'))))
        else Ok ((out, None), Some level')
  end.

(** A file, read by main.go:30-33 [readFileText]: its bytes, or the text of the
    error of os.ReadFile. *)
Inductive file : Type :=
| Contents (text : bytes)
| Unreadable (msg : bytes).

(** main.go:35-39 [fatalError]; [out] is what standard output has received *)
Definition fatalError (out : bytes) (args : list bytes) : process :=
  Exited out (s2b "ERROR: " ++ line_with args) 1.
Definition println (out : bytes) (s : bytes) : bytes := out ++ line_with [s].

(** main.go:41-94 [main]; [order], [order'] are the map iteration orders in the
    two calls of FromGrammar, [typename] what %T prints there. *)
Definition json_main (order order' : list (bytes * nat) -> list (bytes * nat)) (typename : bytes)
    (fuel : nat) (bnfFile jsonFile : file) : process :=
  match bnfFile with
  | Unreadable msg => fatalError [] [s2b "can't read JSON BNF text:"; msg]
  | Contents jsonBnfText =>
  match jsonFile with
  | Unreadable msg => fatalError [] [s2b "can't read JSON file: "; msg]
  | Contents jsonText =>
  let (out, made) := FromGrammar_io order fuel SelfGrammar in
  match made with
  | Err e => fatalError out [s2b "can't build parser table from BNF grammar:"; tgerror_string typename e]
  | Panic p => Crashed out p
  | NoFuel => Running
  | Ok (bnfTable, bnfNames) =>
  match po_result (Parse fuel (NewLL1Parser bnfTable (Some bnfNames)) (SrcString jsonBnfText)) with
  | Err e => match e with end
  | Panic p => Crashed out p
  | NoFuel => Running
  | Ok (mkRet _ _ (Some e)) => fatalError out [s2b "can't parse JSON BNF text:"; perror_string e]
  | Ok (mkRet None _ None) => Crashed out PanicNilNode
  | Ok (mkRet (Some jsonGrammarCst) _ None) =>
  match ToAST SelfCSTtoASTBindings jsonGrammarCst jsonBnfText with
  | Err e => fatalError out [s2b "can't build JSON BNF AST from JSON BNF CST:"; fcerror_string e]
  | Panic p => Crashed out p
  | NoFuel => Running
  | Ok jsonGrammar =>
  let (line, made) := FromGrammar_io order' fuel jsonGrammar in
  let out := out ++ line in
  match made with
  | Err e => fatalError out [s2b "can't build parser table from JSON grammar:"; tgerror_string typename e]
  | Panic p => Crashed out p
  | NoFuel => Running
  | Ok (jsonTable, jsonNames) =>
  let out := println out (s2b "Created table for JSON parser") in
  match po_result (Parse fuel (NewLL1Parser jsonTable (Some jsonNames)) (SrcString jsonText)) with
  | Err e => match e with end
  | Panic p => Crashed out p
  | NoFuel => Running
  | Ok (mkRet _ _ (Some e)) => fatalError out [s2b "can't parse JSON text:"; perror_string e]
  | Ok (mkRet jsonCST _ None) =>
  let out := println out (s2b "Parsed successfully") in
  let out := println out (s2b "JSON key structure:") in
  match jsonCST with
  | None => Exited out [] 0
  | Some t =>
  match walk (keyVisit_io jsonText) 0 (out, None) t with
  | Ok (out, None) => Exited out [] 0
  | Ok (out, Some p) => Crashed out p
  | Err e => match e with end
  | Panic p => Crashed out p
  | NoFuel => Running
  end end end end end end end end end.
