(** * TestFiles: model of the repository's tests that compare printed tables,
    trees and naming maps with reference files. *)
From Verif Require Import Base Ast Cst Parser TableGen FromCst TestTools GoFmt.

(** bytes.Buffer, filled with [s] (tablegen_test.go:31, parser_test.go:166): the
    answers to Read with the buffers of ReaderContentMustBeEqual: full ones, then
    the rest, then io.EOF. *)
Fixpoint reads (fuel : nat) (s : bytes) : reader :=
  match fuel, s with
  | S fuel', _ :: _ => (firstn bufsize s, None) :: reads fuel' (skipn bufsize s)
  | _, _ => []
  end.
Definition buffer (s : bytes) : reader := reads (length s) s.

Section TestFiles.
  Variable isprint : N -> bool.
  Variable del_u : bool.

  (** test/bnftablegen/tablegen_test.go:14-35, 37-58, 74-95, 136-156 the table
      tests; [file]: the answers of the reference file ([None]: it cannot be
      opened), [g] the grammar.  True: the test passes. *)
  Definition table_test (order : list (bytes * nat) -> list (bytes * nat)) (fuel : nat) 
      (file : option reader) (g : grammar) : gores Empty_set bool :=
    match file with
    | None => Ok false
    | Some f =>
        match FromGrammar_order order fuel g with
        | Ok (tbl, _) => Ok (ReaderContentMustBeEqual f (buffer (GoTable isprint del_u tbl)))
        | Err _ => Ok false
        | Panic p => Panic p
        | NoFuel => NoFuel
        end
    end.

  (** tablegen_test.go:60-72 [TestLRecursiveGrammarToParsingTableResErr] *)
  Definition error_test (order : list (bytes * nat) -> list (bytes * nat)) (fuel : nat) (g : grammar) : gores Empty_set bool :=
    match FromGrammar_order order fuel g with
    | Ok _ => Ok false
    | Err _ => Ok true
    | Panic p => Panic p
    | NoFuel => NoFuel
    end.
End TestFiles.

(** test/parser/parser_test.go:68-77 [ParserTestCase]: the input and the expected
    error text or the two reference files. *)
Inductive expected : Type :=
| ExpError (text : bytes)
| ExpFiles (tree names : option reader).
Definition ptest : Type := bytes * expected.

(** parser_test.go:119-178 [performTestsOnParser]: [names] is the naming map of
    the parser, which successful calls of Parse change; [ok]: no failure so far.
    Simplification: what fmt prints for a nil tree or nil map ("<nil>") does not
    occur, Parse returns both without an error. *)
Fixpoint perform (fuel : nat) (tbl : table) (names : names_map) (ok : bool)
    (tests : list ptest) : gores Empty_set bool :=
  match tests with
  | [] => Ok ok
  | (input, exp) :: tests' =>
      let run (files : option (reader * reader)) (text : option bytes) : gores Empty_set bool :=
        let o := Parse fuel (NewLL1Parser tbl names) (SrcString input) in
        match po_result o with
        | Ok ret =>
            match r_err ret, text with
            | Some e, Some t =>                                              (* 150-163 *)
                if bytes_eqb (perror_string e) t then perform fuel tbl (po_names o) ok tests' else Ok false
            | None, None =>
                match r_tree ret, r_names ret, files with
                | Some t, Some (Some m), Some (ft, fn) =>                     (* 166-176 *)
                    perform fuel tbl (po_names o)
                      (ok && ReaderContentMustBeEqual ft (buffer (GoTree t))
                          && ReaderContentMustBeEqual fn (buffer (GoNames m))) tests'
                | _, _, _ => Ok false
                end
            | _, _ => Ok false
            end
        | Err e => match e with end
        | Panic p => Panic p
        | NoFuel => NoFuel
        end in
      match exp with
      | ExpFiles (Some ft) (Some fn) => run (Some (ft, fn)) None
      | ExpFiles _ _ => Ok false                                              (* 125-143 *)
      | ExpError t => run None (Some t)
      end
  end.
Definition performTestsOnParser fuel tbl names tests := perform fuel tbl names true tests.

(** parser_test.go:81-117 [updateTestsOnParser]: the contents written to the two
    files of every case, or a failure ([Ok None]).  Simplification: the files can
    be created, and no two cases share one. *)
Fixpoint updateTestsOnParser (fuel : nat) (tbl : table) (names : names_map) (tests : list (bytes * option bytes))
  : gores Empty_set (option (list (bytes * (bytes + bytes * bytes)))) :=
  match tests with
  | [] => Ok (Some [])
  | (input, Some e) :: tests' =>
      match updateTestsOnParser fuel tbl names tests' with
      | Ok (Some l) => Ok (Some ((input, inl e) :: l))
      | r => r
      end
  | (input, None) :: tests' =>
      let o := Parse fuel (NewLL1Parser tbl names) (SrcString input) in
      match po_result o with
      | Ok ret =>
          match r_err ret, r_tree ret, r_names ret with
          | None, Some t, Some (Some m) =>
              match updateTestsOnParser fuel tbl (po_names o) tests' with
              | Ok (Some l) => Ok (Some ((input, inr (GoTree t, GoNames m)) :: l))
              | r => r
              end
          | _, _, _ => Ok None
          end
      | Err e => match e with end
      | Panic p => Panic p
      | NoFuel => NoFuel
      end
  end.

(** parser_test.go:339-375 [TestParserParseNamingMap] for a grammar and a source;
    [o0] .. [o3]: iteration orders of the loop over the names and of the map
    comparison. *)
Definition naming_test (order : list (bytes * nat) -> list (bytes * nat)) (o0 o1 o2 o3 : list Z -> list Z) (fuel0 fuel : nat)
    (g : grammar) (src : bytes) : gores Empty_set bool :=
  match FromGrammar_order order fuel0 g with
  | Ok (tbl, names) =>
      if existsb (fun e => (fst e <? 0)%Z) names then Ok false
      else
        let ref := fold_left (fun acc k => match map_get Z.eqb k names with
                                           | Some v => map_set Z.eqb k v acc
                                           | None => acc
                                           end) (o0 (map fst names))
                     [(-1, s2b "_literal"); (-2, s2b "_nothing")]%Z in
        match po_result (Parse fuel (NewLL1Parser tbl (Some names)) (SrcString src)) with
        | Ok ret =>
            match r_err ret, r_names ret with
            | None, Some (Some m) => Ok (snd (IsMapsIntStringEqual o1 o2 o3 ref m))
            | _, _ => Ok false
            end
        | Err e => match e with end
        | Panic p => Panic p
        | NoFuel => NoFuel
        end
  | Err _ => Ok false
  | Panic p => Panic p
  | NoFuel => NoFuel
  end.
