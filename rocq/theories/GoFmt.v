(** * GoFmt: what Go's fmt and strconv print for tables, trees and naming maps.

    The tests of the repository compare such texts with files: [%#v] for tables
    (test/bnftablegen/tablegen_test.go:32, 56, 93, 153), [%v] for trees and
    naming maps (test/parser/parser_test.go:79, 114-115, 168-176).  The
    functions below model the library code behind these verbs (Go 1.19, fmt/print.go,
    fmt/format.go, strconv/quote.go, unicode/utf8). *)
From Verif Require Import Base Cst Parser FromCst.
Local Open Scope N_scope.

(** unicode/utf8 [DecodeRuneInString]: the well-formed sequences of two, three
    and four bytes. *)
Definition between (lo hi : N) (c : ascii) : bool := (lo <=? code c) && (code c <=? hi).
Definition trail : ascii -> bool := between 0x80 0xBF.
Definition valid2 (b0 b1 : ascii) : bool := between 0xC2 0xDF b0 && trail b1.
Definition valid3 (b0 b1 b2 : ascii) : bool :=
  between 0xE0 0xEF b0 && trail b2 &&
  between (if code b0 =? 0xE0 then 0xA0 else 0x80) (if code b0 =? 0xED then 0x9F else 0xBF) b1.
Definition valid4 (b0 b1 b2 b3 : ascii) : bool :=
  between 0xF0 0xF4 b0 && trail b2 && trail b3 &&
  between (if code b0 =? 0xF0 then 0x90 else 0x80) (if code b0 =? 0xF4 then 0x8F else 0xBF) b1.

(** What strconv.Quote (quote.go [appendQuotedWith]) looks at in one round: an
    ASCII byte, a byte that is no UTF-8, or a rune of two to four bytes. *)
Inductive qunit : Type :=
| QByte (b : ascii)
| QBad (b : ascii)
| QRune2 (b0 b1 : ascii)
| QRune3 (b0 b1 b2 : ascii)
| QRune4 (b0 b1 b2 b3 : ascii).

Fixpoint qunits (s : bytes) : list qunit :=
  match s with
  | [] => []
  | b0 :: s1 =>
      if code b0 <? 0x80 then QByte b0 :: qunits s1
      else
        match s1 with
        | [] => [QBad b0]
        | b1 :: s2 =>
            if valid2 b0 b1 then QRune2 b0 b1 :: qunits s2
            else
              match s2 with
              | [] => QBad b0 :: qunits s1
              | b2 :: s3 =>
                  if valid3 b0 b1 b2 then QRune3 b0 b1 b2 :: qunits s3
                  else
                    match s3 with
                    | [] => QBad b0 :: qunits s1
                    | b3 :: s4 =>
                        if valid4 b0 b1 b2 b3 then QRune4 b0 b1 b2 b3 :: qunits s4
                        else QBad b0 :: qunits s1
                    end
              end
        end
  end.

(** The bytes and the number of a rune. *)
Definition qbytes (u : qunit) : bytes :=
  match u with
  | QByte b | QBad b => [b]
  | QRune2 b0 b1 => [b0; b1]
  | QRune3 b0 b1 b2 => [b0; b1; b2]
  | QRune4 b0 b1 b2 b3 => [b0; b1; b2; b3]
  end.
Definition qcode (u : qunit) : N :=
  match u with
  | QByte b | QBad b => code b
  | QRune2 b0 b1 => (code b0 - 0xC0) * 64 + (code b1 - 0x80)
  | QRune3 b0 b1 b2 => ((code b0 - 0xE0) * 64 + (code b1 - 0x80)) * 64 + (code b2 - 0x80)
  | QRune4 b0 b1 b2 b3 =>
      (((code b0 - 0xF0) * 64 + (code b1 - 0x80)) * 64 + (code b2 - 0x80)) * 64 + (code b3 - 0x80)
  end.

(** Hexadecimal digits (strconv: lowerhex), [k] of them, or as many as needed. *)
Definition lowerhex (n : N) : ascii := if n <? 10 then b8 (48 + n) else b8 (87 + n).
Fixpoint hexdigits (k : nat) (n : N) : bytes :=
  match k with O => [] | S k' => hexdigits k' (n / 16) ++ [lowerhex (n mod 16)] end.

Section Quote.
  (** strconv.IsPrint beyond ASCII is a table of Unicode, and how DEL is written
      differs between releases of Go; both are left open. *)
  Variable isprint : N -> bool.
  Variable del_u : bool.

  (** quote.go [appendEscapedRune] *)
  Definition qescape (u : qunit) : bytes :=
    match u with
    | QByte b =>
        if (code b =? 34) || (code b =? 92) then [BSL; b]
        else if between 32 126 b then [b]
        else if code b =? 7 then s2b "\a"
        else if code b =? 8 then s2b "\b"
        else if code b =? 12 then s2b "\f"
        else if code b =? 10 then s2b "\n"
        else if code b =? 13 then s2b "\r"
        else if code b =? 9 then s2b "\t"
        else if code b =? 11 then s2b "\v"
        else if (code b =? 127) && del_u then s2b "\u" ++ hexdigits 4 (code b)
        else s2b "\x" ++ hexdigits 2 (code b)
    | QBad b => s2b "\x" ++ hexdigits 2 (code b)
    | _ =>
        if isprint (qcode u) then qbytes u
        else if qcode u <? 0x10000 then s2b "\u" ++ hexdigits 4 (qcode u)
        else s2b "\U" ++ hexdigits 8 (qcode u)
    end.

  (** quote.go [Quote] *)
  Definition Quote (s : bytes) : bytes := [DQ] ++ flat_map qescape (qunits s) ++ [DQ].

  (** fmt/format.go [fmt0x64]: a byte under %#v. *)
  Definition fmt0x (c : ascii) : bytes :=
    s2b "0x" ++ (if code c <? 16 then hexdigits 1 (code c) else hexdigits 2 (code c)).

  (** Elements with a separator between them. *)
  Definition joined (sep : bytes) (l : list bytes) : bytes :=
    match l with [] => [] | x :: l' => x ++ flat_map (fun y => sep ++ y) l' end.

  (** fmt/print.go [printValue] under %#v for the operands that tables can have
      (parser.go:37-39, 54-56, 71-75, 102-103, 114-116).  Simplification: values
      of a caller's own type are shown as nil (the theorems exclude both). *)
  Definition GoOp (op : ParserOp) : bytes :=
    match op with
    | OpNonTerminal n => s2b "parser.nonTerminal_t{name:" ++ dec_Z n ++ s2b "}"
    | OpTerminal v => s2b "parser.terminal_t{value:" ++ Quote v ++ s2b "}"
    | OpFunction n p a =>
        s2b "parser.function_t{name:" ++ dec_Z n ++ s2b ", pos:" ++ dec_Z (Z.of_nat p) ++
        s2b ", amount:" ++ dec_Z (Z.of_nat a) ++ s2b "}"
    | OpEOS => s2b "parser.opEOS_t{}"
    | OpChar c => s2b "parser.opChar_t{value:" ++ fmt0x c ++ s2b "}"
    | OpNil | OpEmbedding _ => s2b "parser.ParserOp(nil)"
    end.

  (** A cell.  Simplification: no nil slices (FromGrammar makes none). *)
  Definition GoCell (ops : list ParserOp) : bytes :=
    s2b "[]parser.ParserOp{" ++ joined (s2b ", ") (map GoOp ops) ++ s2b "}".

  (** internal/fmtsort: maps are printed in increasing order of their keys. *)
  Definition row_entries (r : row) : list (ascii * list ParserOp) :=
    flat_map (fun k => let c := b8 (N.of_nat k) in
                       match map_get Ascii.eqb c r with Some ops => [(c, ops)] | None => [] end)
             (seq 0 256).
  Definition entries {V} (m : list (Z * V)) : list (Z * V) :=
    flat_map (fun k => match map_get Z.eqb k m with Some v => [(k, v)] | None => [] end)
             (sort_ints (nodup Z.eq_dec (map fst m))).

  Definition GoRow (r : row) : bytes :=
    s2b "map[uint8][]parser.ParserOp{" ++
    joined (s2b ", ") (map (fun e => fmt0x (fst e) ++ s2b ":" ++ GoCell (snd e)) (row_entries r)) ++ s2b "}".

  (** The text of [fmt.Fprintf(w, "%#v", *table)]. *)
  Definition GoTable (tbl : table) : bytes :=
    s2b "map[int]map[uint8][]parser.ParserOp{" ++
    joined (s2b ", ") (map (fun e => dec_Z (fst e) ++ s2b ":" ++ GoRow (snd e)) (entries tbl)) ++ s2b "}".
End Quote.

(** The text of [fmt.Fprintf(w, "%v", tree)] (cst.go:10-15 the fields). *)
Fixpoint GoTree (t : node) : bytes :=
  match t with
  | Node ty s e childs =>
      s2b "{" ++ dec_Z ty ++ s2b " " ++ dec_Z s ++ s2b " " ++ dec_Z e ++ s2b " [" ++
      joined (s2b " ") (map GoTree childs) ++ s2b "]}"
  end.

(** The text of [fmt.Fprintf(w, "%v", names)]. *)
Definition GoNames (m : list (Z * bytes)) : bytes :=
  s2b "map[" ++ joined (s2b " ") (map (fun e => dec_Z (fst e) ++ s2b ":" ++ snd e) (entries m)) ++ s2b "]".
