(** * Histories: programs that use several parsers and go on using their maps.

    A parser holds references to the caller's two maps (parser.go:138-146), so
    parsers may share maps, the caller may change them between calls, and a
    successful call changes the naming map (parser.go:361-371).  The world of
    such a program: the maps and sources it has made, and the parsers made from
    them.  Numbers are references (indices into these lists). *)
From Verif Require Import Base Cst Parser.

Record world := mkWorld {
  w_tables : list table;
  w_names : list (list (Z * bytes));     (* naming maps that are not nil *)
  w_sources : list source;
  w_parsers : list (nat * option nat) }. (* table and naming map (None: nil) of each parser *)
Definition nothing_yet : world := mkWorld [] [] [] [].

(** What the program does next.  Writing a map stands for any change of it by
    the caller (entries added, changed, removed, rows that it shares with
    another table); a table may be nil, which reads like an empty one. *)
Inductive call : Type :=
| MakeTable (t : table)
| MakeNames (m : list (Z * bytes))
| MakeSource (s : source)
| WriteTable (i : nat) (t : table)
| WriteNames (i : nat) (m : list (Z * bytes))
| NewParser (t : nat) (n : option nat)          (* parser.go:143-146 *)
| CallParse (p : nat) (s : nat) (fuel : nat).   (* parser.go:474-499 *)

Fixpoint replace {A} (l : list A) (i : nat) (x : A) : list A :=
  match l, i with
  | [], _ => []
  | _ :: l', O => x :: l'
  | y :: l', S i' => y :: replace l' i' x
  end.

(** The parser's maps as they are now: [None] if there is no such map. *)
Definition names_now (w : world) (n : option nat) : option names_map :=
  match n with
  | None => Some None
  | Some j => option_map Some (nth_error (w_names w) j)
  end.
Definition parser_now (w : world) (p : nat) : option ll1parser :=
  match nth_error (w_parsers w) p with
  | None => None
  | Some (t, n) =>
      match nth_error (w_tables w) t, names_now w n with
      | Some tbl, Some nm => Some (NewLL1Parser tbl nm)
      | _, _ => None
      end
  end.

(** A call of Parse: what it answers and the world it leaves. *)
Definition call_parse (w : world) (p s fuel : nat) : option parse_out * world :=
  match parser_now w p, nth_error (w_sources w) s with
  | Some ps, Some src =>
      let out := Parse fuel ps src in
      (Some out,
       mkWorld (w_tables w)
         (match nth_error (w_parsers w) p, po_names out with
          | Some (_, Some j), Some m => replace (w_names w) j m
          | _, _ => w_names w
          end)
         (replace (w_sources w) s (po_source out)) (w_parsers w))
  | _, _ => (None, w)
  end.

Definition exec (w : world) (c : call) : world :=
  match c with
  | MakeTable t => mkWorld (w_tables w ++ [t]) (w_names w) (w_sources w) (w_parsers w)
  | MakeNames m => mkWorld (w_tables w) (w_names w ++ [m]) (w_sources w) (w_parsers w)
  | MakeSource s => mkWorld (w_tables w) (w_names w) (w_sources w ++ [s]) (w_parsers w)
  | WriteTable i t => mkWorld (replace (w_tables w) i t) (w_names w) (w_sources w) (w_parsers w)
  | WriteNames i m => mkWorld (w_tables w) (replace (w_names w) i m) (w_sources w) (w_parsers w)
  | NewParser t n => mkWorld (w_tables w) (w_names w) (w_sources w) (w_parsers w ++ [(t, n)])
  | CallParse p s fuel => snd (call_parse w p s fuel)
  end.
Definition after (h : list call) : world := fold_left exec h nothing_yet.

(** What a call of Parse answers after the history [h]. *)
Definition answer (h : list call) (p s fuel : nat) : option parse_out :=
  fst (call_parse (after h) p s fuel).
