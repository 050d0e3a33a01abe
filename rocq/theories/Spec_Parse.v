(** * Spec_Parse: what a predictive parsing table means, without stacks.

    [derives tbl src op p t q]: starting at offset [p] of [src], operand [op]
    derives the bytes up to offset [q], with derivation tree [t].  A
    non-terminal is rewritten by the cell chosen by the byte at the current
    offset (end of input reads as the byte 0). *)
From Verif Require Import Base Cst Parser.

(** The byte at an offset; 0 at and behind the end. *)
Definition byte_at (src : bytes) (k : nat) : ascii := nth k src NUL.

(** Text [t] stands at offset [p]. *)
Definition occurs_at (src : bytes) (p : nat) (t : bytes) : Prop :=
  forall i, i < length t -> byte_at src (p + i) = nth i t NUL.

Definition mk (ty : Z) (p q : nat) (childs : list node) : node :=
  Node ty (Z.of_nat p) (Z.of_nat q) childs.
(** The node for "nothing here" and the node for matched text. *)
Definition nothing_at (p : nat) : node := mk (-2) p p [].
Definition literal_at (p q : nat) : node := mk (-1) p q [].

Section Spec.
  Variable tbl : table.
  Variable src : bytes.

  (** The cell of row [n] selected by byte [c]. *)
  Definition cell (n : Z) (c : ascii) (ops : list ParserOp) : Prop :=
    exists r, map_get Z.eqb n tbl = Some r /\ map_get Ascii.eqb c r = Some ops.

  Inductive derives : ParserOp -> nat -> node -> nat -> Prop :=
  | d_terminal t p :
      t <> [] -> occurs_at src p t ->
      derives (OpTerminal t) p (literal_at p (p + length t)) (p + length t)
  | d_terminal_empty p :
      derives (OpTerminal []) p (mk (-1) p p [nothing_at p]) p
  | d_nonterminal n ops p childs q :
      (0 <= n)%Z -> cell n (byte_at src p) ops -> ops <> [] ->
      derives_all ops p childs q ->
      derives (OpNonTerminal n) p (mk n p q childs) q
  | d_nonterminal_empty n p :
      (0 <= n)%Z -> cell n (byte_at src p) [] ->
      derives (OpNonTerminal n) p (mk n p p [nothing_at p]) p
  | d_eol_lf p :
      byte_at src p = LF ->
      derives (OpNonTerminal (-2)) p (mk (-2) p (p + 1) [literal_at p (p + 1)]) (p + 1)
  | d_eol_crlf p :
      byte_at src p = CR -> byte_at src (p + 1) = LF ->
      derives (OpNonTerminal (-2)) p
        (mk (-2) p (p + 2) [literal_at p (p + 1); literal_at (p + 1) (p + 2)]) (p + 2)
  with derives_all : list ParserOp -> nat -> list node -> nat -> Prop :=
  | d_nil p : derives_all [] p [] p
  | d_cons op ops p t m ts q :
      derives op p t m -> derives_all ops m ts q ->
      derives_all (op :: ops) p (t :: ts) q.

  (** Deriving a whole text: row 0, from its start, up to the end of input. *)
  Definition derives_text (t : node) : Prop :=
    exists q, derives (OpNonTerminal 0) 0 t q /\ byte_at src q = NUL.

  (** ** Failures, as predictive rewriting of sentential forms *)

  (** A sentential form: rows still to be rewritten and bytes still to match. *)
  Inductive item : Type := Row (n : Z) | Byte (c : ascii).

  Definition items_of (op : ParserOp) : list item :=
    match op with
    | OpNonTerminal n => [Row n]
    | OpTerminal t => map Byte t
    | _ => []
    end.
  Definition items (ops : list ParserOp) : list item := flat_map items_of ops.

  (** One step: match the byte at the current offset, or rewrite the first row
      by the cell that this byte selects. The configuration is the number of
      bytes matched so far and the form left. *)
  Inductive rewrites : nat * list item -> nat * list item -> Prop :=
  | rw_byte c k form :
      byte_at src k = c -> rewrites (k, Byte c :: form) (S k, form)
  | rw_row n ops k form :
      (0 <= n)%Z -> cell n (byte_at src k) ops ->
      rewrites (k, Row n :: form) (k, items ops ++ form)
  | rw_eol_lf k form :
      byte_at src k = LF -> rewrites (k, Row (-2) :: form) (k, Byte LF :: form)
  | rw_eol_cr k form :
      byte_at src k = CR -> rewrites (k, Row (-2) :: form) (k, Byte CR :: Byte LF :: form).

  Inductive rewrites_star : nat * list item -> nat * list item -> Prop :=
  | rws_refl c : rewrites_star c c
  | rws_step c1 c2 c3 : rewrites c1 c2 -> rewrites_star c2 c3 -> rewrites_star c1 c3.

  (** The name of a row in messages. *)
  Definition row_name (names : names_map) (n : Z) : bytes :=
    match names with
    | Some m => match map_get Z.eqb n m with
                | Some s => s
                | None => s2b "Unknown_" ++ dec_Z n
                end
    | None => s2b "Unknown_" ++ dec_Z n
    end.

  (** [stuck names k form e]: with [k] bytes matched and [form] left, nothing
      can be done, and [e] says why. *)
  Inductive stuck (names : names_map) (k : nat) : list item -> perror -> Prop :=
  | st_byte c form :
      byte_at src k <> c -> stuck names k (Byte c :: form) (EExpectedChar c (byte_at src k))
  | st_no_row n form :
      (0 <= n)%Z -> map_get Z.eqb n tbl = None ->
      stuck names k (Row n :: form) (ENoRulesForNonTerminal (row_name names n))
  | st_no_cell n r form :
      (0 <= n)%Z -> map_get Z.eqb n tbl = Some r ->
      map_get Ascii.eqb (byte_at src k) r = None ->
      stuck names k (Row n :: form) (ENoRulesForByte (byte_at src k) (row_name names n))
  | st_eol form :
      byte_at src k <> LF -> byte_at src k <> CR ->
      stuck names k (Row (-2) :: form) (ENoRulesEOL (byte_at src k))
  | st_builtin n form :
      (n < 0)%Z -> n <> (-2)%Z -> stuck names k (Row n :: form) (EUnknownBuiltin n)
  | st_end :
      byte_at src k <> NUL -> stuck names k [] (EExpectedEnd (byte_at src k)).

  (** The text is refused with error [e], [k] bytes of it having been matched. *)
  Definition refuses (names : names_map) (k : nat) (e : perror) : Prop :=
    exists form, rewrites_star (0, [Row 0]) (k, form) /\ stuck names k form e.
End Spec.

(** A table that code outside the package can build. *)
Definition table_public (tbl : table) : Prop :=
  forall n r c ops, In (n, r) tbl -> In (c, ops) r ->
    Forall (fun op => op_public op = true) ops.

(** The table whose row 0 hands every byte to the operand [n]. *)
Definition all_bytes : list ascii := map (fun k => b8 (N.of_nat k)) (seq 0 256).
Definition only (n : Z) : table := [(0%Z, map (fun c => (c, [OpNonTerminal n])) all_bytes)].
