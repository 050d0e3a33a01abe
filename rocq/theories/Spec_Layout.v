(** * Spec_Layout: the words a BNF text is made of.

    Without any rule about their order: names in angle brackets, literals, the
    sign ::= and the bar, with blanks anywhere between them, in lines ended by
    LF or CR LF. *)
From Verif Require Import Base Ast Spec_Bnf.

Inductive token : Type :=
| KName (n : bytes)
| KLiteral (v : bytes)   (* the bytes meant, not those written *)
| KDefined
| KBar.

Inductive token_text : bytes -> token -> Prop :=
| kt_name n : name n -> token_text ("<"%char :: n ++ [">"%char]) (KName n)
| kt_literal q raw v : quote q -> quoted q raw v -> token_text (q :: raw ++ [q]) (KLiteral v)
| kt_defined : token_text (s2b "::=") KDefined
| kt_bar : token_text ["|"%char] KBar.

(** The tokens of a text; [None] is the end of a line. *)
Inductive tokens : bytes -> list (option token) -> Prop :=
| tk_end : tokens [] []
| tk_blank t l : tokens t l -> tokens (" "%char :: t) l
| tk_token k x t l : token_text k x -> tokens t l -> tokens (k ++ t) (Some x :: l)
| tk_eol e t l : eol e -> tokens t l -> tokens (e ++ t) (None :: l).

Fixpoint lines (l : list (option token)) : list (list token) :=
  match l with
  | [] => [[]]
  | None :: l => [] :: lines l
  | Some x :: l => match lines l with [] => [[x]] | y :: ys => (x :: y) :: ys end
  end.

(** Two texts that differ only in blanks between tokens, in the kind of line
    ends, in empty lines behind the first, and in how literals are quoted and
    escaped. *)
Definition same_layout (l l' : list (option token)) : Prop :=
  hd [] (lines l) = hd [] (lines l') /\
  filter (fun x => negb (Nat.eqb (length x) 0)) (tl (lines l)) =
  filter (fun x => negb (Nat.eqb (length x) 0)) (tl (lines l')).
Definition relaid (text text' : bytes) : Prop :=
  exists l l', tokens text l /\ tokens text' l' /\ same_layout l l'.

(** All line ends as CR LF. *)
Fixpoint crlf_after (prev : bool) (text : bytes) : bytes :=
  match text with
  | [] => []
  | c :: t =>
      if Ascii.eqb c LF && negb prev then CR :: LF :: crlf_after false t
      else c :: crlf_after (Ascii.eqb c CR) t
  end.
Definition to_crlf : bytes -> bytes := crlf_after false.
