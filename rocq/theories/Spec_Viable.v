(** * Spec_Viable: beginnings of words. *)
From Verif Require Import Base Ast Parser Spec_Grammar.

(** [u] can be completed to a word. *)
Definition viable (g : grammar) (u : bytes) : Prop := exists v, word g (u ++ v).

(** Every rule derives some string of bytes. *)
Definition productive (g : grammar) : Prop :=
  forall n, defined g n -> exists w, yields g [NT n] (chars w).

(** The error is about meeting byte [b] (0: the end of the text). *)
Definition about_byte (e : perror) (b : ascii) : Prop :=
  match e with
  | EExpectedChar _ b' | ENoRulesForByte b' _ | EExpectedEnd b' => b' = b
  | _ => False
  end.

(** In the derivation of some word, [n] stands directly before [x] ([None]: at
    the end). For grammars whose rules all derive some string this is [follow]. *)
Definition follows_in_word (g : grammar) (n : bytes) (x : option ascii) : Prop :=
  exists a b w w', yields g [NT (start g)] (a ++ NT n :: b) /\
    yields g a (chars w) /\ yields g b (chars w') /\ hd_error w' = x.
