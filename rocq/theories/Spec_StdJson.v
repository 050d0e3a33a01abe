(** * Spec_StdJson: standard JSON (json.org, RFC 8259), independent of json.bnf
    and of the dialect of [Spec_Json].

    The rules follow the grammar on json.org one by one. Texts are bytes: any
    byte from 20 hexadecimal on other than the quote and the backslash is a
    string character (whether the bytes form valid UTF-8 is left open, so that
    every standard text is one here). Values keep strings, keys and numbers as
    written ([jvalue] of [Spec_Json]); so does the list of gaps: the white
    space written between the brackets of the empty arrays, in order. *)
From Verif Require Import Base Spec_Bnf Spec_Json.

Definition is_ws (c : ascii) : bool := existsb (Ascii.eqb c) [" "%char; TAB; LF; CR].
Definition white (w : bytes) : Prop := all is_ws w.

Definition is_char (c : ascii) : bool :=
  (32 <=? N_of_ascii c)%N && negb (Ascii.eqb c DQ) && negb (Ascii.eqb c BSL).
Inductive std_body : bytes -> Prop :=
| std_end : std_body []
| std_char c w : is_char c = true -> std_body w -> std_body (c :: w)
| std_escape e w : In e (s2b """\/bfnrt") -> std_body w -> std_body (BSL :: e :: w)
| std_unicode a b c d w :
    is_hex a = true -> is_hex b = true -> is_hex c = true -> is_hex d = true -> std_body w ->
    std_body (BSL :: "u"%char :: a :: b :: c :: d :: w).

Inductive std_value : bytes -> jvalue -> list bytes -> Prop :=
| sv_no_members w : white w -> std_value ("{"%char :: w ++ s2b "}") (JObject []) []
| sv_object t l gs : std_members t l gs -> std_value ("{"%char :: t ++ s2b "}") (JObject l) gs
| sv_no_elements w : white w -> std_value ("["%char :: w ++ s2b "]") (JArray []) [w]
| sv_array t l gs : std_elements t l gs -> std_value ("["%char :: t ++ s2b "]") (JArray l) gs
| sv_string s : std_body s -> std_value (DQ :: s ++ [DQ]) (JString s) []
| sv_number w : number w -> std_value w (JNumber w) []
| sv_true : std_value (s2b "true") JTrue []
| sv_false : std_value (s2b "false") JFalse []
| sv_null : std_value (s2b "null") JNull []
with std_members : bytes -> list (bytes * jvalue) -> list bytes -> Prop :=
| sm_last t k v gs : std_member t k v gs -> std_members t [(k, v)] gs
| sm_more t k v gs rest l gs' : std_member t k v gs -> std_members rest l gs' ->
    std_members (t ++ ","%char :: rest) ((k, v) :: l) (gs ++ gs')
with std_member : bytes -> bytes -> jvalue -> list bytes -> Prop :=
| sm w k w' t v gs : white w -> std_body k -> white w' -> std_element t v gs ->
    std_member (w ++ DQ :: k ++ DQ :: w' ++ ":"%char :: t) k v gs
with std_elements : bytes -> list jvalue -> list bytes -> Prop :=
| se_last t v gs : std_element t v gs -> std_elements t [v] gs
| se_more t v gs rest l gs' : std_element t v gs -> std_elements rest l gs' ->
    std_elements (t ++ ","%char :: rest) (v :: l) (gs ++ gs')
with std_element : bytes -> jvalue -> list bytes -> Prop :=
| se w t v gs w' : white w -> std_value t v gs -> white w' -> std_element (w ++ t ++ w') v gs.

(** A whole text is one element. *)
Definition std_text (text : bytes) (v : jvalue) (gaps : list bytes) : Prop := std_element text v gaps.

(** ** What separates the two *)

(** Printable ASCII and line ends, LF or CR LF. *)
Inductive plain_ascii : bytes -> Prop :=
| pa_end : plain_ascii []
| pa_char c w : is_printable c = true -> plain_ascii w -> plain_ascii (c :: w)
| pa_lf w : plain_ascii w -> plain_ascii (LF :: w)
| pa_crlf w : plain_ascii w -> plain_ascii (CR :: LF :: w).

(** The texts of strings and keys of a value, and: every "\u" in a text has four
    hexadecimal digits behind it (an escaped backslash before a "u" is no "\u"). *)
Fixpoint string_texts (v : jvalue) : list bytes :=
  match v with
  | JObject l => flat_map (fun m => fst m :: string_texts (snd m)) l
  | JArray l => flat_map string_texts l
  | JString s => [s]
  | _ => []
  end.
Inductive four_digits : bytes -> Prop :=
| fd_end : four_digits []
| fd_char c w : c <> BSL -> four_digits w -> four_digits (c :: w)
| fd_escape e w : e <> "u"%char -> four_digits w -> four_digits (BSL :: e :: w)
| fd_unicode a b c d w : is_hex a = true -> is_hex b = true -> is_hex c = true -> is_hex d = true ->
    four_digits w -> four_digits (BSL :: "u"%char :: a :: b :: c :: d :: w).
