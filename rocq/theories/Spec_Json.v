(** * Spec_Json: the JSON dialect of examples/json, independent of its grammar
    file, and the key listing its program prints.

    Differences to json.org: white space is the space, LF and CR LF (no tab, no
    single CR); an empty array contains no white space; string characters are
    printable ASCII; \u takes three hexadecimal digits, not four. *)
From Verif Require Import Base Spec_Bnf.

Inductive spaces : bytes -> Prop :=
| sp_none : spaces []
| sp_space w : spaces w -> spaces (" "%char :: w)
| sp_lf w : spaces w -> spaces (LF :: w)
| sp_crlf w : spaces w -> spaces (CR :: LF :: w).

(** ** Strings: the text between the quotes *)
Definition is_hex (c : ascii) : bool :=
  is_digit c || existsb (Ascii.eqb c) (s2b "ABCDEFabcdef").
Inductive string_body : bytes -> Prop :=
| sb_end : string_body []
| sb_plain c w : is_printable c = true -> c <> DQ -> c <> BSL -> string_body w -> string_body (c :: w)
| sb_escape e w : In e (s2b """\/bfnrt") -> string_body w -> string_body (BSL :: e :: w)
| sb_unicode a b c w :
    is_hex a = true -> is_hex b = true -> is_hex c = true -> string_body w ->
    string_body (BSL :: "u"%char :: a :: b :: c :: w).

(** ** Numbers *)
Definition digits (w : bytes) : Prop := w <> [] /\ all is_digit w.
Definition integer_part (w : bytes) : Prop :=
  w = s2b "0" \/ exists d ds, w = d :: ds /\ is_digit d = true /\ d <> "0"%char /\ all is_digit ds.
Definition fraction_part (w : bytes) : Prop := w = [] \/ exists ds, w = "."%char :: ds /\ digits ds.
Definition exponent_part (w : bytes) : Prop :=
  w = [] \/
  exists e sign ds, w = e :: sign ++ ds /\ (e = "e"%char \/ e = "E"%char) /\
    (sign = [] \/ sign = s2b "+" \/ sign = s2b "-") /\ digits ds.
Definition number (w : bytes) : Prop :=
  exists minus i f e, w = minus ++ i ++ f ++ e /\ (minus = [] \/ minus = s2b "-") /\
    integer_part i /\ fraction_part f /\ exponent_part e.

(** ** Values; strings, keys and numbers are kept as written *)
Inductive jvalue : Type :=
| JObject (members : list (bytes * jvalue))
| JArray (elements : list jvalue)
| JString (raw : bytes)
| JNumber (raw : bytes)
| JTrue | JFalse | JNull.

Inductive value_text : bytes -> jvalue -> Prop :=
| vt_no_members w : spaces w -> value_text ("{"%char :: w ++ s2b "}") (JObject [])
| vt_object w t l : spaces w -> members_text t l -> value_text ("{"%char :: w ++ t ++ s2b "}") (JObject l)
| vt_no_elements : value_text (s2b "[]") (JArray [])
| vt_array t l : elements_text t l -> value_text ("["%char :: t ++ s2b "]") (JArray l)
| vt_string s : string_body s -> value_text (DQ :: s ++ [DQ]) (JString s)
| vt_number w : number w -> value_text w (JNumber w)
| vt_true : value_text (s2b "true") JTrue
| vt_false : value_text (s2b "false") JFalse
| vt_null : value_text (s2b "null") JNull
with members_text : bytes -> list (bytes * jvalue) -> Prop :=
| me_last t k v w : member_text t k v -> spaces w -> members_text (t ++ w) [(k, v)]
| me_more t k v w w' rest l : member_text t k v -> spaces w -> spaces w' -> members_text rest l ->
    members_text (t ++ w ++ ","%char :: w' ++ rest) ((k, v) :: l)
with member_text : bytes -> bytes -> jvalue -> Prop :=
| mb k w w' t v : string_body k -> spaces w -> spaces w' -> value_text t v ->
    member_text (DQ :: k ++ DQ :: w ++ ":"%char :: w' ++ t) k v
with elements_text : bytes -> list jvalue -> Prop :=
| el_last w t v w' : spaces w -> value_text t v -> spaces w' -> elements_text (w ++ t ++ w') [v]
| el_more w t v w' rest l : spaces w -> value_text t v -> spaces w' -> elements_text rest l ->
    elements_text (w ++ t ++ w' ++ ","%char :: rest) (v :: l).

(** A whole text: one value between white space. *)
Inductive json_text : bytes -> jvalue -> Prop :=
| js w t v w' : spaces w -> value_text t v -> spaces w' -> json_text (w ++ t ++ w') v.

(** ** The key listing: the keys in the order of the text, one per line, each
    behind two spaces for every object and array around it. *)
Definition indent (depth : nat) : bytes := concat (repeat (s2b "  ") depth).
Fixpoint key_lines (depth : nat) (v : jvalue) : bytes :=
  match v with
  | JObject l => flat_map (fun m => indent (S depth) ++ fst m ++ LF :: key_lines (S depth) (snd m)) l
  | JArray l => flat_map (key_lines (S depth)) l
  | _ => []
  end.
