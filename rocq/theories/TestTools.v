(** * TestTools: model of the helper code the repository's tests rely on:
    test/cst/cst_test.go (tree printing) and test/testcommon/testcommon.go. *)
From Verif Require Import Base Cst FromCst.

(** ** test/cst/cst_test.go *)

(** cst_test.go:37-43 [nodeTypeToName] *)
Definition nodeTypeToName (names : list (Z * bytes)) (name_id : Z) : bytes :=
  match map_get Z.eqb name_id names with
  | None => s2b "Unknown_" ++ dec_Z name_id
  | Some val => val
  end.

(** cst_test.go:22-52 [namedVisitor.Visit]: the visitor is its level, the state
    the contents of the strings.Builder. Simplification: no nil nodes (33-35). *)
Definition namedVisit (names : list (Z * bytes)) (str : bytes) (level : nat) (sb : bytes) (n : node)
  : gores Empty_set (bytes * option nat) :=
  go s <- slice str (n_pos n) (n_end n);
  Ok (sb ++ concat (repeat (s2b "  ") level) ++ nodeTypeToName names (n_type n)
         ++ s2b ": string(" ++ s ++ s2b ")" ++ [LF],
      Some (S level)).

(** cst_test.go:54-58 [FprintTreeNamed]: the bytes handed to w.Write.
    Simplification: what the writer answers is not modelled. *)
Definition FprintTreeNamed (root : node) (namingMap : list (Z * bytes)) (str : bytes)
  : gores Empty_set bytes := walk (namedVisit namingMap str) 0 [] root.

(** ** test/testcommon/testcommon.go *)

(** The built-in [delete]. *)
Definition map_del {V} (k : Z) (m : list (Z * V)) : list (Z * V) :=
  filter (fun e => negb (k =? fst e)%Z) m.

(** testcommon.go:20-22, 24-26 copying a map; [order]: the order in which Go
    iterates over the keys. *)
Definition copy_map (order : list Z -> list Z) (m : list (Z * bytes)) : list (Z * bytes) :=
  fold_left (fun acc k => match map_get Z.eqb k m with
                          | Some v => map_set Z.eqb k v acc
                          | None => acc
                          end) (order (map fst m)) [].

(** testcommon.go:28-39 one round of the loop, for key [k]. Only the key of the
    round is deleted from the map iterated over, so every key gets its round. *)
Definition diff_round (k : Z) (st : list (Z * bytes) * list (Z * bytes) * list (Z * (bytes * bytes)))
  : list (Z * bytes) * list (Z * bytes) * list (Z * (bytes * bytes)) :=
  let '(adiff, bdiff, missMatch) := st in
  match map_get Z.eqb k adiff with
  | None => st
  | Some aval =>
      match map_get Z.eqb k bdiff with
      | None => st
      | Some bval =>
          (map_del k adiff, map_del k bdiff,
           if negb (bytes_eqb aval bval) then map_set Z.eqb k (aval, bval) missMatch else missMatch)
      end
  end.

(** testcommon.go:9-45 [IsMapsIntStringEqual] *)
Definition IsMapsIntStringEqual (order1 order2 order3 : list Z -> list Z) (a b : list (Z * bytes))
  : list (Z * bytes) * list (Z * bytes) * list (Z * (bytes * bytes)) * bool :=
  let adiff := copy_map order1 a in
  let bdiff := copy_map order2 b in
  let '(adiff, bdiff, missMatch) :=
    fold_left (fun st k => diff_round k st) (order3 (map fst adiff)) (adiff, bdiff, []) in
  (adiff, bdiff, missMatch,
   (length adiff =? 0) && (length bdiff =? 0) && (length missMatch =? 0)).

(** io.Reader: the answers to the successive calls of Read with a buffer of
    [bufsize] bytes, each the bytes copied into the buffer and an error; when
    the list is used up every further call answers 0, io.EOF. *)
Inductive rerr : Type := EOF | OtherErr.
Definition reader := list (bytes * option rerr).
Definition is_EOF (e : option rerr) : bool := match e with Some EOF => true | _ => false end.

(** testcommon.go:70-71 the buffers *)
Definition bufsize : nat := N.to_nat 4096.
(** Read copies its bytes to the front of the buffer. *)
Definition fill (buf data : bytes) : bytes := data ++ skipn (length data) buf.
Definition Read (r : reader) (buf : bytes) : option rerr * bytes * reader :=
  match r with
  | [] => (Some EOF, buf, [])
  | (data, e) :: r' => (e, fill buf data, r')
  end.

(** testcommon.go:74-100 the loop and what comes after it: is the test still
    passing? Every round with no error consumes one answer of either reader, so
    the recursion is bounded by [fuel] = their number. The log messages are not
    modelled. *)
Fixpoint compare_loop (fuel : nat) (ref res : reader) (refBuff resBuff : bytes) : bool :=
  let '(refReadErr, refBuff, ref') := Read ref refBuff in
  let '(resReadErr, resBuff, res') := Read res resBuff in
  match refReadErr, resReadErr with
  | None, None =>
      if bytes_eqb refBuff resBuff then
        match fuel with O => false | S fuel' => compare_loop fuel' ref' res' refBuff resBuff end
      else false
  | _, _ => is_EOF refReadErr && is_EOF resReadErr
  end.

(** testcommon.go:69-101 [ReaderContentMustBeEqual] *)
Definition ReaderContentMustBeEqual (ref res : reader) : bool :=
  compare_loop (length ref + length res) ref res (repeat NUL bufsize) (repeat NUL bufsize).
