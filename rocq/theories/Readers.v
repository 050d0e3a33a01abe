(** * Readers: sources that are io.Readers of any behaviour

    [Parser.v] describes an io.Reader by the chunks it delivers. Here a reader
    is a state machine whose Read may do with the buffer what it likes, and
    io.ReadAll (Go 1.19, src/io/io.go:626-644, called at parser.go:469) is the
    loop that the standard library runs on it. Not modelled: a Read that blocks,
    and one that keeps the buffer to write to it later. *)
From Verif Require Import Base Cst Parser.

(** The errors a Read can return: io.EOF or any other, with its message; or it
    panics instead of returning. *)
Inductive rderr := RdEOF | RdErr (msg : bytes) | RdPanic (p : gopanic).

(** What one call [Read(p)] does: the bytes it stores from the beginning of [p]
    on (what exceeds len(p) cannot be stored), the count it returns, its error,
    and the reader afterwards. Count and stored bytes are independent: a Read
    may scribble, and may lie. *)
Record read_out (St : Type) := mkRO {
  ro_data : bytes; ro_n : Z; ro_err : option rderr; ro_state : St }.
Arguments mkRO {St}. Arguments ro_data {St}. Arguments ro_n {St}.
Arguments ro_err {St}. Arguments ro_state {St}.

Section ReadAll.
  Context {St : Type}.
  (** [Read] is given the contents of the buffer it is handed. *)
  Variable read : St -> bytes -> read_out St.
  (** Capacity that the runtime gives to a slice appended to at capacity [n]. *)
  Variable grow : nat -> nat.

  (** Storing [data] at the beginning of [p]. *)
  Definition store (data p : bytes) : bytes :=
    firstn (length p) (data ++ skipn (length data) p).

  (** io.go:629-632 [if len(b) == cap(b) { b = append(b, 0)[:len(b)] }]; [arr] is
      the whole array of [b], so [length arr] is cap(b). Go clears a new array. *)
  Definition more_room (arr : bytes) (len : nat) : bytes :=
    if Nat.eqb len (length arr)
    then arr ++ repeat NUL (Nat.max (S len) (grow len) - len)
    else arr.

  (** io.go:628-643, one round per unit of fuel. The result is the contents of
      [b] and the error, and the state of the reader. [b[:len(b)+n]] panics
      outside 0..cap(b). *)
  Fixpoint readAll_loop (fuel : nat) (arr : bytes) (len : nat) (st : St)
    : gores Empty_set (bytes * option bytes) * St :=
    match fuel with
    | O => (NoFuel, st)
    | S fuel' =>
        let arr := more_room arr len in
        let out := read st (skipn len arr) in
        let arr := firstn len arr ++ store (ro_data out) (skipn len arr) in
        let len' := (Z.of_nat len + ro_n out)%Z in
        match ro_err out with
        | Some (RdPanic p) => (Panic p, ro_state out)
        | err =>
        if ((len' <? 0) || (Z.of_nat (length arr) <? len'))%Z
        then (Panic PanicSlice, ro_state out)
        else
          match err with
          | None => readAll_loop fuel' arr (Z.to_nat len') (ro_state out)
          | Some RdEOF => (Ok (firstn (Z.to_nat len') arr, None), ro_state out)
          | Some (RdErr msg) => (Ok (firstn (Z.to_nat len') arr, Some msg), ro_state out)
          | Some (RdPanic p) => (Panic p, ro_state out) (* handled above *)
          end
        end
    end.

  (** io.go:626-627 [b := make([]byte, 0, 512)] *)
  Definition ReadAll (fuel : nat) (st : St) : gores Empty_set (bytes * option bytes) * St :=
    readAll_loop fuel (repeat NUL 512) 0 st.

  (** parser.go:474-499 [Parse] of a source that takes the branch
      [case io.Reader] of readSource (parser.go:468-469), with its own fuel for
      reading. Also returns the naming map and the reader afterwards. *)
  Definition Parse_reader (fuel_read fuel : nat) (p : ll1parser) (st : St)
    : gores Empty_set preturn * names_map * St :=
    match p_table p with
    | [] => (Ok (ret_err EEmptyTable), p_names p, st)
    | _ :: _ =>
        match table_get 0 (p_table p) with
        | None => (Ok (ret_err ENoBaseEntry), p_names p, st)
        | Some _ =>
            match ReadAll fuel_read st with
            | (Ok (text, None), st') =>
                let (r, names') := run (p_table p) text (p_names p) fuel init_state in
                (r, names', st')
            | (Ok (_, Some msg), st') => (Ok (ret_err (EReader msg)), p_names p, st')
            | (Panic q, st') => (Panic q, p_names p, st')
            | (Err e, st') => match e with end
            | (NoFuel, st') => (NoFuel, p_names p, st')
            end
        end
    end.
End ReadAll.

(** A reader of chunks, the description used by [Parser.v]: each Read takes as
    much of the first chunk as fits (it may be empty: 0, nil), and after the
    last chunk the final error. *)
Definition chunk_read (r : reader) (p : bytes) : read_out reader :=
  match rd_chunks r with
  | [] =>
      mkRO [] 0 (Some (match rd_end r with None => RdEOF | Some m => RdErr m end)) r
  | c :: cs =>
      if Nat.leb (length c) (length p)
      then mkRO c (Z.of_nat (length c)) None (mkReader cs (rd_end r))
      else mkRO (firstn (length p) c) (Z.of_nat (length p)) None
                (mkReader (skipn (length p) c :: cs) (rd_end r))
  end.
