(** * Spec_Readers: what it means for an io.Reader to deliver a text

    Independent of io.ReadAll: the buffers are arbitrary. *)
From Verif Require Import Base Readers.

Section Spec.
  Context {St : Type}.
  Variable read : St -> bytes -> read_out St.

  (** [serves st data e]: whatever non-empty buffers it is called with, the
      reader hands over exactly the bytes [data], in pieces of its own choice
      (possibly empty, possibly together with the final error), and then ends
      with [e]: io.EOF, another error, or a panic (in which case the bytes of the
      last piece are lost). The definition is inductive: only finitely many calls. *)
  Inductive serves : St -> bytes -> rderr -> Prop :=
  | serves_intro st data e :
      (forall p, p <> [] ->
         exists k, (* the piece handed over by this call *)
           k <= length p /\ k <= length data /\
           ro_n (read st p) = Z.of_nat k /\
           firstn k (ro_data (read st p)) = firstn k data /\
           ((ro_err (read st p) = None /\
             serves (ro_state (read st p)) (skipn k data) e) \/
            (ro_err (read st p) = Some e /\ k = length data))) ->
      serves st data e.

  (** A reader that never stops: it obeys the contract of Read
      (0 <= n <= len(p)) and never returns an error, in any state of [I]. *)
  Definition never_ends (I : St -> Prop) : Prop :=
    forall st p, I st -> p <> [] ->
      (0 <= ro_n (read st p) <= Z.of_nat (length p))%Z /\
      ro_err (read st p) = None /\ I (ro_state (read st p)).
End Spec.
