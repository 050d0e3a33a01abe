(** * Props_Lead: property C105, FromGrammar and the first bytes of terminals. *)
From Verif Require Import Base ByteSet Ast Cst Parser TableGen Spec_Parse Spec_Grammar Spec_Table Spec_Lead
  ParseApi GrammarProofs TGFirsts TGFollows TGTable TGMain TGParse Recode Lead Props_TableGen.

(** FromGrammar looks at the first byte of a terminal only: grammars that differ
    behind the first bytes of their terminals give the same error, the same
    panic, or the same names and tables whose cells hold corresponding operands. *)
Theorem C105_first_bytes :
  forall order fuel g g', same_leads g g' ->
    match FromGrammar_order order fuel g, FromGrammar_order order fuel g' with
    | Ok (tbl, names), Ok (tbl', names') => same_lead_table tbl tbl' /\ names' = names
    | Err e, Err e' => e' = e
    | Panic q, Panic q' => q' = q
    | NoFuel, NoFuel => True
    | _, _ => False
    end.
Proof.
  intros order fuel g g' H.
  assert (G : Forall2 (rrel (fun _ _ => True)) g g').
  { induction H as [|r r' l l' (E & T) _ IH]; constructor; [|exact IH]. split; [exact E|].
    induction T as [|s s' q q' S _ IHt]; constructor; [|exact IHt]. left.
    induction S as [|x y s s' X _ IHs]; constructor; [|exact IHs]. destruct X; constructor; exact I. }
  pose proof (l_FromGrammar _ g g' G order fuel) as X.
  destruct (FromGrammar_order order fuel g) as [(t, n)|e|p|], (FromGrammar_order order fuel g') as [(t', n')|e'|p'|]; cbn in X;
    try contradiction; try (symmetry; exact X); try exact I.
  destruct X as (X & E). split; [apply tabrel_any, X|symmetry; exact E].
Qed.
Print Assumptions C105_first_bytes.

(** The byte 0 stands for the empty string in the generator's sets. So an
    alternative that starts with a terminal whose first byte is 0 counts as the
    empty alternative: FromGrammar returns exactly the same with the empty
    alternative in its place, whatever stands behind it (no non-terminal). *)
Theorem C105_zero_is_empty :
  forall order fuel g g', zero_as_empty g g' ->
    FromGrammar_order order fuel g = FromGrammar_order order fuel g'.
Proof.
  intros order fuel g g' H.
  assert (G : Forall2 (rrel eq) g g').
  { induction H as [|r r' l l' (E & T) _ IH]; constructor; [|exact IH]. split; [exact E|].
    induction T as [|s s' q q' S _ IHt]; constructor; [|exact IHt]. destruct S as [->|S]; [left|right; exact S].
    induction s; constructor; [apply sr_same|assumption]. }
  pose proof (l_FromGrammar _ g g' G order fuel) as X.
  destruct (FromGrammar_order order fuel g) as [(t, n)|e|p|], (FromGrammar_order order fuel g') as [(t', n')|e'|p'|]; cbn in X;
    try contradiction; try (f_equal; exact X); try reflexivity.
  destruct X as (X & E). rewrite (tabrel_eq _ _ X), E. reflexivity.
Qed.
Print Assumptions C105_zero_is_empty.

(** So the terminal is never looked for: with  S ::= "\0" "a" | "b"  the parser
    takes the empty text for S, which is not a word of the grammar, and refuses
    what a reader of the grammar would expect. *)
Definition zero_grammar : grammar := [ru "S" [[STerminal [NUL]; tm "a"]; [tm "b"]]].
Theorem C105_refuted_zero_terminal :
  exists tbl names,
    FromGrammar (256 * length zero_grammar + 1) zero_grammar = Ok (tbl, names) /\
    (word zero_grammar (NUL :: s2b "a") /\ ~ word zero_grammar []) /\
    (exists fuel t, parses_to fuel tbl (Some names) (SrcString []) t) /\
    (exists fuel e, fails_with fuel tbl (Some names) (SrcString (s2b "a")) e).
Proof.
  exists (fst (gen_of zero_grammar)), (snd (gen_of zero_grammar)).
  split; [vm_compute; reflexivity|]. split; [split|split].
  - split; [discriminate|]. cbn. rewrite_nt 0 0 0. apply ys_refl.
  - intros (_ & H). apply yields_gen in H. cbn in H. inversion H; subst.
    match goal with H : alternative _ _ _ |- _ => destruct H as (r & [<-|[]] & _ & [<-|[<-|[]]]) end;
      match goal with H : gen _ (seq_form _) _ |- _ => cbn in H; inversion H; subst end;
      cbn in *; discriminate.
  - exists 20. eexists. eexists. vm_compute. reflexivity.
  - exists 20. eexists. vm_compute. reflexivity.
Qed.
Print Assumptions C105_refuted_zero_terminal.

(** Concrete cases. *)
Example C105_first_bytes_applies :
  same_leads [ru "S" [[tm "while"; nt "S"]; [tm "end"]]] [ru "S" [[tm "wend"; nt "S"]; [tm "e"]]] /\
  exists r, FromGrammar 600 [ru "S" [[tm "while"; nt "S"]; [tm "end"]]] = Ok r.
Proof. split; [repeat constructor|]. eexists. vm_compute. reflexivity. Qed.
Example C105_zero_applies : zero_as_empty zero_grammar [ru "S" [[SNothing]; [tm "b"]]].
Proof.
  constructor; [|constructor]. split; [reflexivity|]. constructor; [|constructor; [left; reflexivity|constructor]].
  right. split; [|reflexivity]. exists [], [tm "a"]. split; [reflexivity|]. intros n [X|[]]. discriminate.
Qed.
