(** * TableGenTime: FromGrammar with a count of its loop rounds

    The functions of pkg/bnf/tablegen/tablegen.go once more, as in TableGen.v,
    each with the number of rounds of all [for] loops it goes through (its own
    and those of the functions it calls, [ByteSet.Bytes] included, whose loop
    makes one round per byte: C83), also when it fails or panics. What happens
    within one round besides inner loops is not counted: operations on the four
    words of a ByteSet, a map access, a comparison of names, an append. *)
From Verif Require Import Base ByteSet Ast Parser TableGen FromCstTime.

Definition tick {A} (x : timed A) : timed A := (S (fst x), snd x).

(** tablegen.go:16-18 [collectRuleHeads] and 27-29 [enumerate]: one round per rule *)
Definition collectRuleHeads_t (g : grammar) : timed (list bytes) := (length g, collectRuleHeads g).
Definition enumerate_t (arr : list bytes) : timed (list (bytes * nat)) := (length arr, enumerate arr).

Section Gen.
  Variable g : grammar.
  Variable ruleMap : list (bytes * nat).

  (** tablegen.go:46-93 [sequenceFirsts]: one round per symbol looked at *)
  Fixpoint sequenceFirsts_loop_t (firsts : list ByteSet) (total : nat)
      (symbols : list symbol) (res : ByteSet) (found : bool) : timed (tgres ByteSet) :=
    match symbols with
    | [] => at_once (Ok (if found then bs_add res EOS else res))
    | STerminal t :: _ => tick (at_once (go f <- terminalFirsts t; Ok (bs_union res f)))
    | SNothing :: _ =>
        tick (at_once (if Nat.ltb 1 total then Err ENothingNotSingle else Ok (bs_add res EOS)))
    | SNonTerminal v :: rest =>
        tick match rm_get ruleMap v with
             | None => at_once (Err (ENoRulesDefined v))
             | Some ruleIndex =>
                 tbind (at_once (index firsts ruleIndex)) (fun ruleFirsts =>
                 let found := bs_contains ruleFirsts EOS in
                 let ruleFirsts := bs_remove ruleFirsts EOS in
                 let res := bs_union res ruleFirsts in
                 if negb found then at_once (Ok res)
                 else sequenceFirsts_loop_t firsts total rest res found)
             end
    | SUnknown _ :: _ => tick (at_once (Panic PanicUnknownSymbol))
    end.
  Definition sequenceFirsts_t (firsts : list ByteSet) (seq : sequence) : timed (tgres ByteSet) :=
    sequenceFirsts_loop_t firsts (List.length seq) seq (bs_new []) true.

  (** tablegen.go:95-107 [substitutuionFirsts]: one round per alternative *)
  Fixpoint substitutionFirsts_loop_t (firsts : list ByteSet)
      (seqs : substitution) (res : ByteSet) : timed (tgres ByteSet) :=
    match seqs with
    | [] => at_once (Ok res)
    | seq :: seqs' =>
        tick (tbind (sequenceFirsts_t firsts seq) (fun seqFirsts =>
        substitutionFirsts_loop_t firsts seqs' (bs_union res seqFirsts)))
    end.
  Definition substitutionFirsts_t (firsts : list ByteSet) (s : substitution) :=
    substitutionFirsts_loop_t firsts s (bs_new []).

  (** tablegen.go:109-129 [ruleFirsts] *)
  Definition ruleFirsts_t (ruleIndex : nat) (firsts : list ByteSet) (changed : bool)
    : timed (tgres (list ByteSet * bool)) :=
    if Nat.leb (ruleCount g) ruleIndex then at_once (Err ERuleIndex)
    else
      tbind (at_once (index g ruleIndex)) (fun r =>
      tbind (substitutionFirsts_t firsts (r_tail r)) (fun tempRes =>
      tbind (at_once (index firsts ruleIndex)) (fun f =>
      at_once (if bs_is_superset f tempRes then Ok (firsts, changed)
               else Ok (upd firsts ruleIndex (bs_union f tempRes), true))))).

  (** tablegen.go:136-141 one round over all rules *)
  Fixpoint firsts_round_t (idxs : list nat) (firsts : list ByteSet) (changed : bool)
    : timed (tgres (list ByteSet * bool)) :=
    match idxs with
    | [] => at_once (Ok (firsts, changed))
    | i :: idxs' =>
        tick (tbind (ruleFirsts_t i firsts changed) (fun '(firsts', changed') =>
        firsts_round_t idxs' firsts' changed'))
    end.

  (** tablegen.go:131-144 [findFirsts] *)
  Fixpoint findFirsts_t (fuel : nat) (firsts : list ByteSet) : timed (tgres (list ByteSet)) :=
    match fuel with
    | O => at_once NoFuel
    | S fuel' =>
        tick (tbind (firsts_round_t (seq 0 (List.length g)) firsts false) (fun '(firsts', changed) =>
        if changed then findFirsts_t fuel' firsts' else at_once (Ok firsts')))
    end.

  (** tablegen.go:219-268: one round per symbol but the last; the loop of
      lines 251-260 makes one round or none *)
  Fixpoint follows_inner_t (ruleIndex : nat) (seq : sequence) (sequenceRuleIndex : nat)
      (firsts : list ByteSet) (i : nat) (follows : list ByteSet) (changed : bool)
    : timed (tgres (list ByteSet * bool)) :=
    match i with
    | O => at_once (Ok (follows, changed))
    | S i' =>
        tick (
        tbind (at_once (index seq i')) (fun sym =>
        tbind (at_once (index g ruleIndex)) (fun r =>
        if negb (is_nonterminal_named sym (r_head r)) then
          follows_inner_t ruleIndex seq sequenceRuleIndex firsts i' follows changed
        else
          tbind (at_once (index seq (S i'))) (fun next =>
          tbind (at_once (symbolFirsts ruleMap firsts next)) (fun nextFirsts =>
          tbind
            (if bs_contains nextFirsts EOS && negb (Nat.eqb ruleIndex sequenceRuleIndex) then
               tick (at_once (
               go ruleFollows <- index follows sequenceRuleIndex;
               go added <- add_follows follows ruleIndex ruleFollows;
               match added with
               | None => Ok (follows, changed)
               | Some follows' => Ok (follows', true)
               end))
             else at_once (Ok (follows, changed))) (fun '(follows, changed) =>
          let nextFirsts := bs_remove nextFirsts EOS in
          tbind (at_once (add_follows follows ruleIndex nextFirsts)) (fun added =>
          match added with
          | None => follows_inner_t ruleIndex seq sequenceRuleIndex firsts i' follows changed
          | Some follows' =>
              follows_inner_t ruleIndex seq sequenceRuleIndex firsts i' follows' true
          end)))))))
    end.

  (** tablegen.go:174-271 [ruleFollowsInSequence]; the loop of lines 190-216
      makes one round or none *)
  Definition ruleFollowsInSequence_t (ruleIndex : nat) (seq : sequence)
      (sequenceRuleIndex : nat) (firsts follows : list ByteSet) (changed : bool)
    : timed (tgres (list ByteSet * bool)) :=
    let symbolsLen := List.length seq in
    if Nat.eqb symbolsLen 0 then at_once (Err EEmptySequence)
    else
      let rest := follows_inner_t ruleIndex seq sequenceRuleIndex firsts (symbolsLen - 1) in
      if negb (Nat.eqb ruleIndex sequenceRuleIndex) then
        tick (tbind (at_once (index seq (symbolsLen - 1))) (fun symbol =>
        tbind (at_once (index g ruleIndex)) (fun r =>
        if is_nonterminal_named symbol (r_head r) then
          tbind (at_once (index follows sequenceRuleIndex)) (fun ruleFollows =>
          tbind (at_once (add_follows follows ruleIndex ruleFollows)) (fun added =>
          match added with
          | None => rest follows changed
          | Some follows' => at_once (Ok (follows', true))
          end))
        else rest follows changed)))
      else rest follows changed.

  (** tablegen.go:285-291: one round per alternative *)
  Fixpoint follows_sequences_t (ruleIndex : nat) (seqs : substitution)
      (againstRuleIndex : nat) (firsts follows : list ByteSet) (changed : bool)
    : timed (tgres (list ByteSet * bool)) :=
    match seqs with
    | [] => at_once (Ok (follows, changed))
    | seq :: seqs' =>
        tick (tbind
          (ruleFollowsInSequence_t ruleIndex seq againstRuleIndex firsts follows changed) (fun '(follows', changed') =>
        follows_sequences_t ruleIndex seqs' againstRuleIndex firsts follows' changed'))
    end.

  (** tablegen.go:273-294 [ruleFollowsInRule] *)
  Definition ruleFollowsInRule_t (ruleIndex againstRuleIndex : nat)
      (firsts follows : list ByteSet) (changed : bool) : timed (tgres (list ByteSet * bool)) :=
    if Nat.leb (ruleCount g) ruleIndex then at_once (Err ERuleNum)
    else if Nat.leb (ruleCount g) againstRuleIndex then at_once (Err ETargetRuleNum)
    else
      tbind (at_once (index g againstRuleIndex)) (fun r =>
      follows_sequences_t ruleIndex (r_tail r) againstRuleIndex firsts follows changed).

  (** tablegen.go:304-312, the inner loop: one round per rule *)
  Fixpoint follows_row_t (i : nat) (js : list nat) (firsts follows : list ByteSet)
      (changed : bool) : timed (tgres (list ByteSet * bool)) :=
    match js with
    | [] => at_once (Ok (follows, changed))
    | j :: js' =>
        tick (tbind (ruleFollowsInRule_t i j firsts follows changed) (fun '(follows', changed') =>
        follows_row_t i js' firsts follows' changed'))
    end.
  (** the outer loop: one round per rule *)
  Fixpoint follows_round_t (is : list nat) (firsts follows : list ByteSet)
      (changed : bool) : timed (tgres (list ByteSet * bool)) :=
    match is with
    | [] => at_once (Ok (follows, changed))
    | i :: is' =>
        tick (tbind (follows_row_t i (seq 0 (List.length g)) firsts follows changed) (fun '(follows', changed') =>
        follows_round_t is' firsts follows' changed'))
    end.

  Fixpoint follows_loop_t (fuel : nat) (firsts follows : list ByteSet)
    : timed (tgres (list ByteSet)) :=
    match fuel with
    | O => at_once NoFuel
    | S fuel' =>
        tick (tbind (follows_round_t (seq 0 (List.length g)) firsts follows false) (fun '(follows', changed) =>
        if changed then follows_loop_t fuel' firsts follows' else at_once (Ok follows')))
    end.

  (** tablegen.go:296-315 [findFollows] *)
  Definition findFollows_t (fuel : nat) (firsts follows : list ByteSet)
    : timed (tgres (list ByteSet)) :=
    tbind (at_once (index follows 0)) (fun f0 =>
    follows_loop_t fuel firsts (upd follows 0 (bs_add f0 EOS))).

  (** [range s.Bytes()]: the rounds of the loop in [Bytes] *)
  Definition bs_range_t (s : ByteSet) : timed (tgres (list ascii)) :=
    match bs_range s with
    | Ok l => (length l, Ok l)
    | x => at_once x
    end.

  (** tablegen.go:335-343: one round per terminal *)
  Fixpoint fill_follows_t (terms : list ascii) (res : row) : timed (tgres row) :=
    match terms with
    | [] => at_once (Ok res)
    | t :: terms' =>
        tick match row_get t res with
             | Some _ => at_once (Err EConflict)
             | None => fill_follows_t terms' (map_set Ascii.eqb t [] res)
             end
    end.

  (** tablegen.go:349-378: one round per symbol *)
  Fixpoint fill_symbols_t (term : ascii) (symbols : list symbol) (res : row) : timed (tgres row) :=
    match symbols with
    | [] => at_once (Ok res)
    | STerminal n :: rest => tick (fill_symbols_t term rest (row_append term (OpTerminal n) res))
    | SNonTerminal n :: rest =>
        tick match rm_get ruleMap n with
             | None => at_once (Err (ENoRulesDefined n))
             | Some ruleIndex =>
                 fill_symbols_t term rest
                   (row_append term (OpNonTerminal (Z.of_nat ruleIndex)) res)
             end
    | SNothing :: _ => tick (at_once (Panic PanicNothingInSequence))
    | SUnknown _ :: _ => tick (at_once (Panic PanicUnknownSymbol))
    end.

  (** tablegen.go:348-379: one round per terminal *)
  Fixpoint fill_firsts_t (terms : list ascii) (seq : sequence) (res : row) : timed (tgres row) :=
    match terms with
    | [] => at_once (Ok res)
    | t :: terms' =>
        tick (tbind (fill_symbols_t t seq res) (fun res' =>
        fill_firsts_t terms' seq res'))
    end.

  (** tablegen.go:323-380: one round per alternative *)
  Fixpoint row_loop_t (firsts : list ByteSet) (ruleFollows : ByteSet)
      (seqs : substitution) (res : row) : timed (tgres row) :=
    match seqs with
    | [] => at_once (Ok res)
    | seq :: seqs' =>
        tick (
        tbind (sequenceFirsts_t firsts seq) (fun seqFirsts =>
        tbind
          (if bs_contains seqFirsts EOS then
             tbind (bs_range_t ruleFollows) (fun terms =>
             tbind (fill_follows_t terms res) (fun res' =>
             at_once (Ok (res', bs_remove seqFirsts EOS))))
           else at_once (Ok (res, seqFirsts))) (fun '(res, seqFirsts) =>
        tbind (bs_range_t seqFirsts) (fun terms =>
        tbind (fill_firsts_t terms seq res) (fun res =>
        row_loop_t firsts ruleFollows seqs' res)))))
    end.

  (** tablegen.go:317-383 [makeTableRow] *)
  Definition makeTableRow_t (firsts follows : list ByteSet) (ruleIndex : nat) : timed (tgres row) :=
    tbind (at_once (index g ruleIndex)) (fun rule =>
    tbind (at_once (index follows ruleIndex)) (fun ruleFollows =>
    row_loop_t firsts ruleFollows (r_tail rule) [])).

  (** tablegen.go:385-396 [makeTable]: one round per rule *)
  Fixpoint makeTable_loop_t (firsts follows : list ByteSet) (idxs : list nat) (tbl : table)
    : timed (tgres table) :=
    match idxs with
    | [] => at_once (Ok tbl)
    | i :: idxs' =>
        tick (tbind (makeTableRow_t firsts follows i) (fun r =>
        makeTable_loop_t firsts follows idxs' (map_set Z.eqb (Z.of_nat i) r tbl)))
    end.
  Definition makeTable_t (firsts follows : list ByteSet) : timed (tgres table) :=
    makeTable_loop_t firsts follows (seq 0 (List.length g)) [].

  (** tablegen.go:398-411 [Run] *)
  Definition Run_t (fuel : nat) (firsts follows : list ByteSet) : timed (tgres table) :=
    tbind (findFirsts_t fuel firsts) (fun firsts' =>
    tbind (findFollows_t fuel firsts' follows) (fun follows' =>
    makeTable_t firsts' follows')).
End Gen.

(** tablegen.go:413-455 [FromGrammar]: collectRuleHeads is called twice (417
    and 422), two loops make the empty sets (426-428, 431-433), then comes the
    generator and the loop over the names (450-452) *)
Definition FromGrammar_t (order : list (bytes * nat) -> list (bytes * nat))
    (fuel : nat) (g : grammar) : timed (tgres (table * list (Z * bytes))) :=
  let (k0, _) := collectRuleHeads_t g in
  let (k1, ruleHeads) := collectRuleHeads_t g in
  let ruleCount := List.length ruleHeads in
  let (k2, firsts) := (ruleCount, repeat (bs_new []) ruleCount) in
  let (k3, follows) := (ruleCount, repeat (bs_new []) ruleCount) in
  let (k4, ruleMap) := enumerate_t ruleHeads in
  let (k5, r) :=
    tbind (Run_t g ruleMap fuel firsts follows) (fun tbl =>
    (length (order ruleMap), Ok (tbl, rowNames_of (order ruleMap)))) in
  (k0 + k1 + k2 + k3 + k4 + k5, r).
