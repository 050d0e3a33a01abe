(** * C63, C64: the memory of Parse and NewParserOpList *)
From Verif Require Import Base Cst Parser SliceMem ParserMem Spec_Mem ParserMemProofs ParseApi.

(** C63. The table and the source given to Parse may share arrays with each
    other, with earlier trees and with anything else the caller holds, and the
    slices may have spare capacity.  Whatever capacities the runtime chooses
    when it grows a slice: *)

(** ... the call returns what the list model of Parse returns (so everything
    proved about it holds of the call in memory), and the tree it returns is
    made of new arrays, no two nodes sharing one. *)
Theorem C63_result : forall grow fuel mt t names m ms s,
  table_in m mt t -> source_in m ms s ->
  let o := mParse grow fuel mt names m ms in
  let p := Parse fuel (NewLL1Parser t names) s in
  same_result (length (m_nodes m)) (m_nodes (mo_mem o)) (mo_result o) (po_result p) /\
  mo_names o = po_names p /\ source_in (mo_mem o) (mo_source o) (po_source p).
Proof.
  intros grow fuel mt t names m ms s Ht Hs. cbv zeta.
  destruct (mParse_sim grow fuel mt t names m ms s Ht Hs) as (A & B & C & _). auto.
Qed.

(** ... every array that existed before the call is as it was, also when the
    call fails, panics or is still running. *)
Theorem C63_nothing_overwritten : forall grow fuel mt t names m ms s,
  table_in m mt t -> source_in m ms s ->
  untouched m (mo_mem (mParse grow fuel mt names m ms)).
Proof. intros grow fuel mt t names m ms s Ht Hs. apply (mParse_sim grow fuel mt t names m ms s Ht Hs). Qed.

(** ... in particular the table still denotes the same table, and trees
    returned by earlier calls still are the same trees. *)
Theorem C63_table_and_trees_survive : forall grow fuel mt t names m ms s,
  table_in m mt t -> source_in m ms s ->
  let m' := mo_mem (mParse grow fuel mt names m ms) in
  (forall mt' t', table_in m mt' t' -> table_in m' mt' t') /\
  (forall mn n A, tree_in (m_nodes m) mn n A -> tree_in (m_nodes m') mn n A).
Proof.
  intros grow fuel mt t names m ms s Ht Hs m'.
  pose proof (C63_nothing_overwritten grow fuel mt t names m ms s Ht Hs) as U. split.
  - intros mt' t'. apply table_in_untouched, U.
  - intros mn n A. apply tree_in_untouched, U.
Qed.

(** Everything that happens to memory later: calls of Parse with any tables and
    sources, and other code that writes only to arrays below [base] or to
    arrays of its own (from [top] on). *)
Inductive later (base top : nat) : mem -> mem -> Prop :=
| later_refl m : later base top m m
| later_parse m grow fuel mt t names ms s m2 :
    table_in m mt t -> source_in m ms s ->
    later base top (mo_mem (mParse grow fuel mt names m ms)) m2 -> later base top m m2
| later_write m m1 m2 :
    length (m_nodes m) <= length (m_nodes m1) ->
    (forall a, base <= a < top -> nth_error (m_nodes m1) a = nth_error (m_nodes m) a) ->
    later base top m1 m2 -> later base top m m2.

(** ... and the tree a call returned stays that tree, whatever the caller writes
    to the arrays it had before the call or makes afterwards. *)
Theorem C63_tree_is_final : forall grow fuel mt t names m ms s r mn,
  table_in m mt t -> source_in m ms s ->
  let o := mParse grow fuel mt names m ms in
  mo_result o = Ok r -> mr_tree r = Some mn ->
  exists n nm, po_result (Parse fuel (NewLL1Parser t names) s) = Ok (mkRet (Some n) nm None) /\
    forall m2, later (length (m_nodes m)) (length (m_nodes (mo_mem o))) (mo_mem o) m2 ->
    exists A, tree_in (m_nodes m2) mn n A.
Proof.
  intros grow fuel mt t names m ms s r mn Ht Hs o Er Et.
  destruct (C63_result grow fuel mt t names m ms s Ht Hs) as (R & _). fold o in R. rewrite Er in R.
  unfold same_result in R.
  destruct (po_result (Parse fuel (NewLL1Parser t names) s)) as [pr| | |] eqn:Ep; try contradiction.
  destruct R as (_ & _ & R). rewrite Et in R.
  destruct pr as [[n|] nm e]; cbn in R; [|contradiction]. exists n, nm. split.
  { destruct e as [e|]; [|reflexivity]. exfalso.
    destruct (return_contract fuel t names s _ Ep) as [(t' & m' & E)|(e' & E)]; discriminate. }
  destruct R as (A & Htree & Nd & Ar). intros m2 L. exists A.
  assert (K : forall base top ma mb, later base top ma mb -> top <= length (m_nodes ma) ->
              Forall (fun a => base <= a < top) A -> tree_in (m_nodes ma) mn n A ->
              tree_in (m_nodes mb) mn n A).
  { clear. intros base top ma mb L. induction L as [m|m grow fuel mt t names ms s m2 Ht Hs L IH|m m1 m2 G F L IH];
      intros Le Ar Htree; [exact Htree| |].
    - pose proof (C63_nothing_overwritten grow fuel mt t names m ms s Ht Hs) as U. apply IH.
      + pose proof (nth_incl_length _ _ (proj1 (proj2 U))). lia.
      + exact Ar.
      + eapply tree_in_untouched; [exact U|exact Htree].
    - apply IH; [lia|exact Ar|]. eapply tree_frame; [exact Htree|]. intros a Ha. apply F.
      rewrite Forall_forall in Ar. apply Ar, Ha. }
  eapply K; [exact L|apply le_n|exact Ar|exact Htree].
Qed.

(** C64. NewParserOpList returns a list of its own: it holds the arguments,
    nothing existing is written, and whatever is later written to arrays that
    existed before the call, the list stays. *)
Theorem C64_own_list : forall grow m args ops,
  holds (m_ops m) args ops ->
  let (m', s) := mNewParserOpList grow m args in
  untouched m m' /\ holds (m_ops m') s ops /\
  forall h, (forall a, length (m_ops m) <= a -> nth_error h a = nth_error (m_ops m') a) -> holds h s ops.
Proof.
  intros grow m args ops H. pose proof (NewParserOpList_sim grow m args ops H) as S.
  destruct (mNewParserOpList grow m args) as [m' s]. destruct S as (U & Hh & Fr).
  split; [exact U|]. split; [exact Hh|]. intros h F.
  eapply holds_frame; [exact Hh|]. destruct Fr as [Fr|Fr]; [left; exact Fr|right].
  apply F. rewrite Fr. apply le_n.
Qed.

(** ** A concrete case: a table all of whose cells are views of one array, with
  spare capacity, and a source inside a larger array.

  Row 0 under a is [a <1>], row 1 under b is [b], row 1 at the end is empty;
  the source is the middle of xaby. *)
Definition case_m : mem :=
  mkMem [[OpTerminal (s2b "a"); OpNonTerminal 1; OpTerminal (s2b "b"); OpNil]] [] [s2b "xaby"].
Definition case_mt : mtable :=
  [(0%Z, [("a"%char, mkSlice 0 0 2 4)]);
   (1%Z, [("b"%char, mkSlice 0 2 1 2); (NUL, nil_slice)])].
Definition case_t : table :=
  [(0%Z, [("a"%char, [OpTerminal (s2b "a"); OpNonTerminal 1])]);
   (1%Z, [("b"%char, [OpTerminal (s2b "b")]); (NUL, [])])].
Definition case_ms : msource := MSrcBytes (mkSlice 0 1 2 3).
Definition case_grow (n : nat) : nat := 2 * n.

Lemma case_holds_1 {T} (h : heap T) s x :
  sl_len s = 1 -> valid_slice h s -> slice_get h s 0 = Some x -> holds h s [x].
Proof.
  intros L V G. split; [exact V|]. split; [exact L|]. intros [|[|i]] y; simpl; congruence.
Qed.
Lemma case_holds_2 {T} (h : heap T) s x y :
  sl_len s = 2 -> valid_slice h s -> slice_get h s 0 = Some x -> slice_get h s 1 = Some y ->
  holds h s [x; y].
Proof.
  intros L V G1 G2. split; [exact V|]. split; [exact L|].
  intros [|[|[|i]]] z; simpl; congruence.
Qed.
Lemma case_valid_0 {T} (h : heap T) arr s :
  nth_error h (sl_arr s) = Some arr -> sl_len s <= sl_cap s -> sl_off s + sl_cap s <= length arr ->
  valid_slice h s.
Proof. intros E L C. split; [exact L|]. right. exists arr. auto. Qed.

(** The hypotheses are met. *)
Lemma case_table_ok : table_in case_m case_mt case_t.
Proof.
  constructor; [|constructor; [|constructor]]; (split; [reflexivity|]).
  - constructor; [|constructor]. split; [reflexivity|].
    apply case_holds_2; try reflexivity. eapply case_valid_0; [reflexivity|cbn; lia|cbn; lia].
  - constructor; [|constructor; [|constructor]]; (split; [reflexivity|]).
    + apply case_holds_1; try reflexivity. eapply case_valid_0; [reflexivity|cbn; lia|cbn; lia].
    + apply holds_nil_slice.
Qed.
Lemma case_source_ok : source_in case_m case_ms (SrcBytes (s2b "ab")).
Proof. apply case_holds_2; try reflexivity. eapply case_valid_0; [reflexivity|cbn; lia|cbn; lia]. Qed.

(** The call succeeds: its tree. *)
Definition case_o := mParse case_grow 40 case_mt (Some []) case_m case_ms.
Lemma case_parsed :
  po_result (Parse 40 (NewLL1Parser case_t (Some [])) (SrcBytes (s2b "ab"))) =
  Ok (mkRet (Some (Node 0 0 2 [Node (-1) 0 1 []; Node 1 1 2 [Node (-1) 1 2 []]]))
        (Some (Some [((-1)%Z, s2b "_literal"); ((-2)%Z, s2b "_nothing")])) None).
Proof. vm_compute. reflexivity. Qed.
Lemma case_tree_there : exists mn r, mo_result case_o = Ok r /\ mr_tree r = Some mn /\
  fresh_tree 0 (m_nodes (mo_mem case_o)) mn (Node 0 0 2 [Node (-1) 0 1 []; Node 1 1 2 [Node (-1) 1 2 []]]).
Proof.
  destruct (C63_result case_grow 40 case_mt case_t (Some []) case_m case_ms _ case_table_ok case_source_ok) as (R & _).
  fold case_o in R. rewrite case_parsed in R. destruct (mo_result case_o) as [r| | |]; try contradiction.
  destruct R as (_ & _ & R). change (length (m_nodes case_m)) with 0 in R.
  destruct (mr_tree r) as [mn|] eqn:E; [|destruct R].
  exists mn, r. split; [reflexivity|]. split; [exact E|]. exact R.
Qed.

(** Sharing is real: appending one operand to the cell of row 0 in place would
    change the cell of row 1. *)
Lemma case_sharing_is_real :
  let (h, _) := slice_append OpNil case_grow (m_ops case_m) (mkSlice 0 0 2 4) [OpEOS] in
  slice_elems h (mkSlice 0 2 1 2) = [OpEOS].
Proof. reflexivity. Qed.

(** C64: copying the cell of row 0. *)
Lemma case_copied : let (m', s) := mNewParserOpList case_grow case_m (mkSlice 0 0 2 4) in
  s = mkSlice 1 0 2 4 /\ slice_elems (m_ops m') s = [OpTerminal (s2b "a"); OpNonTerminal 1].
Proof. split; reflexivity. Qed.

Print Assumptions C63_result.
Print Assumptions C63_nothing_overwritten.
Print Assumptions C63_table_and_trees_survive.
Print Assumptions C63_tree_is_final.
Print Assumptions C64_own_list.
