(** * C75: any io.Reader that delivers a text parses like the text *)
From Verif Require Import Base Cst Parser Spec_Parse ParseApi Readers Spec_Readers.

Section Proofs.
  Context {St : Type} (read : St -> bytes -> read_out St) (grow : nat -> nat).

  Lemma store_length data p : length (store data p) = length p.
  Proof.
    unfold store. rewrite firstn_length, app_length, skipn_length. lia.
  Qed.

  Lemma store_firstn data p k d :
    k <= length p -> k <= length d -> firstn k data = firstn k d ->
    firstn k (store data p) = firstn k d.
  Proof.
    intros Hk Hd E. unfold store. rewrite firstn_firstn.
    replace (Nat.min k (length p)) with k by lia.
    assert (k <= length data).
    { assert (length (firstn k data) = k) as H by (rewrite E, firstn_length; lia).
      rewrite firstn_length in H. lia. }
    rewrite firstn_app. replace (k - length data) with 0 by lia. cbn [firstn].
    now rewrite app_nil_r.
  Qed.

  Lemma more_room_spec arr len :
    len <= length arr ->
    len < length (more_room grow arr len) /\
    firstn len (more_room grow arr len) = firstn len arr.
  Proof.
    intros H. unfold more_room. destruct (Nat.eqb_spec len (length arr)) as [->|N].
    - split.
      + rewrite app_length, repeat_length. lia.
      + rewrite firstn_app, firstn_all, Nat.sub_diag. cbn. now rewrite app_nil_r, ?firstn_all.
    - split; [lia|reflexivity].
  Qed.

  (** One round of the loop on a call that obeys the contract. *)
  Lemma round fuel arr len st k :
    len <= length arr ->
    let arr1 := more_room grow arr len in
    let out := read st (skipn len arr1) in
    ro_n out = Z.of_nat k -> k <= length (skipn len arr1) ->
    exists arr2,
      arr2 = firstn len arr1 ++ store (ro_data out) (skipn len arr1) /\
      len + k <= length arr2 /\
      firstn (len + k) arr2 = firstn len arr ++ firstn k (store (ro_data out) (skipn len arr1)) /\
      readAll_loop read grow (S fuel) arr len st =
        match ro_err out with
        | None => readAll_loop read grow fuel arr2 (len + k) (ro_state out)
        | Some RdEOF => (Ok (firstn (len + k) arr2, None), ro_state out)
        | Some (RdErr msg) => (Ok (firstn (len + k) arr2, Some msg), ro_state out)
        | Some (RdPanic p) => (Panic p, ro_state out)
        end.
  Proof.
    intros Hlen arr1 out Hn Hk.
    destruct (more_room_spec arr len Hlen) as (L & F). fold arr1 in L, F.
    eexists; split; [reflexivity|].
    assert (LA : length (firstn len arr1) = len) by (rewrite firstn_length; lia).
    assert (length (firstn len arr1 ++ store (ro_data out) (skipn len arr1)) = length arr1) as LL.
    { rewrite app_length, store_length, LA, skipn_length. lia. }
    rewrite skipn_length in Hk.
    repeat split.
    - rewrite LL. lia.
    - rewrite firstn_app, LA.
      replace (len + k - len) with k by lia. rewrite firstn_all2 by lia. now rewrite F.
    - cbn [readAll_loop]. fold arr1. fold out. rewrite LL, Hn.
      replace ((Z.of_nat len + Z.of_nat k <? 0) || (Z.of_nat (length arr1) <? Z.of_nat len + Z.of_nat k))%Z
        with false.
      + replace (Z.to_nat (Z.of_nat len + Z.of_nat k)) with (len + k) by lia. destruct (ro_err out) as [[]|]; reflexivity.
      + symmetry. apply orb_false_intro; [apply Z.ltb_ge|apply Z.ltb_ge]; lia.
  Qed.

  Definition ends_with (data : bytes) (e : rderr) : gores Empty_set (bytes * option bytes) :=
    match e with RdEOF => Ok (data, None) | RdErr m => Ok (data, Some m) | RdPanic p => Panic p end.

  Lemma loop_serves : forall st data e,
    serves read st data e ->
    forall arr len, len <= length arr ->
    exists n st', forall fuel, n <= fuel ->
      readAll_loop read grow fuel arr len st =
        (ends_with (firstn len arr ++ data) e, st').
  Proof.
    fix IH 4. intros st data e [st0 d0 e0 H] arr len Hlen.
    destruct (more_room_spec arr len Hlen) as (L & F).
    set (p := skipn len (more_room grow arr len)).
    assert (p <> []) as Hp.
    { intros E. apply (f_equal (@length _)) in E. unfold p in E. rewrite skipn_length in E. cbn in E. lia. }
    destruct (H p Hp) as (k & Hk & Hkd & Hn & Hd & Hrest).
    destruct Hrest as [(Ee & Hrest)|(Ee & ->)].
    2:{
      exists 1, (ro_state (read st0 p)). intros [|fuel] Hf; [lia|].
      destruct (round fuel arr len st0 (length d0) Hlen Hn Hk) as (arr2 & E2 & L2 & F2 & R).
      rewrite R. fold p. rewrite Ee, F2. fold p.
      rewrite (store_firstn _ p (length d0) d0) by assumption.
      rewrite firstn_all. destruct e0; reflexivity. }
    - destruct (round 0 arr len st0 k Hlen Hn Hk) as (arr2 & E2 & L2 & F2 & _).
      destruct (IH _ _ _ Hrest arr2 (len + k) L2) as (n & st' & Hgo).
      exists (S n), st'. intros [|fuel] Hf; [lia|].
      destruct (round fuel arr len st0 k Hlen Hn Hk) as (arr2' & E2' & L2' & F2' & R).
      assert (arr2' = arr2) as EA by congruence. rewrite EA in *.
      rewrite R. fold p. rewrite Ee. rewrite Hgo by lia.
      rewrite F2. fold p. rewrite (store_firstn _ p k d0) by assumption.
      rewrite <- app_assoc, firstn_skipn. reflexivity.
  Qed.

  Lemma loop_never I :
    never_ends read I -> forall fuel arr len st, I st -> len <= length arr ->
    fst (readAll_loop read grow fuel arr len st) = NoFuel.
  Proof.
    intros HI. induction fuel as [|fuel IH]; intros arr len st Hst Hlen; [reflexivity|].
    destruct (more_room_spec arr len Hlen) as (L & F).
    set (p := skipn len (more_room grow arr len)).
    assert (p <> []) as Hp.
    { intros E. apply (f_equal (@length _)) in E. unfold p in E. rewrite skipn_length in E. cbn in E. lia. }
    destruct (HI st p Hst Hp) as (Hn & He & Hst').
    destruct (round fuel arr len st (Z.to_nat (ro_n (read st p))) Hlen) as (arr2 & E2 & L2 & F2 & R).
    - fold p. lia.
    - fold p. lia.
    - rewrite R. fold p. rewrite He. apply IH; assumption.
  Qed.
End Proofs.

(** io.ReadAll returns what a reader serves, whatever the sizes of its pieces
    and of the buffers the runtime provides, and its error unless that is
    io.EOF. *)
Theorem C75_readall :
  forall (St : Type) (read : St -> bytes -> read_out St) (grow : nat -> nat) st data e,
    serves read st data e ->
    exists n st', forall fuel, n <= fuel ->
      ReadAll read grow fuel st =
        (match e with RdEOF => Ok (data, None) | RdErr m => Ok (data, Some m) | RdPanic p => Panic p end, st').
Proof.
  intros St read grow st data e H.
  destruct (loop_serves read grow st data e H (repeat NUL 512) 0) as (n & st' & G); [lia|].
  exists n, st'. intros fuel Hf. unfold ReadAll. rewrite (G fuel Hf). reflexivity.
Qed.
Print Assumptions C75_readall.

(** Parsing a reader that serves [data] up to io.EOF is parsing the string
    [data]: same result after the same number of steps, same naming map. *)
Theorem C75_parse_reader :
  forall (St : Type) (read : St -> bytes -> read_out St) (grow : nat -> nat) st data tbl names,
    serves read st data RdEOF ->
    exists n, forall fuel_read fuel, n <= fuel_read ->
      fst (Parse_reader read grow fuel_read fuel (NewLL1Parser tbl names) st) =
      (po_result (Parse fuel (NewLL1Parser tbl names) (SrcString data)),
       po_names (Parse fuel (NewLL1Parser tbl names) (SrcString data))).
Proof.
  intros St read grow st data tbl names H.
  destruct (C75_readall St read grow st data RdEOF H) as (n & st' & G).
  exists n. intros fr fuel Hf. unfold Parse_reader, Parse. cbn [p_table p_names NewLL1Parser].
  destruct tbl as [|x tbl]; [reflexivity|].
  destruct (table_get 0 (x :: tbl)); [|reflexivity].
  rewrite (G fr Hf). cbn [readSource].
  destruct (run (x :: tbl) data names fuel init_state); reflexivity.
Qed.
Print Assumptions C75_parse_reader.

(** A reader that fails with another error: that error is returned, and the
    naming map is untouched, whatever was delivered before. *)
Theorem C75_failing_reader :
  forall (St : Type) (read : St -> bytes -> read_out St) (grow : nat -> nat) st data msg tbl names,
    has_row0 tbl -> serves read st data (RdErr msg) ->
    exists n, forall fuel_read fuel, n <= fuel_read ->
      fst (Parse_reader read grow fuel_read fuel (NewLL1Parser tbl names) st) =
      (Ok (mkRet None None (Some (EReader msg))), names).
Proof.
  intros St read grow st data msg tbl names (r & Hr) H.
  destruct (C75_readall St read grow st data (RdErr msg) H) as (n & st' & G).
  exists n. intros fr fuel Hf. unfold Parse_reader. cbn [p_table p_names NewLL1Parser].
  destruct tbl as [|x tbl]; [discriminate|].
  unfold table_get, row in *. rewrite Hr. rewrite (G fr Hf). reflexivity.
Qed.
Print Assumptions C75_failing_reader.

(** A reader that panics: so does Parse, with the same panic, and the naming map
    is untouched. *)
Theorem C75_panicking_reader :
  forall (St : Type) (read : St -> bytes -> read_out St) (grow : nat -> nat) st data p tbl names,
    has_row0 tbl -> serves read st data (RdPanic p) ->
    exists n, forall fuel_read fuel, n <= fuel_read ->
      fst (Parse_reader read grow fuel_read fuel (NewLL1Parser tbl names) st) = (Panic p, names).
Proof.
  intros St read grow st data p tbl names (r & Hr) H.
  destruct (C75_readall St read grow st data (RdPanic p) H) as (n & st' & G).
  exists n. intros fr fuel Hf. unfold Parse_reader. cbn [p_table p_names NewLL1Parser].
  destruct tbl as [|x tbl]; [discriminate|].
  unfold table_get, row in *. rewrite Hr. rewrite (G fr Hf). reflexivity.
Qed.
Print Assumptions C75_panicking_reader.

(** With an unusable table the reader is not read from. *)
Theorem C75_unusable_table_reads_nothing :
  forall (St : Type) (read : St -> bytes -> read_out St) (grow : nat -> nat) st tbl names fuel_read fuel,
    ~ has_row0 tbl ->
    Parse_reader read grow fuel_read fuel (NewLL1Parser tbl names) st =
      (Ok (mkRet None None (Some (match tbl with [] => EEmptyTable | _ => ENoBaseEntry end))), names, st).
Proof.
  intros St read grow st tbl names fr fuel H. unfold Parse_reader. cbn [p_table p_names NewLL1Parser].
  destruct tbl as [|x tbl]; [reflexivity|].
  destruct (table_get 0 (x :: tbl)) as [r|] eqn:E; [|reflexivity].
  exfalso. apply H. exists r. exact E.
Qed.
Print Assumptions C75_unusable_table_reads_nothing.

(** A reader that never ends keeps Parse from returning, even when the text it
    has delivered so far can no longer be completed to a word. *)
Theorem C75_endless_reader :
  forall (St : Type) (read : St -> bytes -> read_out St) (grow : nat -> nat) (I : St -> Prop) st tbl names,
    never_ends read I -> I st -> has_row0 tbl ->
    forall fuel_read fuel,
      fst (fst (Parse_reader read grow fuel_read fuel (NewLL1Parser tbl names) st)) = NoFuel.
Proof.
  intros St read grow I st tbl names HI Hst (r & Hr) fr fuel. unfold Parse_reader.
  cbn [p_table p_names NewLL1Parser]. destruct tbl as [|x tbl]; [discriminate|].
  unfold table_get, row in *. rewrite Hr.
  pose proof (loop_never read grow I HI fr (repeat NUL 512) 0 st Hst (Nat.le_0_l _)) as L.
  unfold ReadAll. destruct (readAll_loop read grow fr (repeat NUL 512) 0 st) as [res st'].
  cbn [fst] in L. subst res. reflexivity.
Qed.
Print Assumptions C75_endless_reader.

(** The chunk description of [Parser.v] is an instance: the reader that hands
    out its chunks as far as they fit serves their concatenation. So is what
    C15 says about chunks. *)
Lemma chunk_serves_len cs e : forall m,
  length cs + length (concat cs) <= m ->
  serves chunk_read (mkReader cs e) (concat cs)
         (match e with None => RdEOF | Some x => RdErr x end).
Proof.
  intros m. revert cs. induction m as [|m IH]; intros cs Hm.
  - destruct cs; [|cbn in Hm; lia]. constructor. intros p Hp. exists 0. cbn.
    repeat split; auto; lia.
  - constructor. intros p Hp. destruct cs as [|c cs].
    + exists 0. cbn. repeat split; auto; lia.
    + assert (0 < length p) by (destruct p; [congruence|cbn; lia]).
      unfold chunk_read. cbn [rd_chunks rd_end concat].
      rewrite concat_cons in Hm. rewrite app_length in Hm. cbn [length] in Hm.
      destruct (Nat.leb_spec (length c) (length p)) as [Hc|Hc]; cbn [ro_n ro_data ro_err ro_state].
      * exists (length c). rewrite app_length. repeat split; try lia.
        -- rewrite firstn_app, Nat.sub_diag. cbn. now rewrite app_nil_r.
        -- left; split; [reflexivity|].
           rewrite skipn_app, Nat.sub_diag, skipn_all. cbn. apply IH. lia.
      * exists (length p). rewrite app_length. repeat split; try lia.
        -- rewrite firstn_firstn, firstn_app. replace (length p - length c) with 0 by lia.
           cbn. rewrite app_nil_r. f_equal. lia.
        -- left; split; [reflexivity|].
           rewrite skipn_app. replace (length p - length c) with 0 by lia. cbn [skipn].
           change (skipn (length p) c ++ concat cs) with (concat (skipn (length p) c :: cs)).
           apply IH. rewrite concat_cons, app_length, skipn_length. cbn [length]. lia.
Qed.

Theorem C75_chunk_readers :
  forall chunks e,
    serves chunk_read (mkReader chunks e) (concat chunks)
           (match e with None => RdEOF | Some m => RdErr m end).
Proof. intros. eapply chunk_serves_len. reflexivity. Qed.
Print Assumptions C75_chunk_readers.

(** A reader that hands out one byte at a time, scribbles over the rest of the
    buffer, and returns the last byte together with io.EOF. *)
Definition drip_read (st : bytes) (p : bytes) : read_out bytes :=
  match st with
  | [] => mkRO p 0 (Some RdEOF) []
  | [c] => mkRO (c :: s2b "garbage") 1 (Some RdEOF) []
  | c :: st' => mkRO (c :: s2b "garbage") 1 None st'
  end.
Lemma drip_serves : forall data, serves drip_read data data RdEOF.
Proof.
  induction data as [|c data IH]; constructor; intros p Hp.
  - exists 0. cbn. repeat split; auto; lia.
  - assert (1 <= length p) by (destruct p; [congruence|cbn; lia]).
    exists 1. destruct data as [|d data]; cbn [drip_read ro_n ro_data ro_err ro_state length firstn skipn];
      repeat split; auto; lia.
Qed.
Example C75_drip :
  serves drip_read (s2b "abxy") (s2b "abxy") RdEOF /\
  fst (ReadAll drip_read (fun n => n) 10 (s2b "abxy")) = Ok (s2b "abxy", None).
Proof. split; [apply drip_serves|vm_compute; reflexivity]. Qed.

(** A reader that breaks the contract of Read makes io.ReadAll, and so Parse,
    panic, or lose what was read before. *)
Theorem C75_refuted_contract :
  (exists (read : unit -> bytes -> read_out unit), forall grow tbl names, has_row0 tbl ->
     exists n, forall fuel_read fuel, n <= fuel_read ->
       fst (fst (Parse_reader read grow fuel_read fuel (NewLL1Parser tbl names) tt)) = Panic PanicSlice) /\
  (exists (read : nat -> bytes -> read_out nat) data,
     (forall p, 3 <= length p -> ro_n (read 0 p) = 3%Z /\ ro_err (read 0 p) = None /\ firstn 3 (ro_data (read 0 p)) = data) /\
     fst (ReadAll read (fun n => n) 5 0) = Ok (firstn 1 data, None)).
Proof.
  split.
  - exists (fun (st : unit) p => mkRO [] (Z.of_nat (length p) + 1) None st).
    intros grow tbl names [r H]. exists 1. intros [|fr] fuel Hf; [lia|]. unfold Parse_reader. cbn [p_table NewLL1Parser].
    destruct tbl; [discriminate|]. unfold table_get, row in *. rewrite H. reflexivity.
  - exists (fun st p => match st with
                        | 0 => mkRO (s2b "abc") 3 None 1
                        | _ => mkRO [] (-2)%Z (Some RdEOF) 2
                        end), (s2b "abc").
    split; [intros p _; repeat split; reflexivity|vm_compute; reflexivity].
Qed.
Print Assumptions C75_refuted_contract.

(** The nil pointer *strings.Reader: its first Read panics. *)
Example C75_panicking_case :
  serves (fun (st : unit) p => mkRO [] 0 (Some (RdPanic PanicNilNode)) st) tt [] (RdPanic PanicNilNode).
Proof. constructor. intros p Hp. exists 0. cbn. repeat split; auto; lia. Qed.
Example C75_endless_case :
  never_ends (fun (st : unit) p => mkRO (s2b "x") 1 None st) (fun _ => True).
Proof.
  intros st p _ Hp. cbn. repeat split; auto; try lia. destruct p; [congruence|cbn [length]; lia].
Qed.
