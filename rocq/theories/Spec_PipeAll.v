(** * Spec_PipeAll: what goroutines that convert, build and parse end with, and
    races between them. *)
From Verif Require Import Base Cst Ast FromCst Parser SliceMem ParserMem TableGenMem FromCstMem
  TableGen TableGenConc ParserConc PipeConc ConvertConc PipeAll
  Spec_Mem Spec_GenMem Spec_GenConc Spec_ParserConc Spec_PipeConc Spec_ConvertConc Spec_MixConc.

(** What the goroutines build from, parse with and parse stands in memory. *)
Definition zjob_in (m : gmem) (z : zjob) : Prop :=
  match z with
  | ZWork j => xjob_in m j /\ grammar_job m j
  | ZConvert _ (Some b) =>
      match b_next b with
      | Some nx => exists s, source_in (gm_mem m) (xn_source nx) s
      | None => True
      end
  | ZConvert _ None => True
  end.
Definition zjobs_in (m : gmem) (jobs : list zjob) : Prop := Forall (zjob_in m) jobs.

(** What the goroutine would have got with plain values, all by itself. *)
Definition z_as_alone (m0 m : gmem) (z : zjob) (out : zout) : Prop :=
  match z with
  | ZWork j => exists o, out = ZBuilt o /\ as_alone m0 m j o
  | ZConvert j b =>
      match ToAST (r_bindings j) (r_root j) (r_str j) with
      | Ok g =>
          match b with
          | None => exists rules, out = ZGrammar (Ok rules) /\ grammar_in m rules g /\ own_grammar m0 m rules
          | Some b =>
              match FromGrammar_order (b_order b) (b_fuel b) g with
              | Ok (t, names) =>
                  match b_next b with
                  | None => exists mt, out = ZBuilt (XTable (Ok (mt, names))) /\ table_in (gm_mem m) mt t
                  | Some nx => forall s, source_in (gm_mem m0) (xn_source nx) s ->
                      exists o, out = ZBuilt (XTree o) /\
                        tree_like m0 m o (Parse (xn_fuel nx) (NewLL1Parser t (Some names)) s)
                  end
              | Err e => out = ZBuilt (XTable (Err e))
              | Panic p => out = ZBuilt (XTable (Panic p))
              | NoFuel => out = ZBuilt (XTable NoFuel)
              end
          end
      | Err e => out = ZGrammar (Err e)
      | Panic p => out = ZGrammar (Panic p)
      | NoFuel => out = ZGrammar NoFuel
      end
  end.

(** The array the next step accesses, and whether it writes. *)
Definition zaccess (c : zcall) : option (xkind * nat * bool) :=
  match c with
  | ZR p _ => match raccess p with Some (k, a, w) => Some (rkind_of k, a, w) | None => None end
  | ZX c => xaccess c
  end.

(** Two goroutines are about to access the same array, and one of them writes. *)
Definition zrace (c : zconfig) : Prop :=
  exists i k p q kd a b,
    i <> k /\ nth_error (zc_calls c) i = Some p /\ nth_error (zc_calls c) k = Some q /\
    zaccess p = Some (kd, a, true) /\ zaccess q = Some (kd, a, b).
