(** * Spec_EndConc: what a goroutine has made of a text. *)
From Verif Require Import Base Cst Ast Parser SliceMem ParserMem TableGenMem ParserConc Spec_Mem.

(** [Parse] has returned the tree [n], in arrays that were not there in [m0]. *)
Definition accepted_as (m0 m : gmem) (o : qout) (n : node) : Prop :=
  exists r mn, qo_result o = Ok r /\ mr_err r = None /\ mr_tree r = Some mn /\
    fresh_tree (length (m_nodes (gm_mem m0))) (m_nodes (gm_mem m)) mn n.

(** [Parse] has returned an error. *)
Definition refused (o : qout) : Prop :=
  exists r e, qo_result o = Ok r /\ mr_err r = Some e /\ mr_tree r = None.
