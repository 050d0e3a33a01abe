(** * BnfParser: the parser generated from SelfGrammar. *)
From Verif Require Import Base Cst Ast Parser SelfGrammar TableGen Spec_Parse Spec_Grammar Spec_Table
  ParseApi TGParse TGCheck.

(** The certificate, evaluated once. *)
Definition self_nul : list bytes := Eval vm_compute in nul_list SelfGrammar.
Definition self_first : list (bytes * list ascii) := Eval vm_compute in first_list SelfGrammar.
Definition self_follow : list (bytes * list (option ascii)) :=
  Eval vm_compute in fol_list (length SelfGrammar) SelfGrammar.
Definition self_cert : cert := list_cert self_nul self_first self_follow.

Lemma self_passes : passes SelfGrammar self_cert = true.
Proof. vm_cast_no_check (eq_refl true). Qed.
Lemma self_dec : decidable_grammar SelfGrammar.
Proof. exact (proj1 (passes_ok _ _ self_passes)). Qed.
Lemma self_closed_first : closed_first SelfGrammar self_cert = true.
Proof. exact (passes_first _ _ self_passes). Qed.
Lemma self_nullable n : nullable SelfGrammar [NT n] -> c_nul self_cert n = true.
Proof.
  intros H. apply (nul_over SelfGrammar self_cert self_closed_first) in H. cbn [form_nul] in H.
  rewrite andb_true_r in H. exact H.
Qed.
