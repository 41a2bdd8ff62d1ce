(** The printed decompositions of plans of the encoding "Push". *)
From Coq Require Import Relations.
From Verif Require Import Base Htn_problem Htn_spec Htn_check To_spec Tree_spec Sas_model Sas_spec Sas_proof Sas_thm Push_model Push_spec Push_thm Hddl_model Hddl_proof Pout_model.

(** C122: the printed tree of every plan of the encoding "Push" is a decomposition tree *)
Definition any_push_tree : Prop := forall P V pgb u T pl, to_base P V -> s0_found P V -> single_effects P V -> listed_po P -> 1 <= pgb -> zeroed u ->
  push_translate P V pgb true u = Some T -> cd_plan T pl ->
  exists acts root rs, plan_out P (map push_line (map fst pl)) = Some (acts, root, map lift rs) /\ tree_ok P root rs acts.

Module OBad.
  (** 3 -> 2, 4, 1 without orderings; 4 -> 0 *)
  Definition p : problem := mk 1 [true; true; true; false; false] [([], [], []); ([], [], []); ([], [], [])]
    [{| m_task := 3; m_subs := [2; 4; 1]; m_ord := [] |}; {| m_task := 4; m_subs := [0]; m_ord := [] |}] [] [].
  Lemma base : to_base p (singles 1).
  Proof. apply singles_base; [apply problem_check_ok; reflexivity|reflexivity|apply acts_first_check; [reflexivity|cbn; lia]]. Qed.
  Lemma se : single_effects p (singles 1). Proof. apply no_dels_single. intros l [<-|[<-|[<-|[]]]]; reflexivity. Qed.
End OBad.

(** The plan decomposes 3 and 4, executes 0, moves 2 to the place of 4, executes 1, and moves 2 again: now the place recorded for 4 is changed, too. *)
Theorem any_push_tree_refuted : ~ any_push_tree.
Proof.
  intros H. destruct (push_translate OBad.p (singles 1) 3 true zeros) as [T|] eqn:E; [|vm_compute in E; discriminate]. destruct (crun_ix T (cd_init T) [9; 11; 1; 18; 3; 17; 6]) as [[pl w]|] eqn:R; [|run_tac E R].
  assert (FP : cd_plan T pl) by (apply (crun_ix_plan _ _ _ _ R); run_tac E R; injection R as <- <-; reflexivity).
  destruct (H OBad.p (singles 1) 3 zeros T pl OBad.base (no_s0 OBad.p 0 eq_refl) OBad.se ltac:(apply po_check; reflexivity) ltac:(lia) (fun _ _ _ => eq_refl) E FP) as (acts & root & rs & EH & _).
  assert (X : plan_out OBad.p (map push_line (map fst pl)) = Some ([(0, 0); (1, 1); (2, 2)], 3,
    [{| hr_id := 3; hr_task := 3; hr_meth := 0; hr_kids := [None; None; Some 1] |}; {| hr_id := 4; hr_task := 4; hr_meth := 1; hr_kids := [Some 0] |}])) by (clear FP EH; run_tac E R; injection R as <- <-; reflexivity).
  rewrite X in EH. injection EH as <- <- EH. destruct rs as [|[i1 t1 m1 k1] rs]; [discriminate|]. cbn [map] in EH. unfold lift in EH at 1. cbn in EH. injection EH as _ _ _ EH _. destruct k1; discriminate.
Qed.

Print Assumptions any_push_tree_refuted.
