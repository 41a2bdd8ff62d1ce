(** Theorems about the record kept in a node: depth counters (C54) and the printed decomposition tree (C55). *)
From Verif Require Import Base Htn_model Htn_spec Htn_proof Htn_history Htn_search Htn_hist Htn_thm Tree_spec Tree_model Tree_proof.

(** ** C54 *)
Theorem depth_counters : forall (P : problem) (C : config) w l n,
  history P C w l -> In n l ->
  n_depth n = length (n_sol n) /\
  n_mixed n = n_cost n + length (filter (fun s => match ss_method s with None => false | _ => true end) (n_sol n)).
Proof.
  intros P C w l n H Hn. destruct (history_depth P C w l H n Hn) as [D M]. split; auto. rewrite M. f_equal. unfold decs.
  f_equal. apply filter_ext. intros s. unfold is_act. destruct (ss_method s); reflexivity.
Qed.
Print Assumptions depth_counters.

(** ** C55 *)
Theorem printed_tree_valid : forall (P : problem) (C : config) w l n,
  wf_problem P -> config_ok C -> history P C w l -> In n l -> isGoal P n = Some true ->
  exists root, pr_root (extract P n) = Some root /\
    tree_ok P root (pr_rows (extract P n)) (pr_acts (extract P n)) /\
    map snd (pr_acts (extract P n)) = printed_plan n.
Proof. intros P C w l n WP HC H Hn G. eapply history_tree; eauto. Qed.
Print Assumptions printed_tree_valid.

Theorem search_tree_valid : forall V (P : problem) (C : config) (E : search_env V) v0 afuel fuel w n,
  wf_problem P -> config_ok C -> fringe_ok E -> search P C E v0 afuel fuel = Solved w n ->
  exists root, pr_root (extract P n) = Some root /\
    tree_ok P root (pr_rows (extract P n)) (pr_acts (extract P n)) /\
    map snd (pr_acts (extract P n)) = printed_plan n /\ solution P (map snd (pr_acts (extract P n))).
Proof.
  intros V P C E v0 afuel fuel w n WP HC HF H.
  destruct (search_history P C E (proj1 HF) (proj2 (proj2 HF)) v0 afuel fuel w n H) as (l & Hh & Hn & G).
  destruct (printed_tree_valid P C w l n WP HC Hh Hn G) as (root & R1 & R2 & R3). exists root. split; auto. split; auto. split; auto.
  rewrite R3. eapply search_sound; eauto.
Qed.
Print Assumptions search_tree_valid.

(** ** Concrete cases *)
Module Ex.
  Import Htn_thm.Ex.
  (** The tree printed for the example problem: four lines of actions, root 0, two decompositions. *)
  Example tree : exists w n, search (prob [1]) (conf false false) (env false) tt 50 50 = Solved w n /\
    pr_acts (extract (prob [1]) n) = [(6, 2); (8, 0); (10, 1); (11, 2)] /\ pr_root (extract (prob [1]) n) = Some 0 /\
    pr_rows (extract (prob [1]) n) = [ {| rw_id := 1; rw_task := 4; rw_meth := 1; rw_kids := [8; 6] |};
                                       {| rw_id := 0; rw_task := 3; rw_meth := 0; rw_kids := [1; 10; 11] |} ].
  Proof. vm_compute. eexists _, _. split; [reflexivity|]. repeat split. Qed.
End Ex.
