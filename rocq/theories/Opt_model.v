(** Model of the cost optimisation of the SAT planner for totally ordered problems: the cost clauses of createFormulaForDepth (src/sat/sat_planner.cpp 481-514)
    and optimise_with_sat_planner_linear_bound_increase (707-780). Simplifications: integers are unbounded; the clock, the messages and the release of solvers are left out;
    the solver is a function from formulas to answers; capsule.new_variable counts the variables 1, 2, ... as in Pdt_model.v. *)
From Coq Require Import ZArith.
From Verif Require Import Base Htn_problem Sat_model Sf_model Pdt_model Inv_model Mx_model.
Local Open Scope Z_scope.

(** sat_planner.cpp 1078-1086: the costs that are optimised; [ln c] stands for log(c), truncated when 1 + log(c) is assigned to an int *)
Definition log_costs (ln : nat -> nat) (cost : list nat) : list nat := map (fun c => if (c =? 0)%nat then c else (1 + ln c)%nat) cost.

Section Conf.
Variables (P : problem) (C : sconf) (M : mconf) (cost : list nat).

(** sat_planner.cpp 74-85 (printSolution): solutionCost *)
Definition solution_cost (plan : list nat) : nat := fold_right (fun a k => (nth a cost 0 + k)%nat) 0%nat plan.

(** sat_planner.cpp 499-503: the clauses for the cost variable [cv] of cost [c] at one position; [ks] are the variables and costs of its actions *)
Definition cost_clauses (cf : nat) (ks : list (Z * nat)) (c : nat) (cv : Z) : list clause :=
  flat_map (fun '(x, k) => if (c <=? k / cf)%nat then implies x cv else impliesNot x cv) ks.
(** sat_planner.cpp 484-507: one position: the clauses, the cost variables and the number of variables *)
Definition cost_pos (cf : nat) (nv : Z) (l : leaf) : option (list clause * list Z * Z) :=
  ks <- omap (fun x => k <- get cost (snd x) ;; Some (fst x, k)) l ;;
  let m := (list_max (map snd ks) / cf)%nat in
  Some (flat_map (fun c => cost_clauses cf ks c (nv + Z.of_nat c)) (seq 1 m), map (fun c => nv + Z.of_nat c) (seq 1 m), nv + Z.of_nat m).
Fixpoint cost_positions (cf : nat) (nv : Z) (ls : list leaf) : option (list clause * list Z * Z) :=
  match ls with
  | [] => Some ([], [], nv)
  | l :: r =>
      '(c1, v1, nv1) <- cost_pos cf nv l ;;
      '(c2, v2, nv2) <- cost_positions cf nv1 r ;;
      Some (c1 ++ c2, v1 ++ v2, nv2)
  end.
(** sat_planner.cpp 297-514 (createFormulaForDepth with costMode): [K] is currentMaximumCost, [cf] is costFactor *)
Definition create_cost (bi : list (list Z)) (K : Z) (cf : nat) (depth : nat) (st : pdt * Z) : option (pdt * Z * option (list clause)) :=
  '(T, nv, o) <- create_full P C M bi depth st ;;
  match o with
  | None => Some (T, nv, None)
  | Some cl =>
      '(c5, vs, nv5) <- cost_positions cf nv (map (fun x => leaf_atoms (snd x)) (leafs T [])) ;;
      let '(c6, nv6) := atMostK (Z.quot K (Z.of_nat cf)) nv5 vs in
      Some (T, nv6, Some (cl ++ c5 ++ c6))
  end.

(** The variables of the loop, sat_planner.cpp 714-720: pdt and capsule, depth, costFactor, currentMaximumCost, lastImprovedDepth *)
Record ostate := { o_st : pdt * Z; o_depth : nat; o_cf : nat; o_max : Z; o_last : nat }.
(** sat_planner.cpp 720-779: one iteration, and the plan if one was printed *)
Definition opt_step (solver : list clause -> option (Z -> bool)) (bi : list (list Z)) (s : ostate) : option (ostate * option (list nat)) :=
  '(T, nv, o) <- create_cost bi (o_max s) (o_cf s) (o_depth s) (o_st s) ;;
  match (match o with Some cl => solver cl | None => None end) with
  | Some val =>
      let plan := sat_plan val T in
      let ac := solution_cost plan in
      let cf := if (ac <? 1000)%nat then 1%nat else o_cf s in
      Some ({| o_st := (pdt_root P, nv); o_depth := o_depth s; o_cf := cf; o_max := Z.of_nat ac - Z.of_nat cf; o_last := o_depth s |}, Some plan)
  | None =>
      let d := S (o_depth s) in
      if (d + 15 <? o_last s)%nat then Some ({| o_st := (T, nv); o_depth := o_last s; o_cf := 1; o_max := o_max s + 999; o_last := o_last s |}, None)
      else Some ({| o_st := (T, nv); o_depth := d; o_cf := o_cf s; o_max := o_max s; o_last := o_last s |}, None)
  end.
(** sat_planner.cpp 720-779: the first [rounds] iterations; the plans printed, the latest first. The loop of the code does not end. *)
Fixpoint opt_run (solver : list clause -> option (Z -> bool)) (bi : list (list Z)) (rounds : nat) (s : ostate) : option (ostate * list (list nat)) :=
  match rounds with
  | O => Some (s, [])
  | S rounds' =>
      '(s1, ps) <- opt_run solver bi rounds' s ;;
      '(s2, o) <- opt_step solver bi s1 ;;
      Some (s2, match o with Some plan => plan :: ps | None => ps end)
  end.
(** sat_planner.cpp 714-718, 26-29: the start of the optimisation, [nv] variables being in use and a plan of cost [c] being known; costFactor is 1000 *)
Definition opt_start (nv : Z) (depth c : nat) : ostate :=
  {| o_st := (pdt_root P, nv); o_depth := depth; o_cf := 1000; o_max := Z.of_nat c - 1; o_last := depth |}.

(** sat_planner.cpp 782-836: the search for the first plan as full_search in Mx_model.v, with the depth and the number of variables *)
Fixpoint first_search (solver : list clause -> option (Z -> bool)) (bi : list (list Z)) (rounds : nat) (depth : nat) (st : pdt * Z) : option (option (list nat * nat * Z)) :=
  match rounds with
  | O => Some None
  | S rounds' =>
      '(T, nv, o) <- create_full P C M bi depth st ;;
      match (match o with Some cl => solver cl | None => None end) with
      | Some val => Some (Some (sat_plan val T, depth, nv))
      | None => first_search solver bi rounds' (S depth) (T, nv)
      end
  end.
(** solve_with_sat_planner_linear_bound_increase with optimisePlan: the plans printed, the latest first, in the first [r1] iterations of the search for a first plan
    and the first [r2] iterations of the optimisation. *)
Definition solve_opt (solver : list clause -> option (Z -> bool)) (r1 r2 : nat) : option (list (list nat)) :=
  bi <- all_invariants (m_order M) P (m_input M) (m_mutex M) ;;
  r <- first_search solver bi r1 1 (pdt_root P, 0) ;;
  match r with
  | None => Some []
  | Some (plan, depth, nv) => '(_, ps) <- opt_run solver bi r2 (opt_start nv depth (solution_cost plan)) ;; Some (ps ++ [plan])
  end.
End Conf.
