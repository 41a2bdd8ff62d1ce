(** Model of the constraints of the ILP heuristic against disconnected cycles (cTdgFull), src/heuristics/dofHeuristics/hhDOfree.cpp 102-256 and 657-776. [C], [Pr]: the
    components of the task graph and their predecessors (sccToTasks, sccsCyclic, sccGinverse; Scc_model). [RV k t] is the variable R of layer [k] of the component of task [t] (v[RlayerCurrent[iT]],
    one layer later v[RlayerPrev[iT]]), [IV k t t'] is v[Ivars[iT][iT']] of layer [k]; a component lists every task once, so the position and the task are exchanged. *)
From Verif Require Import Base Htn_problem Tab_model Pg_model Lm_spec Scc_model Dof_spec Dof_model.
Local Open Scope Z_scope.

(** hhDOfree.cpp 107-156: the set of the methods of the tasks [fs] that contain the task *)
Definition incoming (P : problem) (fs : list nat) (t : nat) : list nat :=
  map fst (filter (fun '(_, md) => memb (m_task md) fs && memb t (m_subs md)) (enum (p_methods P))).
(** hhDOfree.cpp 185-236: sccInnerFromToMethods *)
Definition inner (P : problem) (a b : nat) : list nat :=
  map fst (filter (fun '(_, md) => Nat.eqb (m_task md) a && memb b (m_subs md)) (enum (p_methods P))).
(** hhDOfree.cpp 199-200, 222-229: sccInnerToFrom *)
Definition to_from (P : problem) (ts : list nat) (t : nat) : list nat := filter (fun t2 => negb (Nat.eqb (length (inner P t2 t)) 0)) ts.

(** The form "right hand side >= variable". *)
Definition below (v : var) (ts : list (Z * var)) (c : Z) : lin := {| l_terms := ts ++ [(-1, v)]; l_rel := GE; l_rhs := - c |}.
(** hhDOfree.cpp 675-692 *)
Definition c9 (P : problem) (r : pg_result) (T : ctable) (fs : list nat) (t : nat) : option lin :=
  c <- tn_count T t ;; Some (below (RV 0 t) (map (fun m => (1, MV m)) (filter (methodReachable r) (incoming P fs t))) c).
(** hhDOfree.cpp 726-742 *)
Definition c10 (P : problem) (ts : list nat) (k t : nat) : lin := below (RV (S k) t) ((1, RV k t) :: map (fun t2 => (1, IV (S k) t2 t)) (to_from P ts t)) 0.
(** hhDOfree.cpp 749-750 *)
Definition c11 (k t2 t : nat) : lin := below (IV (S k) t2 t) [(1, RV k t2)] 0.
(** hhDOfree.cpp 752-763 *)
Definition c12 (P : problem) (r : pg_result) (k t2 t : nat) : lin := below (IV (S k) t2 t) (map (fun m => (1, MV m)) (filter (methodReachable r) (inner P t2 t))) 0.
(** hhDOfree.cpp 768-774 *)
Definition c13 (last t : nat) : lin := below (UA t) [(100, RV last t)] 0.

(** hhDOfree.cpp 658-775, one component: its reachable tasks, layers 0 to size - 1 *)
Definition tdg_scc (P : problem) (C : sccs) (Pr : list (list nat)) (r : pg_result) (T : ctable) (scc : nat) : option (list (var * (Z * Z)) * list lin) :=
  ts0 <- get (s_tasks C) scc ;;
  pr <- get Pr scc ;;
  fs <- oflat (get (s_tasks C)) pr ;;
  let ts := filter (taskReachable r) ts0 in
  l9 <- omap (c9 P r T fs) ts ;;
  let ks := seq 0 (length ts0 - 1) in
  Some (map (fun t => (RV 0 t, (0, INT_MAX))) ts ++ flat_map (fun k => flat_map (fun t => (RV (S k) t, (0, INT_MAX)) :: map (fun t2 => (IV (S k) t t2, (0, INT_MAX))) ts) ts) ks,
        l9 ++ flat_map (fun k => flat_map (fun t => c10 P ts k t :: flat_map (fun t2 => [c11 k t2 t; c12 P r k t2 t]) ts) ts) ks ++ map (c13 (length ts0 - 1)) ts).

(** hhDOfree.cpp 657-776: the constraints are added to the program (in the code before those of cuts, landmarks and net change). *)
Definition tdg_ilp (P : problem) (C : sccs) (Pr : list (list nat)) (r : pg_result) (T : ctable) (J : ilp) : option ilp :=
  l <- omap (tdg_scc P C Pr r T) (s_cyclic C) ;;
  Some {| i_vars := i_vars J ++ flat_map fst l; i_obj := i_obj J; i_cons := i_cons J ++ flat_map snd l |}.

(** hhDOfree.cpp 428-979 with cTdgFull *)
Definition tdg_model (P : problem) (V : list (nat * nat)) (o : dof_opts) (C : sccs) (Pr : list (list nat)) (r : pg_result) (s : list bool) (T : ctable) (cuts : option (list (nat * list Z))) (lms : list elem) : option outcome :=
  out <- dof_model P V o r s T cuts lms ;;
  match out with Solve J => J' <- tdg_ilp P C Pr r T J ;; Some (Solve J') | _ => Some out end.
