(** Model of src/Model.cpp 2680-2779 (calcMinimalImpliedX). Addition of ints that exceeds INT_MAX is undefined ([MUndef]); the arrays stToMethod and
    taskToMethods are those of Tab_model.v. The allocation of queue elements and the output of the running time are left out. *)
From Coq Require Import ZArith.
From Verif Require Import Base Htn_problem Htn_model Tab_model.

Local Open Scope Z_scope.

Definition int_max : Z := 2147483647.

(** Model.cpp 2688-2691: minEstimatedCosts, minImpliedDistance, minEstimatedCostsM, minImpliedDistanceM *)
Record mix := { x_cT : list Z; x_dT : list Z; x_cM : list Z; x_dM : list Z }.

(** Model.cpp 2675-2678: tOrMnode *)
Inductive mnode := NM (m : nat) | NT (t : nat).

(** Model.cpp 2693-2706; the actions are the first tasks *)
Definition mix_init (P : problem) : mix :=
  let na := length (p_cost P) in
  let nt := length (p_prim P) in
  let nm := length (p_methods P) in
  {| x_cT := map Z.of_nat (p_cost P) ++ repeat 0 (nt - na); x_dT := repeat 1 na ++ repeat 0 (nt - na); x_cM := repeat 0 nm; x_dM := repeat 0 nm |}.

(** [x += y] for non-negative ints *)
Definition iadd (x y : Z) : option Z := if x + y <=? int_max then Some (x + y) else None.
(** Model.cpp 2726-2732 for one of the two values *)
Definition isum (v : list Z) (subs : list nat) (start : Z) : option Z := ofold (fun s t => x <- get v t ;; iadd s x) subs start.
(** Model.cpp 2745-2751 for one of the two values *)
Definition imin (v : list Z) (ms : list nat) : option Z := ofold (fun s m => x <- get v m ;; Some (Z.min x s)) ms int_max.

Section Loop.
Variables (P : problem) (st : list (list Z)).

(** Model.cpp 2711-2716, 2756-2762: the methods containing the task are queued *)
Definition queue_methods (t : nat) : option (list mnode) := row <- get st t ;; Some (map (fun z => NM (Z.to_nat z)) row).

(** Model.cpp 2708-2718 *)
Definition mix_queue : option (list mnode) := qs <- omap queue_methods (seq 0 (length (p_cost P))) ;; Some (concat qs).

(** Model.cpp 2720-2765: one iteration; the new queue elements are appended *)
Definition mix_step (x : mix) (n : mnode) : option (mix * list mnode) :=
  match n with
  | NM m =>
      md <- get (p_methods P) m ;;
      cc <- get (x_cM x) m ;;
      cd <- get (x_dM x) m ;;
      c <- isum (x_cT x) (m_subs md) 0 ;;
      d <- isum (x_dT x) (m_subs md) 1 ;;
      cM <- set (x_cM x) m c ;;
      dM <- set (x_dM x) m d ;;
      Some ({| x_cT := x_cT x; x_dT := x_dT x; x_cM := cM; x_dM := dM |}, if (c =? cc) && (d =? cd) then [] else [NT (m_task md)])
  | NT t =>
      cc <- get (x_cT x) t ;;
      cd <- get (x_dT x) t ;;
      c <- imin (x_cM x) (task_to_methods P t) ;;
      d <- imin (x_dM x) (task_to_methods P t) ;;
      cT <- set (x_cT x) t c ;;
      dT <- set (x_dT x) t d ;;
      q <- (if (c =? cc) && (d =? cd) then Some [] else queue_methods t) ;;
      Some ({| x_cT := cT; x_dT := dT; x_cM := x_cM x; x_dM := x_dM x |}, q)
  end.

Inductive outcome := MDone (x : mix) | MUndef | MMore (x : mix) (q : list mnode).

(** Model.cpp 2720-2766: [fuel] iterations of the loop *)
Fixpoint mix_loop (fuel : nat) (x : mix) (q : list mnode) : outcome :=
  match q with
  | [] => MDone x
  | n :: r =>
      match fuel with
      | O => MMore x q
      | S f => match mix_step x n with Some (x', a) => mix_loop f x' (r ++ a) | None => MUndef end
      end
  end.
End Loop.

(** Model.cpp 2680-2766 *)
Definition minimal_implied (P : problem) (fuel : nat) : outcome :=
  match st_table P with
  | Some (st, _) => match mix_queue P st with Some q => mix_loop P st fuel (mix_init P) q | None => MUndef end
  | None => MUndef
  end.
