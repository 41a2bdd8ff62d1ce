(** Model of the reachability analysis of src/heuristics/planningGraph.cpp 15-132. The sets (noDelIntSet, C22) are duplicate free lists in the order of
    insertion, the priority queue is the model of IntPairHeap (C21), the stack (IntStack) has numTasks cells. An access outside an array, an overflow of int
    and a stack overflow are [None]. The arrays and sets are cleared by every call, except for the queue's memory [q0]. *)
From Verif Require Import Base Htn_problem Heap_model.
Local Open Scope Z_scope.

(** The tables of class Model that are used: precToAction, precLessActions, stToMethod, numDistinctSTs. *)
Record pg_tables := { t_p2a : list (list nat); t_precless : list nat; t_stm : list (list nat); t_nst : list nat }.

(** flags.h 18 *)
Definition UNREACHABLE : Z := 2147483647.
Definition INT_MAX : Z := 2147483647.

(** numSatPrecs, hValOp, hValProp, queue, reachableTasksSet, usefulFactSet *)
Record pg := { g_unsat : list Z; g_op : list Z; g_prop : list Z; g_q : heap; g_tasks : list nat; g_useful : list nat }.

(** noDelIntSet::insert *)
Definition insert (x : nat) (l : list nat) : list nat := if memb x l then l else l ++ [x].

(** planningGraph.cpp 55-57: facts of [l] outside the state *)
Definition add_useful (s : list bool) (l : list nat) (u : list nat) : option (list nat) :=
  ofold (fun u f => b <- get s f ;; Some (if b then u else insert f u)) l u.

(** planningGraph.cpp 61-66 *)
Definition init_fact (al : nat -> list Z) (s : list bool) (x : pg) (f : nat) : option pg :=
  b <- get s f ;;
  if b : bool then
    q <- heap_add al (g_q x) 0 (Z.of_nat f) ;;
    p <- set (g_prop x) f 0 ;;
    Some {| g_unsat := g_unsat x; g_op := g_op x; g_prop := p; g_q := q; g_tasks := g_tasks x; g_useful := g_useful x |}
  else Some x.

(** planningGraph.cpp 68-78 *)
Definition init_precless (al : nat -> list Z) (P : problem) (R : list bool) (x : pg) (ac : nat) : option pg :=
  r <- get R ac ;;
  if r : bool then
    adds <- get (p_add P) ac ;;
    c <- get (p_cost P) ac ;;
    ofold (fun x f =>
      p <- set (g_prop x) f (Z.of_nat c) ;;
      q <- heap_add al (g_q x) (Z.of_nat c) (Z.of_nat f) ;;
      Some {| g_unsat := g_unsat x; g_op := g_op x; g_prop := p; g_q := q; g_tasks := g_tasks x; g_useful := g_useful x |}) adds
      {| g_unsat := g_unsat x; g_op := g_op x; g_prop := g_prop x; g_q := g_q x; g_tasks := insert ac (g_tasks x); g_useful := g_useful x |}
  else Some x.

(** planningGraph.cpp 98-104 *)
Definition add_effect (al : nat -> list Z) (v : Z) (x : pg) (f : nat) : option pg :=
  h <- get (g_prop x) f ;;
  if v <? h then
    p <- set (g_prop x) f v ;;
    q <- heap_add al (g_q x) v (Z.of_nat f) ;;
    Some {| g_unsat := g_unsat x; g_op := g_op x; g_prop := p; g_q := q; g_tasks := g_tasks x; g_useful := g_useful x |}
  else Some x.

(** planningGraph.cpp 87-106 *)
Definition visit_op (al : nat -> list Z) (P : problem) (s R : list bool) (pVal : Z) (x : pg) (op : nat) : option pg :=
  h <- get (g_op x) op ;;
  if h + pVal <=? INT_MAX then
    ops <- set (g_op x) op (h + pVal) ;;
    u <- get (g_unsat x) op ;;
    us <- set (g_unsat x) op (u - 1) ;;
    r <- get R op ;;
    if (u - 1 =? 0) && r then
      pre <- get (p_prec P) op ;;
      uf <- add_useful s pre (g_useful x) ;;
      adds <- get (p_add P) op ;;
      ofold (add_effect al (h + pVal)) adds
        {| g_unsat := us; g_op := ops; g_prop := g_prop x; g_q := g_q x; g_tasks := insert op (g_tasks x); g_useful := uf |}
    else Some {| g_unsat := us; g_op := ops; g_prop := g_prop x; g_q := g_q x; g_tasks := g_tasks x; g_useful := g_useful x |}
  else None.

(** planningGraph.cpp 80-108 *)
Fixpoint pg_loop (fuel : nat) (al : nat -> list Z) (P : problem) (T : pg_tables) (s R : list bool) (x : pg) : option pg :=
  if heap_isEmpty (g_q x) then Some x
  else match fuel with
  | O => None
  | S n =>
      pVal <- heap_topKey (g_q x) ;;
      v <- heap_topVal (g_q x) ;;
      q <- heap_pop (g_q x) ;;
      let prop := Z.to_nat v in
      let x1 := {| g_unsat := g_unsat x; g_op := g_op x; g_prop := g_prop x; g_q := q; g_tasks := g_tasks x; g_useful := g_useful x |} in
      h <- get (g_prop x1) prop ;;
      if h <? pVal then pg_loop n al P T s R x1
      else
        ops <- get (t_p2a T) prop ;;
        x2 <- ofold (visit_op al P s R pVal) ops x1 ;;
        pg_loop n al P T s R x2
  end.

(** Enough rounds: every action adds its effects to the queue at most once. *)
Definition pg_fuel (P : problem) (T : pg_tables) : nat :=
  p_nfacts P + list_sum (map (fun a => length (nth a (p_add P) [])) (t_precless T)) + list_sum (map (@length nat) (p_add P)).

(** planningGraph.cpp 49-78 *)
Definition pg_start (al : nat -> list Z) (P : problem) (T : pg_tables) (q0 : heap) (s R : list bool) : option pg :=
  uf <- add_useful s (p_goal P) [] ;;
  x1 <- ofold (init_fact al s) (seq 0 (length s))
          {| g_unsat := map (fun l => Z.of_nat (length l)) (p_prec P); g_op := map Z.of_nat (p_cost P); g_prop := repeat UNREACHABLE (p_nfacts P);
             g_q := heap_clear q0; g_tasks := []; g_useful := uf |} ;;
  ofold (init_precless al P R) (t_precless T) x1.

(** planningGraph.cpp 109-131: subtasks, reachableTasksSet, reachableMethodsSet, stack (top first) *)
Record up := { u_cnt : list Z; u_tasks : list nat; u_meths : list nat; u_stack : list nat }.

(** IntStack::push with [cap] cells *)
Definition push (cap : nat) (x : nat) (st : list nat) : option (list nat) := if Nat.ltb (length st) cap then Some (x :: st) else None.

(** planningGraph.cpp 119-128 *)
Definition visit_method (P : problem) (R : list bool) (x : up) (m : nat) : option up :=
  c <- get (u_cnt x) m ;;
  cnt <- set (u_cnt x) m (c - 1) ;;
  md <- get (p_methods P) m ;;
  r <- get R (m_task md) ;;
  if (c - 1 =? 0) && r then
    if memb (m_task md) (u_tasks x) then Some {| u_cnt := cnt; u_tasks := u_tasks x; u_meths := insert m (u_meths x); u_stack := u_stack x |}
    else
      st <- push (length (p_prim P)) (m_task md) (u_stack x) ;;
      Some {| u_cnt := cnt; u_tasks := insert (m_task md) (u_tasks x); u_meths := insert m (u_meths x); u_stack := st |}
  else Some {| u_cnt := cnt; u_tasks := u_tasks x; u_meths := u_meths x; u_stack := u_stack x |}.

(** planningGraph.cpp 117-130 *)
Fixpoint up_loop (fuel : nat) (P : problem) (T : pg_tables) (R : list bool) (x : up) : option up :=
  match u_stack x with
  | [] => Some x
  | t :: st =>
      match fuel with
      | O => None
      | S n =>
          ms <- get (t_stm T) t ;;
          x' <- ofold (visit_method P R) ms {| u_cnt := u_cnt x; u_tasks := u_tasks x; u_meths := u_meths x; u_stack := st |} ;;
          up_loop n P T R x'
      end
  end.

Record pg_result := { r_prop : list Z; r_op : list Z; r_tasks : list nat; r_meths : list nat; r_useful : list nat }.

(** planningGraph.cpp 47-132. [s]: the state, [R]: reachableIn. *)
Definition calcReachability (al : nat -> list Z) (P : problem) (T : pg_tables) (q0 : heap) (s R : list bool) : option pg_result :=
  x0 <- pg_start al P T q0 s R ;;
  x <- pg_loop (pg_fuel P T) al P T s R x0 ;;
  st <- ofold (fun st t => push (length (p_prim P)) t st) (g_tasks x) [] ;;
  u <- up_loop (length (p_prim P)) P T R {| u_cnt := map Z.of_nat (t_nst T); u_tasks := g_tasks x; u_meths := []; u_stack := st |} ;;
  Some {| r_prop := g_prop x; r_op := g_op x; r_tasks := u_tasks u; r_meths := u_meths u; r_useful := g_useful x |}.

(** planningGraph.cpp 134-144 *)
Definition factReachable (r : pg_result) (f : nat) : option bool := v <- get (r_prop r) f ;; Some (negb (v =? UNREACHABLE)).
Definition taskReachable (r : pg_result) (t : nat) : bool := memb t (r_tasks r).
Definition methodReachable (r : pg_result) (m : nat) : bool := memb m (r_meths r).
