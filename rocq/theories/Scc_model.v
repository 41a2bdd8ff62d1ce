(** Model of the graph algorithms: strongly connected components (src/Model.cpp 2265-2390 calcSCCs and tarjan,
    src/sat/disabling_graph.cpp 40-135 graph::calcSCCs and graph::tarjan), condensation (Model.cpp 2392-2470
    constructSCCGraph, disabling_graph.cpp 137-150 calcSCCGraph), graph queries (disabling_graph.cpp 152-203), reachable tasks
    (Model.cpp 2515-2628 calcSCCGraph, 1413-1450 updateReachability and calcReachability).
    A graph is the list of adjacency lists. [None] is an access outside an array (or exhausted fuel, excluded by the theorems). *)
From Verif Require Import Base IntUtil_model Htn_model.

Definition graph := list (list nat).

(** ** Tarjan's algorithm *)

(** The variables of both versions: maxdfs, U, S (its back is the head of the list), containedS, dfsI, lowlink, numSCCs,
    taskToSCC / vertexToSCC ([None] is -1). *)
Record tstate := { t_max : nat; t_U : list bool; t_S : list nat; t_inS : list bool; t_dfs : list nat; t_low : list nat;
                   t_num : nat; t_scc : list (option nat) }.

(** Model.cpp 2356-2362, disabling_graph.cpp 104-110 *)
Definition t_enter (st : tstate) (v : nat) : option tstate :=
  d <- set (t_dfs st) v (t_max st) ;;
  l <- set (t_low st) v (t_max st) ;;
  i <- set (t_inS st) v true ;;
  u <- set (t_U st) v false ;;
  Some {| t_max := S (t_max st); t_U := u; t_S := v :: t_S st; t_inS := i; t_dfs := d; t_low := l;
          t_num := t_num st; t_scc := t_scc st |}.

(** Model.cpp 2370-2372 and 2374-2375: [if (lowlink[v] > x) lowlink[v] = x]. *)
Definition t_lower (st : tstate) (v x : nat) : option tstate :=
  lv <- get (t_low st) v ;;
  if Nat.ltb x lv then
    l <- set (t_low st) v x ;;
    Some {| t_max := t_max st; t_U := t_U st; t_S := t_S st; t_inS := t_inS st; t_dfs := t_dfs st; t_low := l;
            t_num := t_num st; t_scc := t_scc st |}
  else Some st.

(** Model.cpp 2382-2387: popping until [v] is popped; [S->back()] of the empty stack is undefined. *)
Fixpoint t_pop (v num : nat) (s : list nat) (inS : list bool) (scc : list (option nat)) : option (list nat * list bool * list (option nat)) :=
  match s with
  | [] => None
  | v2 :: r =>
      i <- set inS v2 false ;;
      c <- set scc v2 (Some num) ;;
      if Nat.eqb v2 v then Some (r, i, c) else t_pop v num r i c
  end.

(** Model.cpp 2380-2389 *)
Definition t_leave (st : tstate) (v : nat) : option tstate :=
  lv <- get (t_low st) v ;;
  dv <- get (t_dfs st) v ;;
  if Nat.eqb lv dv then
    '(s, i, c) <- t_pop v (t_num st) (t_S st) (t_inS st) (t_scc st) ;;
    Some {| t_max := t_max st; t_U := t_U st; t_S := s; t_inS := i; t_dfs := t_dfs st; t_low := t_low st;
            t_num := S (t_num st); t_scc := c |}
  else Some st.

(** Model.cpp 2355-2390, disabling_graph.cpp 103-135. In Model.cpp the adjacency list of a task is given by the two nested loops
    over its methods and their subtasks (2364-2366), see [task_graph]. *)
Fixpoint tarjan (G : graph) (fuel : nat) (st : tstate) (v : nat) : option tstate :=
  match fuel with
  | O => None
  | S f =>
      st1 <- t_enter st v ;;
      ns <- get G v ;;
      st2 <- ofold (fun st v2 =>
               u <- get (t_U st) v2 ;;
               if (u : bool) then
                 st' <- tarjan G f st v2 ;; lw <- get (t_low st') v2 ;; t_lower st' v lw
               else
                 i <- get (t_inS st) v2 ;;
                 if (i : bool) then d <- get (t_dfs st) v2 ;; t_lower st v d else Some st) ns st1 ;;
      t_leave st2 v
  end.

(** Model.cpp 2268-2280; dfsI and lowlink are not initialised. *)
Definition t_init (n : nat) (dfs low : list nat) : tstate :=
  {| t_max := 0; t_U := repeat true n; t_S := []; t_inS := repeat false n; t_dfs := dfs; t_low := low; t_num := 0;
     t_scc := repeat None n |}.

(** disabling_graph.cpp 48-66 *)
Definition scc_all (G : graph) (dfs low : list nat) : option tstate :=
  ofold (fun st v => u <- get (t_U st) v ;; if (u : bool) then tarjan G (length G) st v else Some st)
        (seq 0 (length G)) (t_init (length G) dfs low).

(** Model.cpp 2265-2282: only from the initial task. *)
Definition scc_from (G : graph) (v0 : nat) (dfs low : list nat) : option tstate :=
  tarjan G (length G) (t_init (length G) dfs low) v0.

(** The graph searched by Model::tarjan. *)
Definition task_graph (P : problem) : graph :=
  map (fun t => flat_map (fun i => match nth_error (p_methods P) i with Some m => m_subs m | None => [] end) (task_to_methods P t))
      (seq 0 (length (p_prim P))).

(** ** Graph queries *)

(** disabling_graph.cpp 172-182: the successors of one vertex; [None] inside is [return true]. *)
Fixpoint reach_inner (to : list nat) (ns : list nat) (visi : list bool) (q : list nat) : option (option (list bool * list nat)) :=
  match ns with
  | [] => Some (Some (visi, q))
  | y :: r =>
      b <- get visi y ;;
      if (b : bool) then reach_inner to r visi q
      else if memb y to then Some None
      else visi' <- set visi y true ;; reach_inner to r visi' (q ++ [y])
  end.

(** disabling_graph.cpp 168-186: the breadth-first search. *)
Fixpoint reach_loop (G : graph) (to : list nat) (fuel : nat) (visi : list bool) (q : list nat) : option bool :=
  match fuel with
  | O => None
  | S f =>
      match q with
      | [] => Some false
      | x :: q' =>
          ns <- get G x ;;
          o <- reach_inner to ns visi q' ;;
          match o with
          | None => Some true
          | Some (visi', q'') => reach_loop G to f visi' q''
          end
      end
  end.

(** disabling_graph.cpp 152-187 *)
Definition can_reach_any_of (G : graph) (from to : list nat) : option bool :=
  if existsb (fun x => memb x to) from then Some true
  else reach_loop G to (S (length G + length from)) (repeat false (length G)) from.

(** disabling_graph.cpp 190-203 *)
Fixpoint can_reach_any_of_directly (G : graph) (from to : list nat) : option bool :=
  match from with
  | [] => Some false
  | x :: r =>
      if memb x to then Some true
      else ns <- get G x ;; if existsb (fun y => memb y to) ns then Some true else can_reach_any_of_directly G r to
  end.

(** ** Components as tables *)

(** [std::set<int>::insert] on the ascending list of the elements. *)
Fixpoint ins (x : nat) (l : list nat) : list nat :=
  match l with
  | [] => [x]
  | y :: r => if Nat.ltb x y then x :: l else if Nat.eqb x y then l else y :: ins x r
  end.

(** Model.cpp 2284-2294: sccSize and the number of components with at least two tasks. A task that has not been reached has
    number -1, which is an index outside the array (the assertion is inactive in release builds). *)
Definition scc_sizes (num : nat) (scc : list (option nat)) : option (list nat * nat) :=
  ofold (fun '(sz, c) (o : option nat) =>
           j <- o ;; x <- get sz j ;; sz' <- set sz j (S x) ;;
           Some (sz', if Nat.eqb (S x) 2 then S c else c)) scc (repeat 0 num, 0).

(** Model.cpp 2298-2310: sccToTasks; a row is the filled part of the array of sccSize cells. *)
Definition scc_tasks (num : nat) (sz : list nat) (scc : list (option nat)) : option (list (list nat)) :=
  ofold (fun T i =>
           o <- get scc i ;; j <- o ;; row <- get T j ;; x <- get sz j ;;
           if Nat.ltb (length row) x then set T j (row ++ [i]) else None)
        (seq 0 (length scc)) (repeat [] num).

(** Model.cpp 2315-2329: components of size one whose task is its own subtask. *)
Definition self_loops (G : graph) (sz : list nat) (T : list (list nat)) : option (list nat) :=
  ofold (fun Sx i =>
           x <- get sz i ;;
           if Nat.eqb x 1 then
             row <- get T i ;; t <- get row 0 ;; ns <- get G t ;;
             Some (if memb t ns then ins i Sx else Sx)
           else Some Sx) (seq 0 (length sz)) [].

(** Model.cpp 2330-2346: sccsCyclic, an array of numCyclicSccs cells; the cells are filled in this order. *)
Definition sccs_cyclic (sz : list nat) (c : nat) (loops : list nat) : option (list nat) :=
  let l := filter (fun i => Nat.ltb 1 (nth i sz 0)) (seq 0 (length sz)) ++ loops in
  if Nat.eqb (length l) (c + length loops) then Some l else None.

(** The component tables of Model::calcSCCs (Model.cpp 2265-2353). *)
Record sccs := { s_of : list (option nat); s_num : nat; s_size : list nat; s_tasks : list (list nat); s_cyclic : list nat }.

Definition calcSCCs (G : graph) (v0 : nat) (dfs low : list nat) : option sccs :=
  st <- scc_from G v0 dfs low ;;
  '(sz, c) <- scc_sizes (t_num st) (t_scc st) ;;
  T <- scc_tasks (t_num st) sz (t_scc st) ;;
  loops <- self_loops G sz T ;;
  cyc <- sccs_cyclic sz c loops ;;
  Some {| s_of := t_scc st; s_num := t_num st; s_size := sz; s_tasks := T; s_cyclic := cyc |}.

(** Model.cpp 2394-2453, disabling_graph.cpp 137-150: the successors (sccG) and predecessors (sccGinverse) of the components; the
    arrays sccGnumSucc and sccGnumPred are the lengths of the rows. *)
Definition scc_graph (G : graph) (C : sccs) : option (list (list nat) * list (list nat)) :=
  ofold (fun E v =>
           ns <- get G v ;; of <- get (s_of C) v ;; f <- of ;;
           ofold (fun '(Sx, Pr) w =>
                    ot <- get (s_of C) w ;; t <- ot ;;
                    if Nat.eqb f t then Some (Sx, Pr) else
                    rs <- get Sx f ;; Sx' <- set Sx f (ins t rs) ;;
                    rp <- get Pr t ;; Pr' <- set Pr t (ins f rp) ;;
                    Some (Sx', Pr')) ns E)
        (seq 0 (length G)) (repeat [] (s_num C), repeat [] (s_num C)).

(** Model.cpp 2488-2502: sccIsAcyclic. The topological order computed before (2477-2486) is not used here. *)
Definition scc_acyclic (C : sccs) (Sx : list (list nat)) : option (list bool) :=
  a <- ofold (fun a i => set a i false) (s_cyclic C) (repeat true (s_num C)) ;;
  ofold (fun a i =>
           b <- get a i ;;
           if (b : bool) then
             ss <- get Sx i ;;
             ofold (fun a j => x <- get a i ;; if (x : bool) then y <- get a j ;; set a i y else Some a) ss a
           else Some a) (seq 0 (s_num C)) a.

(** Model.cpp 2546-2572: the set of one component, written to all of its tasks. [last] is lastMaintained; [R] holds reachable
    (numReachable is the length of a row, [None] is -1). *)
Definition reach_component (C : sccs) (Sx : list (list nat)) (last : nat) (R : list (option (list nat))) (scc : nat) : option (list (option (list nat))) :=
  ts <- get (s_tasks C) scc ;;
  ss <- get Sx scc ;;
  let own := fold_left (fun acc t => if Nat.ltb t last then ins t acc else acc) ts [] in
  all <- ofold (fun acc nx =>
                  row <- get (s_tasks C) nx ;; t <- get row 0 ;; o <- get R t ;; r <- o ;;
                  Some (fold_left (fun acc t => if Nat.ltb t last then ins t acc else acc) r acc)) ss own ;;
  ofold (fun R t => set R t (Some all)) ts R.

(** Model.cpp 2541-2581: processing components whose successors have all been processed. The counters are never decremented below
    0 (proved), so that 0 can be treated as an error. *)
Fixpoint reach_components (fuel : nat) (C : sccs) (Sx Pr : list (list nat)) (last : nat) (ready stack : list nat) (R : list (option (list nat))) :
  option (list (option (list nat))) :=
  match fuel with
  | O => None
  | S f =>
      match stack with
      | [] => Some R
      | scc :: stack =>
          R' <- reach_component C Sx last R scc ;;
          ps <- get Pr scc ;;
          '(ready', stack') <- ofold (fun '(rd, stk) p =>
                   x <- get rd p ;;
                   match x with
                   | O => None
                   | S y => rd' <- set rd p y ;; Some (rd', if Nat.eqb y 0 then p :: stk else stk)
                   end) ps (ready, stack) ;;
          reach_components f C Sx Pr last ready' stack' R'
      end
  end.

(** Model.cpp 2514-2581: calcSCCGraph. *)
Definition reach_table (G : graph) (C : sccs) (last : nat) : option (list (option (list nat))) :=
  '(Sx, Pr) <- scc_graph G C ;;
  let ready := map (@length nat) Sx in
  let stack := rev (filter (fun i => Nat.eqb (nth i ready 1) 0) (seq 0 (s_num C))) in
  reach_components (S (s_num C)) C Sx Pr last ready stack (repeat None (length G)).

(** ** Reachable tasks of plan steps *)

(** Model.cpp 1434-1449: the members of the set intSet (noDelIntSet, here the list of its members in order of insertion, see
    NoDel_thm); it has been initialised for numbers below [last] (Model.cpp 2611-2615). *)
Definition iset_insert (last : nat) (s : list nat) (x : nat) : option (list nat) :=
  if Nat.ltb x last then Some (set_insert s x) else None.

(** Model.cpp 1426-1450. [M] holds the arrays reachableT of the plan steps ([None] is nullptr). *)
Fixpoint calc_reach (R : list (option (list nat))) (last : nat) (h : list pstep) (fuel : nat) (M : list (option (list nat))) (i : nat) :
  option (list (option (list nat))) :=
  match fuel with
  | O => None
  | S f =>
      ps <- get h i ;;
      M1 <- ofold (fun M j => o <- get M j ;;
                     match o with None => calc_reach R last h f M j | Some _ => Some M end) (ps_succ ps) M ;;
      s1 <- ofold (fun s j => o <- get M1 j ;; r <- o ;; ofold (iset_insert last) r s) (ps_succ ps) [] ;;
      o <- get R (ps_task ps) ;; r <- o ;;
      s2 <- ofold (iset_insert last) r s1 ;;
      set M1 i (Some s2)
  end.

(** Model.cpp 1413-1424 *)
Definition update_reach (R : list (option (list nat))) (last : nat) (h : list pstep) (fuel : nat) (M : list (option (list nat))) (n : node) :
  option (list (option (list nat))) :=
  ofold (fun M i => o <- get M i ;; match o with None => calc_reach R last h fuel M i | Some _ => Some M end) (n_abs n ++ n_prim n) M.
