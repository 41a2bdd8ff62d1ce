(** Model of the memory of the progression search: the reference counters pointersToMe of planStep and solutionStep, the destructors of planStep, solutionStep
    and searchNode (src/ProgressionNetwork.cpp) and the memory operations of Model::prepareTNi, decompose and apply (src/Model.cpp).
    A store is a list of cells, the address is the index; a freed cell is [None] and any access to it is undefined behaviour ([None] as result). Addresses are not
    used again: a new object never is at the address of an old one. The counters are unbounded integers. Not modelled: the arrays owned by exactly one
    object (successorList, unconstraintAbstract, ..., deleted with it), exhaustion of memory and of the stack by the recursive destructors. *)
From Verif Require Import Base Htn_model.
Local Open Scope Z_scope.

(** ** Stores with reference counters *)
Section Store.
Context {A : Type} (out : A -> list nat). (* the counted pointers of an object *)

(** an object with its field pointersToMe (ProgressionNetwork.h 43, 57) *)
Record cell := { c_val : A; c_cnt : Z }.
Definition store := list (option cell).

Definition rdc (M : store) (i : nat) : option cell := o <- get M i ;; o.
Definition rd (M : store) (i : nat) : option A := c <- rdc M i ;; Some (c_val c).

(** pointersToMe += d *)
Definition inc (d : Z) (M : store) (i : nat) : option store :=
  c <- rdc M i ;; set M i (Some {| c_val := c_val c; c_cnt := c_cnt c + d |}).

(** ProgressionNetwork.cpp 28-33, 42-46, 77-80, 83-86, 89-92: the counter of [j] is decremented; if it is 0 then [j] is deleted: its destructor
    (27-34, 41-53) does the same for all pointers of [j], then [j] is freed. *)
Fixpoint release (fuel : nat) (M : store) (j : nat) : option store :=
  match fuel with
  | O => None
  | S f =>
      c <- rdc M j ;;
      M1 <- set M j (Some {| c_val := c_val c; c_cnt := c_cnt c - 1 |}) ;;
      if c_cnt c - 1 =? 0 then
        M2 <- ofold (release f) (out (c_val c)) M1 ;;
        set M2 j None
      else Some M1
  end.

(** The recursion is never deeper than the number of cells (proved below). *)
Definition drop (M : store) (j : nat) : option store := release (S (length M)) M j.
End Store.
Arguments cell A : clear implicits.
Arguments store A : clear implicits.

(** solutionStep: the values and prev *)
Definition sstep := (solstep * option nat)%type.
Definition ptr (o : option nat) : list nat := match o with Some i => [i] | None => [] end.
Definition prev_of (s : sstep) : list nat := ptr (snd s).

(** The stores and the other global variables (see [world]) *)
Record mworld := { v_ps : store pstep; v_ss : store sstep; v_inst : nat; v_eff : list nat; v_iter : nat }.

(** searchNode; the field solution is an address *)
Record mnode := { k_state : list bool; k_abs : list nat; k_prim : list nat; k_cost : nat; k_depth : nat; k_mixed : nat; k_reach : bool; k_sol : option nat }.

(** ProgressionNetwork.cpp 75-104: ~searchNode *)
Definition delete_node (v : mworld) (n : mnode) : option mworld :=
  p1 <- ofold (drop ps_succ) (k_abs n) (v_ps v) ;;
  p2 <- ofold (drop ps_succ) (k_prim n) p1 ;;
  s <- ofold (drop prev_of) (ptr (k_sol n)) (v_ss v) ;;
  Some {| v_ps := p2; v_ss := s; v_inst := v_inst v; v_eff := v_eff v; v_iter := v_iter v |}.

(** ** The reading functions of Htn_model with the store in place of the growing heap (same lines of Model.cpp) *)
Section Read.
Variable h : nat -> option pstep.

Definition rtask (i : nat) : option nat := ps <- h i ;; Some (ps_task ps).
Definition rsucc (i : nat) : option (list nat) := ps <- h i ;; Some (ps_succ ps).

(** Model.cpp 1021-1024, 1028-1045 *)
Definition rpush_succs (l : list nat) (acc : list nat) : option (list nat) :=
  ofold (fun acc i => ss <- rsucc i ;; Some (rev ss ++ acc)) l acc.

(** Model.cpp 1046-1069 *)
Fixpoint relim_loop (fuel : nat) (pf pp dn : list nat) : option (list nat) :=
  match pf, pp with
  | [], _ => Some []
  | _, [] => Some pf
  | _, x :: pp' =>
      match fuel with
      | 0%nat => None
      | S f =>
          ss <- rsucc x ;;
          relim_loop f (filter (fun y => negb (Nat.eqb y x)) pf)
                    (rev (filter (fun y => negb (memb y (x :: dn))) ss) ++ pp') (x :: dn)
      end
  end.

(** Model.cpp 1019-1069 *)
Definition rnew_firsts (perm : list nat -> list nat) (fuel : nat) (n : mnode) (taskNo : nat) (ps : pstep) : option (list nat) :=
  let pf := fold_left set_insert (ps_succ ps) [] in
  pp1 <- rpush_succs (ps_succ ps) [] ;;
  pp2 <- rpush_succs (k_abs n) pp1 ;;
  pp3 <- rpush_succs (remove_at taskNo (k_prim n)) pp2 ;;
  pf' <- relim_loop fuel pf pp3 [] ;;
  Some (perm pf').

(** Model.cpp 1119-1140 *)
Fixpoint rsplit_prim (P : problem) (l : list nat) : option (list nat * list nat) :=
  match l with
  | [] => Some ([], [])
  | x :: t =>
      tk <- rtask x ;;
      b <- get (p_prim P) tk ;;
      '(ps, abs) <- rsplit_prim P t ;;
      Some (if b : bool then (x :: ps, abs) else (ps, x :: abs))
  end.

(** Model.cpp 1105-1114, 1122-1131, 676-684 *)
Fixpoint reff_indices (P : problem) (s : list bool) (from : nat) (l : list nat) : option (list nat) :=
  match l with
  | [] => Some []
  | x :: t =>
      tk <- rtask x ;;
      b <- effectless_applicable P s tk ;;
      r <- reff_indices P s (S from) t ;;
      Some (if b : bool then from :: r else r)
  end.

(** Model.cpp 917-926, 1355-1364 *)
Fixpoint rone_applicable (P : problem) (s : list bool) (i : nat) (l : list nat) (acc : one_result) : option one_result :=
  match l with
  | [] => Some acc
  | x :: t =>
      tk <- rtask x ;;
      b <- isApplicable P s tk ;;
      if b : bool then
        match acc with
        | OneNone => rone_applicable P s (S i) t (OneIdx i)
        | _ => Some OneMany
        end
      else rone_applicable P s (S i) t acc
  end.
End Read.

(** Model.cpp 702-711, 1146-1155: a new solutionStep with counter 1 *)
Definition new_sol (v : store sstep) (st : solstep) (prev : option nat) : store sstep := v ++ [Some {| c_val := (st, prev); c_cnt := 1 |}].

(** Model.cpp 1001-1168: apply up to (excluding) the eager progressions. Line 1161 dereferences n->solution. *)
Definition mapply1 (P : problem) (perm : list nat -> list nat) (progEff : bool) (fuel : nat) (v : mworld) (n : mnode) (taskNo : nat) : option (mworld * mnode) :=
  x <- get (k_prim n) taskNo ;;
  ps <- rd (v_ps v) x ;;
  s' <- apply_effects P (ps_task ps) (k_state n) ;;
  nf <- rnew_firsts (rd (v_ps v)) perm fuel n taskNo ps ;;
  '(nfp, nfa) <- rsplit_prim (rd (v_ps v)) P nf ;;
  c <- get (p_cost P) (ps_task ps) ;;
  let prims := remove_at taskNo (k_prim n) ++ nfp in
  let abs := k_abs n ++ nfa in
  eff <- (if progEff then reff_indices (rd (v_ps v)) P s' 0 prims else Some (v_eff v)) ;;
  let sol := new_sol (v_ss v) {| ss_task := ps_task ps; ss_method := None; ss_inst := v_inst v; ss_pos := ps_pos ps; ss_parent := ps_parent ps |} (k_sol n) in
  q <- k_sol n ;;
  sol' <- inc 1 sol q ;;
  p1 <- ofold (inc 1) prims (v_ps v) ;;
  p2 <- ofold (inc 1) abs p1 ;;
  Some ({| v_ps := p2; v_ss := sol'; v_inst := S (v_inst v); v_eff := eff; v_iter := v_iter v |},
        {| k_state := s'; k_abs := abs; k_prim := prims; k_cost := k_cost n + c; k_depth := S (k_depth n); k_mixed := k_mixed n + c; k_reach := true;
           k_sol := Some (length (v_ss v)) |}).

(** Model.cpp 958-988: the new plan steps; each ordering increments the counter of its second element (986) *)
Definition new_cells (m : method) (base inst : nat) (osucc : list nat) : store pstep :=
  map (fun '(j, ps) => Some {| c_val := ps; c_cnt := Z.of_nat (count_occ Nat.eq_dec (map snd (m_ord m)) j) |})
    (combine (seq 0 (length (m_subs m))) (method_steps m base inst osucc)).

(** Model.cpp 604-728: decompose up to (excluding) the eager progressions *)
Definition mdecompose1 (P : problem) (progEff : bool) (v : mworld) (n : mnode) (taskNo mi : nat) : option (mworld * mnode) :=
  x <- get (k_abs n) taskNo ;;
  ps <- rd (v_ps v) x ;;
  m <- get (p_methods P) mi ;;
  let k := length (m_subs m) in
  if forallb (fun o => Nat.ltb (fst o) k && Nat.ltb (snd o) k)%bool (m_ord m) then
    let base := length (v_ps v) in
    let inst := v_inst v in
    let p0 := v_ps v ++ new_cells m base inst (ps_succ ps) in
    '(fp, fa) <- rsplit_prim (rd p0) P (map (fun j => base + j)%nat (first_tasks m)) ;;
    eff <- (if progEff then reff_indices (rd p0) P (k_state n) (length (k_prim n)) fp else Some (v_eff v)) ;;
    let prims := k_prim n ++ fp in
    let abs := remove_at taskNo (k_abs n) ++ fa in
    let sol := new_sol (v_ss v) {| ss_task := ps_task ps; ss_method := Some mi; ss_inst := inst; ss_pos := ps_pos ps; ss_parent := ps_parent ps |} (k_sol n) in
    (* 717-728 *)
    p1 <- ofold (inc 1) prims p0 ;;
    p2 <- ofold (inc 1) abs p1 ;;
    p3 <- ofold (inc (Z.of_nat (length (last_tasks m)))) (ps_succ ps) p2 ;;
    sol' <- ofold (inc 1) (ptr (k_sol n)) sol ;;
    Some ({| v_ps := p3; v_ss := sol'; v_inst := S inst; v_eff := eff; v_iter := v_iter v |},
          {| k_state := k_state n; k_abs := abs; k_prim := prims; k_cost := k_cost n; k_depth := S (k_depth n); k_mixed := S (k_mixed n); k_reach := true;
             k_sol := Some (length (v_ss v)) |})
  else None.

Definition mset_iter (v : mworld) i := {| v_ps := v_ps v; v_ss := v_ss v; v_inst := v_inst v; v_eff := v_eff v; v_iter := i |}.
(** FlexIntStack.cpp 57-70 *)
Definition meff_first (v : mworld) : mworld * option nat := match v_eff v with [] => (v, None) | x :: _ => (mset_iter v 0, Some x) end.
Definition meff_next (v : mworld) : mworld * option nat := let i := S (v_iter v) in (mset_iter v i, nth_error (v_eff v) i).

Definition mset_unreachable (n : mnode) : mnode :=
  {| k_state := k_state n; k_abs := k_abs n; k_prim := k_prim n; k_cost := k_cost n; k_depth := k_depth n; k_mixed := k_mixed n; k_reach := false; k_sol := k_sol n |}.

(** Model.cpp 1001-1393: after each eager progression the old node is deleted (1347, 1369) *)
Fixpoint mapply (P : problem) (C : config) (fuel : nat) (v : mworld) (n : mnode) (taskNo : nat) : option (mworld * mnode) :=
  match fuel with
  | 0%nat => None
  | S f =>
      '(v1, r1) <- mapply1 P (c_perm C) (c_eff C) f v n taskNo ;;
      '(v2, r2) <- (if c_eff C then let '(v1', ac) := meff_first v1 in meff_loop P C f v1' r1 ac else Some (v1, r1)) ;;
      if c_one C then
        match k_abs r2, k_prim r2 with
        | [], _ :: _ =>
            o <- rone_applicable (rd (v_ps v2)) P (k_state r2) 0 (k_prim r2) OneNone ;;
            match o with
            | OneIdx i => '(v3, r3) <- mapply P C f v2 r2 i ;; v4 <- delete_node v3 r2 ;; Some (v4, r3)
            | OneNone => Some (v2, mset_unreachable r2)
            | OneMany => Some (v2, r2)
            end
        | _, _ => Some (v2, r2)
        end
      else Some (v2, r2)
  end
with meff_loop (P : problem) (C : config) (fuel : nat) (v : mworld) (r : mnode) (ac : option nat) : option (mworld * mnode) :=
  match ac with
  | None => Some (v, r)
  | Some i =>
      match fuel with
      | 0%nat => None
      | S f =>
          '(v1, r1) <- mapply P C f v r i ;;
          v2 <- delete_node v1 r ;;
          let '(v3, ac') := meff_next v2 in meff_loop P C f v3 r1 ac'
      end
  end.

(** Model.cpp 914-938 *)
Definition mone_mod (P : problem) (C : config) (fuel : nat) (v : mworld) (r : mnode) : option (mworld * mnode) :=
  if c_one C then
    match k_abs r, k_prim r with
    | [], _ :: _ =>
        o <- rone_applicable (rd (v_ps v)) P (k_state r) 0 (k_prim r) OneNone ;;
        match o with
        | OneIdx i => '(v3, r3) <- mapply P C fuel v r i ;; v4 <- delete_node v3 r ;; Some (v4, r3)
        | OneNone => Some (v, mset_unreachable r)
        | OneMany => Some (v, r)
        end
    | _, _ => Some (v, r)
    end
  else Some (v, r).

(** Model.cpp 604-956 *)
Definition mdecompose (P : problem) (C : config) (fuel : nat) (v : mworld) (n : mnode) (taskNo mi : nat) : option (mworld * mnode) :=
  '(v1, r1) <- mdecompose1 P (c_eff C) v n taskNo mi ;;
  '(v2, r2) <- (if c_eff C then let '(v1', ac) := meff_first v1 in meff_loop P C fuel v1' r1 ac else Some (v1, r1)) ;;
  mone_mod P C fuel v2 r2.

(** Model.cpp 2641-2673: prepareTNi *)
Definition minit (P : problem) : option (mworld * mnode) :=
  s <- write_all true (p_s0 P) (repeat false (p_nfacts P)) ;;
  Some ({| v_ps := [Some {| c_val := {| ps_task := p_init P; ps_succ := []; ps_parent := 0; ps_pos := 0 |}; c_cnt := 1 |}]; v_ss := [];
           v_inst := 0; v_eff := []; v_iter := 0 |},
        {| k_state := s; k_abs := [0]%nat; k_prim := []; k_cost := 0; k_depth := 0; k_mixed := 0; k_reach := true; k_sol := None |}).

(** ** The search loop with its deletions (PriorityQueueSearch.h) *)

(** As [search_env], on the nodes of the stores; [m_candel] is VisitedList::canDeleteProcessedNodes (VisitedList.cpp 89). *)
Record menv (V : Type) := {
  m_pop : list mnode -> option (mnode * list mnode);
  m_push : mnode -> list mnode -> list mnode;
  m_insert : mworld -> V -> mnode -> bool * V;
  m_dead : mworld -> mnode -> bool;
  m_rnd : nat -> nat;
  m_subopt : bool;
  m_candel : bool }.
Arguments m_pop {V}. Arguments m_push {V}. Arguments m_insert {V}. Arguments m_dead {V}. Arguments m_rnd {V}. Arguments m_subopt {V}. Arguments m_candel {V}.

Inductive mresult := MSolved (v : mworld) (n : mnode) | MUnsolvable | MOutOfFuel | MCrash.
Record mstate (V : Type) := { t_world : mworld; t_fringe : list mnode; t_vis : V; t_rnd : nat }.
Arguments t_world {V}. Arguments t_fringe {V}. Arguments t_vis {V}. Arguments t_rnd {V}.
Inductive mgen (V : Type) := MStop (v : mworld) (n : mnode) | MCont (st : mstate V) | MGCrash.
Arguments MStop {V}. Arguments MCont {V}. Arguments MGCrash {V}.

(** Model.cpp 1403-1411 *)
Definition misGoal (P : problem) (n : mnode) : option bool :=
  match k_abs n, k_prim n with [], [] => all_true (p_goal P) (k_state n) | _, _ => Some false end.

(** continue with the world after an optional deletion *)
Definition mcont {V} (o : option mworld) (fr : list mnode) (v' : V) (r : nat) : mgen V :=
  match o with Some v => MCont {| t_world := v; t_fringe := fr; t_vis := v'; t_rnd := r |} | None => MGCrash end.

(** PriorityQueueSearch.h 102-152, 168-218: a successor that is not pushed is deleted (103, 109, 134; 169, 175, 200); one for which the heuristic detects
    a dead end only if the visited list does not need it and the search is suboptimal (133, 199). *)
Definition mtreat {V} (P : problem) (E : menv V) (st : mstate V) (v : mworld) (n2 : mnode) : mgen V :=
  if k_reach n2 then
    let '(ok, x') := if m_subopt E then m_insert E v (t_vis st) n2 else (true, t_vis st) in
    if ok then
      if m_dead E v n2 then mcont (if (m_subopt E && m_candel E)%bool then delete_node v n2 else Some v) (t_fringe st) x' (t_rnd st)
      else
        match (if m_subopt E then misGoal P n2 else Some false) with
        | None => MGCrash
        | Some true => MStop v n2
        | Some false => mcont (Some v) (m_push E n2 (t_fringe st)) x' (t_rnd st)
        end
    else mcont (delete_node v n2) (t_fringe st) x' (t_rnd st)
  else mcont (delete_node v n2) (t_fringe st) (t_vis st) (t_rnd st).

(** PriorityQueueSearch.h 96-155 *)
Fixpoint mexpand_actions {V} (P : problem) (C : config) (E : menv V) (fuel : nat) (st : mstate V) (n : mnode) (i : nat) (l : list nat) : mgen V :=
  match l with
  | [] => MCont st
  | x :: t =>
      match (tk <- rtask (rd (v_ps (t_world st))) x ;; isApplicable P (k_state n) tk) with
      | None => MGCrash
      | Some false => mexpand_actions P C E fuel st n (S i) t
      | Some true =>
          match mapply P C fuel (t_world st) n i with
          | None => MGCrash
          | Some (v, n2) => match mtreat P E st v n2 with MCont st' => mexpand_actions P C E fuel st' n (S i) t | r => r end
          end
      end
  end.

(** PriorityQueueSearch.h 160-221 *)
Fixpoint mexpand_methods {V} (P : problem) (C : config) (E : menv V) (fuel : nat) (st : mstate V) (n : mnode) (step : nat) (ms : list nat) : mgen V :=
  match ms with
  | [] => MCont st
  | mi :: t =>
      match mdecompose P C fuel (t_world st) n step mi with
      | None => MGCrash
      | Some (v, n2) => match mtreat P E st v n2 with MCont st' => mexpand_methods P C E fuel st' n step t | r => r end
      end
  end.

(** PriorityQueueSearch.h 96-221 *)
Definition mexpand {V} (P : problem) (C : config) (E : menv V) (fuel : nat) (st : mstate V) (n : mnode) : mgen V :=
  match k_abs n with
  | [] => mexpand_actions P C E fuel st n 0 (k_prim n)
  | _ =>
      let step := Nat.modulo (m_rnd E (t_rnd st)) (length (k_abs n)) in
      let st1 := {| t_world := t_world st; t_fringe := t_fringe st; t_vis := t_vis st; t_rnd := S (t_rnd st) |} in
      match (x <- get (k_abs n) step ;; rtask (rd (v_ps (t_world st))) x) with
      | None => MGCrash
      | Some tk => mexpand_methods P C E fuel st1 n step (task_to_methods P tk)
      end
  end.

(** PriorityQueueSearch.h 74-256: a duplicate is deleted (80), a processed node if the visited list does not need it (254-255) *)
Fixpoint msearch_loop {V} (P : problem) (C : config) (E : menv V) (afuel fuel : nat) (st : mstate V) : mresult :=
  match m_pop E (t_fringe st) with
  | None => MUnsolvable
  | Some (n, fr) =>
      match fuel with
      | 0%nat => MOutOfFuel
      | S f =>
          let '(ok, x') := if m_subopt E then (true, t_vis st) else m_insert E (t_world st) (t_vis st) n in
          let st1 := {| t_world := t_world st; t_fringe := fr; t_vis := x'; t_rnd := t_rnd st |} in
          if ok then
            match (if m_subopt E then Some false else misGoal P n) with
            | None => MCrash
            | Some true => MSolved (t_world st) n
            | Some false =>
                match mexpand P C E afuel st1 n with
                | MStop v n2 => MSolved v n2
                | MCont st2 =>
                    match (if m_candel E then delete_node (t_world st2) n else Some (t_world st2)) with
                    | None => MCrash
                    | Some v => msearch_loop P C E afuel f {| t_world := v; t_fringe := t_fringe st2; t_vis := t_vis st2; t_rnd := t_rnd st2 |}
                    end
                | MGCrash => MCrash
                end
            end
          else
            match delete_node (t_world st) n with
            | None => MCrash
            | Some v => msearch_loop P C E afuel f {| t_world := v; t_fringe := fr; t_vis := x'; t_rnd := t_rnd st |}
            end
      end
  end.

(** PriorityQueueSearch.h 33-303 *)
Definition msearch {V} (P : problem) (C : config) (E : menv V) (x0 : V) (afuel fuel : nat) : mresult :=
  match minit P with
  | None => MCrash
  | Some (v, n) => msearch_loop P C E afuel fuel {| t_world := v; t_fringe := m_push E n []; t_vis := x0; t_rnd := 0 |}
  end.

(** ProgressionNetwork.cpp 160-207: the walk along prev reads every solution step *)
Fixpoint mchain (fuel : nat) (S : store sstep) (o : option nat) : option (list solstep) :=
  match o with
  | None => Some []
  | Some i => match fuel with 0%nat => None | S f => s <- rd S i ;; r <- mchain f S (snd s) ;; Some (fst s :: r) end
  end.

(** ** Continued search: PriorityQueueSearch.h with optimzeSol = true (flags.h 46, 54-59: by hand or with SAVESEARCHSPACE), without time limit *)

(** PriorityQueueSearch.cpp 39-63: handleNewSolution *)
Definition better (n : mnode) (old : option mnode) : option mnode :=
  match old with None => Some n | Some o => if Nat.ltb (k_cost n) (k_cost o) then Some n else Some o end.

(** PriorityQueueSearch.h 102-152, 168-218: the solution is stored in tnSol, then pushed like any other node *)
Definition otreat {V} (P : problem) (E : menv V) (st : mstate V) (best : option mnode) (v : mworld) (n2 : mnode) : option (mstate V * option mnode) :=
  match mtreat P E st v n2 with
  | MGCrash => None
  | MCont st' => Some (st', best)
  | MStop v' n' =>
      let x' := if m_subopt E then snd (m_insert E v (t_vis st) n2) else t_vis st in
      Some ({| t_world := v'; t_fringe := m_push E n' (t_fringe st); t_vis := x'; t_rnd := t_rnd st |}, better n' best)
  end.
(** PriorityQueueSearch.h 96-155 *)
Fixpoint oexpand_actions {V} (P : problem) (C : config) (E : menv V) (fuel : nat) (st : mstate V) (best : option mnode) (n : mnode) (i : nat) (l : list nat) : option (mstate V * option mnode) :=
  match l with
  | [] => Some (st, best)
  | x :: t =>
      b <- (tk <- rtask (rd (v_ps (t_world st))) x ;; isApplicable P (k_state n) tk) ;;
      if b : bool then
        '(v, n2) <- mapply P C fuel (t_world st) n i ;;
        '(st', best') <- otreat P E st best v n2 ;;
        oexpand_actions P C E fuel st' best' n (S i) t
      else oexpand_actions P C E fuel st best n (S i) t
  end.
(** PriorityQueueSearch.h 160-221 *)
Fixpoint oexpand_methods {V} (P : problem) (C : config) (E : menv V) (fuel : nat) (st : mstate V) (best : option mnode) (n : mnode) (step : nat) (ms : list nat) : option (mstate V * option mnode) :=
  match ms with
  | [] => Some (st, best)
  | mi :: t =>
      '(v, n2) <- mdecompose P C fuel (t_world st) n step mi ;;
      '(st', best') <- otreat P E st best v n2 ;;
      oexpand_methods P C E fuel st' best' n step t
  end.
(** PriorityQueueSearch.h 96-221 *)
Definition oexpand {V} (P : problem) (C : config) (E : menv V) (fuel : nat) (st : mstate V) (best : option mnode) (n : mnode) : option (mstate V * option mnode) :=
  match k_abs n with
  | [] => oexpand_actions P C E fuel st best n 0 (k_prim n)
  | _ =>
      let step := Nat.modulo (m_rnd E (t_rnd st)) (length (k_abs n)) in
      let st1 := {| t_world := t_world st; t_fringe := t_fringe st; t_vis := t_vis st; t_rnd := S (t_rnd st) |} in
      tk <- (x <- get (k_abs n) step ;; rtask (rd (v_ps (t_world st))) x) ;;
      oexpand_methods P C E fuel st1 best n step (task_to_methods P tk)
  end.
(** PriorityQueueSearch.h 74-256, until the fringe is empty; the result is the final memory and tnSol (inner [None]: out of fuel) *)
Fixpoint osearch_loop {V} (P : problem) (C : config) (E : menv V) (afuel fuel : nat) (st : mstate V) (best : option mnode) : option (option (mworld * option mnode)) :=
  match m_pop E (t_fringe st) with
  | None => Some (Some (t_world st, best))
  | Some (n, fr) =>
      match fuel with
      | 0%nat => Some None
      | S f =>
          let '(ok, x') := if m_subopt E then (true, t_vis st) else m_insert E (t_world st) (t_vis st) n in
          let st1 := {| t_world := t_world st; t_fringe := fr; t_vis := x'; t_rnd := t_rnd st |} in
          if ok then
            g <- (if m_subopt E then Some false else misGoal P n) ;;
            '(st2, best2) <- oexpand P C E afuel st1 (if g : bool then better n best else best) n ;;
            v <- (if m_candel E then delete_node (t_world st2) n else Some (t_world st2)) ;;
            osearch_loop P C E afuel f {| t_world := v; t_fringe := t_fringe st2; t_vis := t_vis st2; t_rnd := t_rnd st2 |} best2
          else
            v <- delete_node (t_world st) n ;;
            osearch_loop P C E afuel f {| t_world := v; t_fringe := fr; t_vis := x'; t_rnd := t_rnd st |} best
      end
  end.
(** PriorityQueueSearch.h 33-303 *)
Definition osearch {V} (P : problem) (C : config) (E : menv V) (x0 : V) (afuel fuel : nat) : option (option (mworld * option mnode)) :=
  '(v, n) <- minit P ;;
  osearch_loop P C E afuel fuel {| t_world := v; t_fringe := m_push E n []; t_vis := x0; t_rnd := 0 |} None.
