(** Model of the progression core of pandaPIengine.
    Sources: src/Model.cpp (generateMethodRepresentation, initializeMethod, decompose, apply,
    isApplicable, isGoal, prepareTNi), src/ProgressionNetwork.h / .cpp (planStep, searchNode,
    solutionStep, extraction of the plan), src/search/PriorityQueueSearch.h (search).

    Simplifications valid for the whole file:
    - [int] is [nat]; costs are non-negative and do not overflow.
    - Plan steps live in a heap that only grows ([list pstep], address = index); reference
      counters and freeing are modelled separately (Mem_model.v).
    - Heuristic payloads, the reachability sets of plan steps and the contained-task tables are modelled
      in other files; time measurement and printing are omitted. *)
From Verif Require Import Base.
From Verif Require Export Htn_problem.

(** ** Derived method tables *)

(** Model.cpp 1502-1508: subtask [j] is a first task iff it never occurs as successor. *)
Definition is_first (m : method) (j : nat) : bool :=
  forallb (fun o => negb (Nat.eqb (snd o) j)) (m_ord m).

(** Model.cpp 1502-1508: subtask [j] is a last task iff it never occurs as predecessor. *)
Definition is_last (m : method) (j : nat) : bool :=
  forallb (fun o => negb (Nat.eqb (fst o) j)) (m_ord m).

(** Model.cpp 1529-1534: methodsFirstTasks. *)
Definition first_tasks (m : method) : list nat :=
  filter (is_first m) (seq 0 (length (m_subs m))).

(** Model.cpp 1529-1534: methodsLastTasks. *)
Definition last_tasks (m : method) : list nat :=
  filter (is_last m) (seq 0 (length (m_subs m))).

(** Model.cpp 1453-1479: taskToMethods[t], the methods decomposing [t] in increasing order. *)
Definition task_to_methods (P : problem) (t : nat) : list nat :=
  filter (fun i => match nth_error (p_methods P) i with
                   | Some m => Nat.eqb (m_task m) t
                   | None => false end) (seq 0 (length (p_methods P))).

(** ** Heap objects *)

(** ProgressionNetwork.h 54-74: planStep. [id] is the heap index. *)
Record pstep := { ps_task : nat; ps_succ : list nat; ps_parent : nat; ps_pos : nat }.

(** ProgressionNetwork.h 40-52: solutionStep; [prev] chain is the tail of a list. [ss_method = None]
    is [method == -1]. *)
Record solstep := { ss_task : nat; ss_method : option nat;
                    ss_inst : nat; ss_pos : nat; ss_parent : nat }.

(** ProgressionNetwork.h 76-142: searchNode (fields used by the progression). *)
Record node := {
  n_state : list bool;
  n_abs : list nat;      (* unconstraintAbstract *)
  n_prim : list nat;     (* unconstraintPrimitive *)
  n_cost : nat;          (* actionCosts *)
  n_depth : nat;         (* modificationDepth *)
  n_mixed : nat;         (* mixedModificationDepth *)
  n_reach : bool;        (* goalReachable *)
  n_sol : list solstep   (* solution, latest first *) }.

(** Global mutable state: the heap of plan steps, currentSolutionStepInstanceNumber
    (ProgressionNetwork.cpp 17), and the shared stack Model::effectLess with its iterator
    (Model.h 187, FlexIntStack.cpp; the growing array is a list, see IntStack_model.v). *)
Record world := { w_heap : list pstep; w_inst : nat; w_eff : list nat; w_iter : nat }.

Definition set_heap (w : world) h := {| w_heap := h; w_inst := w_inst w; w_eff := w_eff w; w_iter := w_iter w |}.
Definition set_inst (w : world) i := {| w_heap := w_heap w; w_inst := i; w_eff := w_eff w; w_iter := w_iter w |}.
Definition set_eff (w : world) e := {| w_heap := w_heap w; w_inst := w_inst w; w_eff := e; w_iter := w_iter w |}.
Definition set_iter (w : world) i := {| w_heap := w_heap w; w_inst := w_inst w; w_eff := w_eff w; w_iter := i |}.

(** FlexIntStack.cpp 57-62: getFirst ([None] is -1). *)
Definition eff_first (w : world) : world * option nat :=
  match w_eff w with
  | [] => (w, None)
  | x :: _ => (set_iter w 0, Some x)
  end.

(** FlexIntStack.cpp 64-70: getNext. *)
Definition eff_next (w : world) : world * option nat :=
  let i := S (w_iter w) in
  (set_iter w i, nth_error (w_eff w) i).

(** ** States *)

(** Model.cpp 1009-1011 / 1012-1014: writing a constant into all positions of a list. *)
Definition write_all (v : bool) (fs : list nat) (s : list bool) : option (list bool) :=
  ofold (fun s f => set s f v) fs s.

(** Model.cpp 1009-1014: deletes first, then adds. *)
Definition apply_effects (P : problem) (a : nat) (s : list bool) : option (list bool) :=
  dl <- get (p_del P) a ;;
  s1 <- write_all false dl s ;;
  al <- get (p_add P) a ;;
  write_all true al s1.

(** The loops of isApplicable (Model.cpp 1396-1399) and of isGoal (1406-1409), stopping at the first false bit. *)
Fixpoint all_true (fs : list nat) (s : list bool) : option bool :=
  match fs with
  | [] => Some true
  | f :: t => b <- get s f ;; if b then all_true t s else Some false
  end.

(** Model.cpp 1395-1401 *)
Definition isApplicable (P : problem) (s : list bool) (a : nat) : option bool :=
  pl <- get (p_prec P) a ;; all_true pl s.

(** Model.cpp 1403-1411 *)
Definition isGoal (P : problem) (n : node) : option bool :=
  match n_abs n, n_prim n with
  | [], [] => all_true (p_goal P) (n_state n)
  | _, _ => Some false
  end.

(** The test of Model.cpp 1106-1111, 1123-1128 and 677-681: no effects and applicable. *)
Definition effectless_applicable (P : problem) (s : list bool) (a : nat) : option bool :=
  al <- get (p_add P) a ;;
  dl <- get (p_del P) a ;;
  match al, dl with
  | [], [] => isApplicable P s a
  | _, _ => Some false
  end.

Definition task_of (h : list pstep) (i : nat) : option nat :=
  ps <- get h i ;; Some (ps_task ps).

Definition succ_of (h : list pstep) (i : nat) : option (list nat) :=
  ps <- get h i ;; Some (ps_succ ps).

(** ** apply: new first tasks *)

(** [std::set::insert] on a set kept as a duplicate-free list. *)
Definition set_insert (l : list nat) (x : nat) : list nat := if memb x l then l else l ++ [x].

(** Pushing all successors of the steps in [l] to the front of [acc]
    (Model.cpp 1028-1045 and the inner loop 1021-1024). *)
Definition push_succs (h : list pstep) (l : list nat) (acc : list nat) : option (list nat) :=
  ofold (fun acc i => ss <- succ_of h i ;; Some (rev ss ++ acc)) l acc.

(** Model.cpp 1046-1069. [pf] is potentiallyFirst, [pp] potentialPredecessors, [dn] done. *)
Fixpoint elim_loop (fuel : nat) (h : list pstep) (pf pp dn : list nat) : option (list nat) :=
  match pf, pp with
  | [], _ => Some []
  | _, [] => Some pf
  | _, x :: pp' =>
      match fuel with
      | 0 => None
      | S f =>
          ss <- succ_of h x ;;
          elim_loop f h (filter (fun y => negb (Nat.eqb y x)) pf)
                    (rev (filter (fun y => negb (memb y (x :: dn))) ss) ++ pp') (x :: dn)
      end
  end.

(** Removing index [i] from an array (Model.cpp 1101-1116, 639-649). *)
Definition remove_at {A} (i : nat) (l : list A) : list A := firstn i l ++ skipn (S i) l.

(** Model.cpp 1019-1069: the steps that become first tasks when [ps] is removed from node [n].
    [perm] is the iteration order of std::set<planStep*> (by address, hence unspecified). *)
Definition new_firsts (perm : list nat -> list nat) (fuel : nat) (h : list pstep)
           (n : node) (taskNo : nat) (ps : pstep) : option (list nat) :=
  let pf := fold_left set_insert (ps_succ ps) [] in
  pp1 <- push_succs h (ps_succ ps) [] ;;
  pp2 <- push_succs h (n_abs n) pp1 ;;
  pp3 <- push_succs h (remove_at taskNo (n_prim n)) pp2 ;;
  pf' <- elim_loop fuel h pf pp3 [] ;;
  Some (perm pf').

(** Splitting a list of steps by isPrimitive, keeping the order (Model.cpp 1119-1140). *)
Fixpoint split_prim (P : problem) (h : list pstep) (l : list nat) : option (list nat * list nat) :=
  match l with
  | [] => Some ([], [])
  | x :: t =>
      tk <- task_of h x ;;
      b <- get (p_prim P) tk ;;
      '(ps, abs) <- split_prim P h t ;;
      Some (if b then (x :: ps, abs) else (ps, x :: abs))
  end.

(** The indices [>= from] of effectless applicable steps (pushes of Model.cpp 1105-1114, 1122-1131, 676-684). *)
Fixpoint eff_indices (P : problem) (h : list pstep) (s : list bool) (from : nat) (l : list nat)
  : option (list nat) :=
  match l with
  | [] => Some []
  | x :: t =>
      tk <- task_of h x ;;
      b <- effectless_applicable P s tk ;;
      r <- eff_indices P h s (S from) t ;;
      Some (if b then from :: r else r)
  end.

(** Model.cpp 1001-1171: apply up to (excluding) the eager progressions. *)
Definition apply1 (P : problem) (perm : list nat -> list nat) (progEff : bool) (fuel : nat)
           (w : world) (n : node) (taskNo : nat) : option (world * node) :=
  x <- get (n_prim n) taskNo ;;
  ps <- get (w_heap w) x ;;
  s' <- apply_effects P (ps_task ps) (n_state n) ;;
  nf <- new_firsts perm fuel (w_heap w) n taskNo ps ;;
  '(nfp, nfa) <- split_prim P (w_heap w) nf ;;
  c <- get (p_cost P) (ps_task ps) ;;
  let prims := remove_at taskNo (n_prim n) ++ nfp in
  eff <- (if progEff then eff_indices P (w_heap w) s' 0 prims else Some (w_eff w)) ;;
  let w' := {| w_heap := w_heap w; w_inst := S (w_inst w); w_eff := eff; w_iter := w_iter w |} in
  (* Model.cpp 1161: n->solution is dereferenced *)
  match n_sol n with
  | [] => None
  | _ =>
    Some (w', {| n_state := s'; n_abs := n_abs n ++ nfa; n_prim := prims;
                 n_cost := n_cost n + c; n_depth := S (n_depth n); n_mixed := n_mixed n + c;
                 n_reach := true;
                 n_sol := {| ss_task := ps_task ps; ss_method := None; ss_inst := w_inst w;
                             ss_pos := ps_pos ps; ss_parent := ps_parent ps |} :: n_sol n |})
  end.

(** ** decompose *)

(** Model.cpp 958-999 and 657-665: the plan steps for the subtasks of [m], allocated at addresses
    [base], [base]+1, ...; a last task gets the successors [osucc] of the decomposed step, the others their
    successors inside the method, in the order of the ordering list. *)
Definition method_step (m : method) (base inst : nat) (osucc : list nat) (j t : nat) : pstep :=
  {| ps_task := t;
     ps_succ := if is_last m j then osucc
                else map (fun o => base + snd o) (filter (fun o => Nat.eqb (fst o) j) (m_ord m));
     ps_parent := inst; ps_pos := j |}.

Fixpoint method_steps_from (m : method) (base inst : nat) (osucc : list nat) (j : nat) (ts : list nat)
  : list pstep :=
  match ts with
  | [] => []
  | t :: r => method_step m base inst osucc j t :: method_steps_from m base inst osucc (S j) r
  end.

Definition method_steps (m : method) (base inst : nat) (osucc : list nat) : list pstep :=
  method_steps_from m base inst osucc 0 (m_subs m).

(** Model.cpp 604-729: decompose up to (excluding) the eager progressions.
    [initializeMethod] indexes the subtask array with the ordering entries (984-986): an entry out of
    range is undefined behaviour, hence the [forallb] guard. *)
Definition decompose1 (P : problem) (progEff : bool)
           (w : world) (n : node) (taskNo mi : nat) : option (world * node) :=
  x <- get (n_abs n) taskNo ;;
  ps <- get (w_heap w) x ;;
  m <- get (p_methods P) mi ;;
  let k := length (m_subs m) in
  if forallb (fun o => Nat.ltb (fst o) k && Nat.ltb (snd o) k)%bool (m_ord m) then
    let base := length (w_heap w) in
    let inst := w_inst w in
    let h' := w_heap w ++ method_steps m base inst (ps_succ ps) in
    '(fp, fa) <- split_prim P h' (map (fun j => base + j) (first_tasks m)) ;;
    eff <- (if progEff then eff_indices P h' (n_state n) (length (n_prim n)) fp else Some (w_eff w)) ;;
    Some ({| w_heap := h'; w_inst := S inst; w_eff := eff; w_iter := w_iter w |},
          {| n_state := n_state n;
             n_abs := remove_at taskNo (n_abs n) ++ fa;
             n_prim := n_prim n ++ fp;
             n_cost := n_cost n; n_depth := S (n_depth n); n_mixed := S (n_mixed n);
             n_reach := true;
             n_sol := {| ss_task := ps_task ps; ss_method := Some mi; ss_inst := inst;
                         ss_pos := ps_pos ps; ss_parent := ps_parent ps |} :: n_sol n |})
  else None.

(** ** Eager progressions *)

(** Model.cpp 917-926 and 1355-1364: the single applicable index.
    [OneNone] = NOACTION, [OneIdx i] = i, [OneMany] = FORBIDDEN. *)
Inductive one_result := OneNone | OneIdx (i : nat) | OneMany.

Fixpoint one_applicable (P : problem) (h : list pstep) (s : list bool) (i : nat) (l : list nat)
         (acc : one_result) : option one_result :=
  match l with
  | [] => Some acc
  | x :: t =>
      tk <- task_of h x ;;
      b <- isApplicable P s tk ;;
      if b then
        match acc with
        | OneNone => one_applicable P h s (S i) t (OneIdx i)
        | _ => Some OneMany
        end
      else one_applicable P h s (S i) t acc
  end.

Definition set_unreachable (n : node) : node :=
  {| n_state := n_state n; n_abs := n_abs n; n_prim := n_prim n; n_cost := n_cost n;
     n_depth := n_depth n; n_mixed := n_mixed n; n_reach := false; n_sol := n_sol n |}.

(** Parameters of the model object: Model.h progressEffectLess, progressOneModActions; [perm] as in [new_firsts]. *)
Record config := { c_eff : bool; c_one : bool; c_perm : list nat -> list nat }.

(** Model.cpp 1001-1393 (apply): [apply1], then the loop over effectLess (1340-1351), then the one-modification
    step (1352-1376). [eff_loop] is the rest of the loop once index [ac] has been fetched. *)
Fixpoint apply (P : problem) (C : config) (fuel : nat) (w : world) (n : node) (taskNo : nat)
  : option (world * node) :=
  match fuel with
  | 0 => None
  | S f =>
      '(w1, r1) <- apply1 P (c_perm C) (c_eff C) f w n taskNo ;;
      '(w2, r2) <- (if c_eff C then
                      let '(w1', ac) := eff_first w1 in eff_loop P C f w1' r1 ac
                    else Some (w1, r1)) ;;
      if c_one C then
        match n_abs r2, n_prim r2 with
        | [], _ :: _ =>
            o <- one_applicable P (w_heap w2) (n_state r2) 0 (n_prim r2) OneNone ;;
            match o with
            | OneIdx i => apply P C f w2 r2 i
            | OneNone => Some (w2, set_unreachable r2)
            | OneMany => Some (w2, r2)
            end
        | _, _ => Some (w2, r2)
        end
      else Some (w2, r2)
  end
with eff_loop (P : problem) (C : config) (fuel : nat) (w : world) (r : node) (ac : option nat)
  : option (world * node) :=
  match ac with
  | None => Some (w, r)
  | Some i =>
      match fuel with
      | 0 => None
      | S f =>
          '(w1, r1) <- apply P C f w r i ;;
          let '(w2, ac') := eff_next w1 in eff_loop P C f w2 r1 ac'
      end
  end.

(** Model.cpp 914-938 / 1352-1376. *)
Definition one_mod (P : problem) (C : config) (fuel : nat) (w : world) (r : node) : option (world * node) :=
  if c_one C then
    match n_abs r, n_prim r with
    | [], _ :: _ =>
        o <- one_applicable P (w_heap w) (n_state r) 0 (n_prim r) OneNone ;;
        match o with
        | OneIdx i => apply P C fuel w r i
        | OneNone => Some (w, set_unreachable r)
        | OneMany => Some (w, r)
        end
    | _, _ => Some (w, r)
    end
  else Some (w, r).

(** Model.cpp 604-956 (decompose). *)
Definition decompose (P : problem) (C : config) (fuel : nat) (w : world) (n : node) (taskNo mi : nat)
  : option (world * node) :=
  '(w1, r1) <- decompose1 P (c_eff C) w n taskNo mi ;;
  '(w2, r2) <- (if c_eff C then
                  let '(w1', ac) := eff_first w1 in eff_loop P C fuel w1' r1 ac
                else Some (w1, r1)) ;;
  one_mod P C fuel w2 r2.

(** ** Initial node and plan extraction *)

(** Model.cpp 2641-2673 (prepareTNi). *)
Definition init_node (P : problem) : option (world * node) :=
  s <- write_all true (p_s0 P) (repeat false (p_nfacts P)) ;;
  Some ({| w_heap := [{| ps_task := p_init P; ps_succ := []; ps_parent := 0; ps_pos := 0 |}];
           w_inst := 0; w_eff := []; w_iter := 0 |},
        {| n_state := s; n_abs := [0]; n_prim := []; n_cost := 0; n_depth := 0; n_mixed := 0;
           n_reach := true; n_sol := [] |}).

(** ProgressionNetwork.cpp 160-207: the primitive steps printed, in printing order (the chain is walked from
    the last step backwards and each action is prepended). A chain of a single step prints nothing (line 164). *)
Definition printed_plan (n : node) : list nat :=
  match n_sol n with
  | [] => []
  | [_] => []
  | l => rev (map ss_task (filter (fun s => match ss_method s with None => true | _ => false end) l))
  end.

(** ** Search *)

(** What the search loop uses of the fringe, the visited list and the heuristics. The fringe is a
    bag of nodes with a pop policy; [v_insert] is VisitedList::insertVisi (true = new); [h_dead] tells whether
    computing the heuristics sets goalReachable to false; [rnd] is rand(). *)
Record search_env (V : Type) := {
  e_pop : list node -> option (node * list node);
  e_push : node -> list node -> list node;
  v_insert : world -> V -> node -> bool * V;
  h_dead : world -> node -> bool;
  rnd : nat -> nat;
  subopt : bool }.

Arguments e_pop {V}. Arguments e_push {V}. Arguments v_insert {V}. Arguments h_dead {V}.
Arguments rnd {V}. Arguments subopt {V}.

Inductive search_result :=
| Solved (w : world) (n : node)
| Unsolvable
| OutOfFuel     (* also stands for the time limit *)
| Crash.        (* undefined behaviour *)

(** State of the search loop. *)
Record sstate (V : Type) := { s_world : world; s_fringe : list node; s_vis : V; s_rnd : nat }.

Arguments s_world {V}. Arguments s_fringe {V}. Arguments s_vis {V}. Arguments s_rnd {V}.

Inductive gen_result (V : Type) :=
| GStop (w : world) (n : node)      (* solution found, stop *)
| GCont (st : sstate V)
| GCrash.
Arguments GStop {V}. Arguments GCont {V}. Arguments GCrash {V}.

(** PriorityQueueSearch.h 102-152 and 168-218 (identical for both kinds of successors): treat a generated
    successor [n2]. *)
Definition treat_successor {V} (P : problem) (E : search_env V) (st : sstate V) (w : world) (n2 : node)
  : gen_result V :=
  if n_reach n2 then
    let '(ok, v') := if subopt E then v_insert E w (s_vis st) n2 else (true, s_vis st) in
    let st' := {| s_world := w; s_fringe := s_fringe st; s_vis := v'; s_rnd := s_rnd st |} in
    if ok then
      if h_dead E w n2 then GCont st'
      else
        match (if subopt E then isGoal P n2 else Some false) with
        | None => GCrash
        | Some true => GStop w n2
        | Some false =>
            GCont {| s_world := w; s_fringe := e_push E n2 (s_fringe st); s_vis := v'; s_rnd := s_rnd st |}
        end
    else GCont st'
  else GCont {| s_world := w; s_fringe := s_fringe st; s_vis := s_vis st; s_rnd := s_rnd st |}.

(** PriorityQueueSearch.h 96-155: all applicable first actions, [i] being the running index. *)
Fixpoint expand_actions {V} (P : problem) (C : config) (E : search_env V) (fuel : nat) (st : sstate V)
         (n : node) (i : nat) (l : list nat) : gen_result V :=
  match l with
  | [] => GCont st
  | x :: t =>
      match (tk <- task_of (w_heap (s_world st)) x ;; isApplicable P (n_state n) tk) with
      | None => GCrash
      | Some false => expand_actions P C E fuel st n (S i) t
      | Some true =>
          match apply P C fuel (s_world st) n i with
          | None => GCrash
          | Some (w, n2) =>
              match treat_successor P E st w n2 with
              | GCont st' => expand_actions P C E fuel st' n (S i) t
              | r => r
              end
          end
      end
  end.

(** PriorityQueueSearch.h 160-221: all methods of the chosen abstract task. *)
Fixpoint expand_methods {V} (P : problem) (C : config) (E : search_env V) (fuel : nat) (st : sstate V)
         (n : node) (step : nat) (ms : list nat) : gen_result V :=
  match ms with
  | [] => GCont st
  | mi :: t =>
      match decompose P C fuel (s_world st) n step mi with
      | None => GCrash
      | Some (w, n2) =>
          match treat_successor P E st w n2 with
          | GCont st' => expand_methods P C E fuel st' n step t
          | r => r
          end
      end
  end.

(** PriorityQueueSearch.h 96-221: expansion of node [n]. *)
Definition expand {V} (P : problem) (C : config) (E : search_env V) (fuel : nat) (st : sstate V) (n : node)
  : gen_result V :=
  match n_abs n with
  | [] => expand_actions P C E fuel st n 0 (n_prim n)
  | _ =>
      let step := Nat.modulo (rnd E (s_rnd st)) (length (n_abs n)) in
      let st1 := {| s_world := s_world st; s_fringe := s_fringe st; s_vis := s_vis st;
                    s_rnd := S (s_rnd st) |} in
      match (x <- get (n_abs n) step ;; task_of (w_heap (s_world st)) x) with
      | None => GCrash
      | Some tk => expand_methods P C E fuel st1 n step (task_to_methods P tk)
      end
  end.

(** PriorityQueueSearch.h 74-256: the main loop. [fuel] bounds the number of popped nodes, [afuel] is the fuel
    handed to apply/decompose. The handling of several solutions (optimzeSol) is compiled to "stop at the
    first solution" (flags.h 46). *)
Fixpoint search_loop {V} (P : problem) (C : config) (E : search_env V) (afuel fuel : nat) (st : sstate V)
  : search_result :=
  match e_pop E (s_fringe st) with
  | None => Unsolvable
  | Some (n, fr) =>
      match fuel with
      | 0 => OutOfFuel
      | S f =>
          let '(ok, v') := if subopt E then (true, s_vis st) else v_insert E (s_world st) (s_vis st) n in
          let st1 := {| s_world := s_world st; s_fringe := fr; s_vis := v'; s_rnd := s_rnd st |} in
          if ok then
            match (if subopt E then Some false else isGoal P n) with
            | None => Crash
            | Some true => Solved (s_world st) n
            | Some false =>
                match expand P C E afuel st1 n with
                | GStop w n2 => Solved w n2
                | GCont st2 => search_loop P C E afuel f st2
                | GCrash => Crash
                end
            end
          else search_loop P C E afuel f st1
      end
  end.

(** PriorityQueueSearch.h 33-303: a whole search. *)
Definition search {V} (P : problem) (C : config) (E : search_env V) (v0 : V) (afuel fuel : nat)
  : search_result :=
  match init_node P with
  | None => Crash
  | Some (w, n) =>
      search_loop P C E afuel fuel
        {| s_world := w; s_fringe := e_push E n []; s_vis := v0; s_rnd := 0 |}
  end.
