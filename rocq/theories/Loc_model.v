(** Model of the recursive local landmarks of src/heuristics/landmarks/lmExtraction/LMsInAndOrGraphs.cpp 401-495 (hhLMCount with lmfLOCAL).
    std::set<int> is a list in increasing order. Not modelled: the constructor (the AND/OR graph is not used by this function) and the time measurement. *)
From Verif Require Import Base Htn_problem Htn_model.

(** std::set::insert *)
Fixpoint sadd (x : nat) (l : list nat) : list nat :=
  match l with
  | [] => [x]
  | y :: r => if Nat.ltb x y then x :: l else if Nat.eqb x y then l else y :: sadd x r
  end.

(** LMsInAndOrGraphs.cpp 476-480: all subtasks of the first method *)
Definition first_set (subs : list nat) : list nat := fold_left (fun s t => sadd t s) subs [].
(** LMsInAndOrGraphs.cpp 483-488: the subtasks of a further method that are in res *)
Definition next_set (res subs : list nat) : list nat := fold_left (fun s t => if memb t res then sadd t s else s) subs [].

(** LMsInAndOrGraphs.cpp 469-495: [None] is first == true *)
Definition local_step (P : problem) (res : option (list nat)) (m : nat) : option (option (list nat)) :=
  md <- get (p_methods P) m ;;
  Some (Some (match res with None => first_set (m_subs md) | Some r => next_set r (m_subs md) end)).
Definition genLocalLMs (P : problem) (task : nat) : option (list nat) :=
  _ <- get (p_prim P) task ;;   (* numMethodsForTask[task] exists *)
  r <- ofold (local_step P) (task_to_methods P task) None ;;
  Some (match r with None => [] | Some l => l end).

(** LMsInAndOrGraphs.cpp 408-427: the steps of the network; the last element of todoList is the head of the list. *)
Fixpoint steps_loop (fuel : nat) (h : list pstep) (todo done tasks : list nat) : option (list nat) :=
  match todo with
  | [] => Some tasks
  | i :: r =>
      match fuel with
      | 0 => None
      | S f =>
          ps <- get h i ;;
          let done' := sadd i done in
          steps_loop f h (fold_left (fun st j => if memb j done' then st else j :: st) (ps_succ ps) r) done' (sadd (ps_task ps) tasks)
      end
  end.
(** Enough iterations for every graph (see Loc_proof.v) *)
Definition steps_fuel (h : list pstep) (n : node) : nat := length (n_abs n) + length (n_prim n) + list_sum (map (fun ps => length (ps_succ ps)) h).
Definition initialTasks (h : list pstep) (n : node) : option (list nat) :=
  steps_loop (steps_fuel h n) h (rev (n_prim n ++ n_abs n)) [] [].

(** LMsInAndOrGraphs.cpp 431-439: the local landmarks of the tasks of the network; the pair is (collect, lms) *)
Definition first_round (P : problem) (tasks : list nat) : option (list nat * list nat) :=
  ofold (fun '(c, l) t => n <- genLocalLMs P t ;; Some (fold_left (fun c x => sadd x c) n c, fold_left (fun l x => sadd x l) n l)) tasks ([], []).
(** LMsInAndOrGraphs.cpp 441-453: one round of the while loop *)
Definition next_round (P : problem) (last lms : list nat) : option (list nat * list nat) :=
  ofold (fun st t => n <- genLocalLMs P t ;;
    Some (fold_left (fun '(c, l) x => if memb x l then (c, l) else (sadd x c, sadd x l)) n st)) last ([], lms).
Fixpoint rounds (fuel : nat) (P : problem) (c l : list nat) : option (list nat) :=
  match c with
  | [] => Some l
  | _ => match fuel with 0 => None | S f => '(c', l') <- next_round P c l ;; rounds f P c' l' end
  end.

(** LMsInAndOrGraphs.cpp 403-467: tlm *)
Definition generateLocalLMs (P : problem) (h : list pstep) (n : node) : option (list nat) :=
  ts <- initialTasks h n ;;
  '(c, l) <- first_round P ts ;;
  rounds (S (length (p_prim P))) P c l.
