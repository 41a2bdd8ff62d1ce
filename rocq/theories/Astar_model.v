(** Model of src/search/PriorityQueueSearch.h 33-303 with the queue OneQueueWAStarFringe and an array of heuristics: like [search] in
    Htn_model.v, but with the stored heuristic values, the f values and the random numbers of the nodes.
    Simplifications valid for the whole file: those of Htn_model.v; [int] is [Z] without overflow for heuristic values; heuristics are functions of
    the new node (and the memory), [None] stands for setting goalReachable to false; the time limit is the fuel; no output. *)
From Coq Require Import ZArith.
From Verif Require Import Base Htn_model Fringe_model.

Local Open Scope Z_scope.

(** SearchEngine.cpp 286-451: the components of the search. *)
Record aenv (V : Type) := {
  a_hs : list (nat * (world -> node -> option Z));   (* hF: address and function of each heuristic *)
  a_gval : gval; a_weight : Z;                         (* aStarOption, hWeight *)
  a_push : entry node -> list (entry node) -> list (entry node);
  a_pop : list (entry node) -> option (entry node * list (entry node));
  a_vis : world -> V -> node -> option Z -> bool * V;  (* insertVisi; the f value, [None] if it has not been set *)
  a_rnd : nat -> Z;                                    (* the results of rand() *)
  a_sub : bool }.                                      (* suboptimalSearch *)
Arguments a_hs {V}. Arguments a_gval {V}. Arguments a_weight {V}. Arguments a_push {V}. Arguments a_pop {V}.
Arguments a_vis {V}. Arguments a_rnd {V}. Arguments a_sub {V}.

(** PriorityQueueSearch.h 117-136 and 183-202: the heuristic values of a new node; [prev] are the addresses and values so far. Nothing is
    computed after a heuristic has reported a dead end, and the node is dropped afterwards. *)
Fixpoint eval_hs (hs : list (nat * (world -> node -> option Z))) (prev : list (nat * Z)) (w : world) (n : node) : option (list Z) :=
  match hs with
  | [] => Some []
  | (a, f) :: r =>
      v <- match find (fun p => Nat.eqb (fst p) a) prev with
           | Some p => Some (snd p)
           | None => f w n
           end ;;
      vs <- eval_hs r (prev ++ [(a, v)]) w n ;;
      Some (v :: vs)
  end.

(** The state of the main loop. *)
Record astate (V : Type) := { t_world : world; t_fringe : list (entry node); t_vis : V; t_rnd : nat }.
Arguments t_world {V}. Arguments t_fringe {V}. Arguments t_vis {V}. Arguments t_rnd {V}.

(** OneQueueWAStarFringe.cpp 35-48: push; reading heuristicValue[0] of an empty array is undefined. *)
Definition push_entry {V} (E : aenv V) (st : astate V) (w : world) (v : V) (n : node) (hv : list Z) : option (astate V) :=
  h0 <- get hv 0 ;;
  let e := {| en_node := n; en_f := f_value (a_gval E) (a_weight E) h0 (n_depth n) (n_cost n) (n_mixed n); en_h := hv; en_rand := a_rnd E (t_rnd st) |} in
  Some {| t_world := w; t_fringe := a_push E e (t_fringe st); t_vis := v; t_rnd := S (t_rnd st) |}.

Inductive agen (V : Type) := AStop (w : world) (n : node) | ACont (st : astate V) | ACrash.
Arguments AStop {V}. Arguments ACont {V}. Arguments ACrash {V}.

(** PriorityQueueSearch.h 102-152 and 168-218: a generated successor. In suboptimal search the visited list is asked before the f value of
    the node has been set. *)
Definition a_treat {V} (P : problem) (E : aenv V) (st : astate V) (w : world) (n2 : node) : agen V :=
  if n_reach n2 then
    let '(ok, v') := if a_sub E then a_vis E w (t_vis st) n2 None else (true, t_vis st) in
    let st' := {| t_world := w; t_fringe := t_fringe st; t_vis := v'; t_rnd := t_rnd st |} in
    if ok then
      match eval_hs (a_hs E) [] w n2 with
      | None => ACont st'
      | Some hv =>
          match (if a_sub E then isGoal P n2 else Some false) with
          | None => ACrash
          | Some true => AStop w n2
          | Some false => match push_entry E st w v' n2 hv with Some st2 => ACont st2 | None => ACrash end
          end
      end
    else ACont st'
  else ACont {| t_world := w; t_fringe := t_fringe st; t_vis := t_vis st; t_rnd := t_rnd st |}.

(** PriorityQueueSearch.h 96-155 *)
Fixpoint a_actions {V} (P : problem) (C : config) (E : aenv V) (fuel : nat) (st : astate V) (n : node) (i : nat) (l : list nat) : agen V :=
  match l with
  | [] => ACont st
  | x :: t =>
      match (tk <- task_of (w_heap (t_world st)) x ;; isApplicable P (n_state n) tk) with
      | None => ACrash
      | Some false => a_actions P C E fuel st n (S i) t
      | Some true =>
          match apply P C fuel (t_world st) n i with
          | None => ACrash
          | Some (w, n2) =>
              match a_treat P E st w n2 with
              | ACont st' => a_actions P C E fuel st' n (S i) t
              | r => r
              end
          end
      end
  end.

(** PriorityQueueSearch.h 160-221 *)
Fixpoint a_methods {V} (P : problem) (C : config) (E : aenv V) (fuel : nat) (st : astate V) (n : node) (step : nat) (ms : list nat) : agen V :=
  match ms with
  | [] => ACont st
  | mi :: t =>
      match decompose P C fuel (t_world st) n step mi with
      | None => ACrash
      | Some (w, n2) =>
          match a_treat P E st w n2 with
          | ACont st' => a_methods P C E fuel st' n step t
          | r => r
          end
      end
  end.

(** PriorityQueueSearch.h 96-221; rand() is not negative. *)
Definition a_expand {V} (P : problem) (C : config) (E : aenv V) (fuel : nat) (st : astate V) (n : node) : agen V :=
  match n_abs n with
  | [] => a_actions P C E fuel st n 0 (n_prim n)
  | _ =>
      let step := Nat.modulo (Z.to_nat (a_rnd E (t_rnd st))) (length (n_abs n)) in
      let st1 := {| t_world := t_world st; t_fringe := t_fringe st; t_vis := t_vis st; t_rnd := S (t_rnd st) |} in
      match (x <- get (n_abs n) step ;; task_of (w_heap (t_world st)) x) with
      | None => ACrash
      | Some tk => a_methods P C E fuel st1 n step (task_to_methods P tk)
      end
  end.

(** PriorityQueueSearch.h 74-256 *)
Fixpoint a_loop {V} (P : problem) (C : config) (E : aenv V) (afuel fuel : nat) (st : astate V) : search_result :=
  match a_pop E (t_fringe st) with
  | None => Unsolvable
  | Some (e, fr) =>
      match fuel with
      | 0%nat => OutOfFuel
      | S f =>
          let n := en_node e in
          let '(ok, v') := if a_sub E then (true, t_vis st) else a_vis E (t_world st) (t_vis st) n (Some (en_f e)) in
          let st1 := {| t_world := t_world st; t_fringe := fr; t_vis := v'; t_rnd := t_rnd st |} in
          if ok then
            match (if a_sub E then Some false else isGoal P n) with
            | None => Crash
            | Some true => Solved (t_world st) n
            | Some false =>
                match a_expand P C E afuel st1 n with
                | AStop w n2 => Solved w n2
                | ACont st2 => a_loop P C E afuel f st2
                | ACrash => Crash
                end
            end
          else a_loop P C E afuel f st1
      end
  end.

(** PriorityQueueSearch.h 33-72: the heuristic values of the initial node are 0. *)
Definition a_search {V} (P : problem) (C : config) (E : aenv V) (v0 : V) (afuel fuel : nat) : search_result :=
  match init_node P with
  | None => Crash
  | Some (w, n) =>
      match push_entry E {| t_world := w; t_fringe := []; t_vis := v0; t_rnd := 0 |} w v0 n (map (fun _ => 0) (a_hs E)) with
      | None => Crash
      | Some st => a_loop P C E afuel fuel st
      end
  end.

(** heuristics/hhZero.cpp, hhSimple.cpp: the simple heuristics. *)
Definition h_zero (w : world) (n : node) : option Z := Some 0.
Definition h_modDepth (invert : bool) (w : world) (n : node) : option Z := Some (Z.of_nat (n_depth n) * (if invert then -1 else 1)).
Definition h_mixedModDepth (invert : bool) (w : world) (n : node) : option Z := Some (Z.of_nat (n_mixed n) * (if invert then -1 else 1)).
Definition h_cost (invert : bool) (w : world) (n : node) : option Z := Some (Z.of_nat (n_cost n) * (if invert then -1 else 1)).
