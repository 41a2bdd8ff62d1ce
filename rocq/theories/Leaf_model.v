(** Model of the option methodPreconditionsInSeparateLeafs (effectLessActionsInSeparateLeaf, SearchEngine.cpp 456): actions without effects get
    leaves of their own. src/sat/sog.cpp 261-318 (totally ordered methods), src/sat/pdt.cpp 287-318 (inheritance of primitives), and one depth of the SAT
    planner with this option (src/sat/sat_planner.cpp 297-500).
    Simplifications as in Sog_model.v and Pdt_model.v; adj and bdj of a totally ordered SOG are not modelled (they are resized to the number of
    vertices in 319-320). *)
From Coq Require Import ZArith.
From Verif Require Import Base Htn_problem Sat_model Sf_model Sog_model Posog_model Pdt_model Pp_model.

Section Leaf.
Variables (P : problem) (C : sconf).

(** ** sog.cpp 261-318 *)

(** 267-268: the first vertex from [v] on, among [k] ones, that is of the kind of the action *)
Fixpoint cp_find (e : bool) (eff : list nat) (v k : nat) : option nat :=
  match k with
  | 0 => None
  | S k' => if Bool.eqb e (memb v eff) then Some v else cp_find e eff (S v) k'
  end.
(** Labels, effectlessVertices, methodSubTasksToVertices[sequenceID] and lastMacthing + 1; numberOfVertices is the number of label sets. *)
Definition cp_state := (list (list nat) * list nat * list nat * nat)%type.
(** 263-286: the task [fst x] of the sequence, its index in the method is [snd x] *)
Definition cp_task (s : cp_state) (x : nat * nat) : option cp_state :=
  let '(labels, eff, asg, next) := s in
  let '(task, mp) := x in
  e <- effectless P task ;;
  match cp_find e eff next (length labels - next) with
  | Some v =>
      ls <- get labels v ;;
      labels' <- set labels v (if memb task ls then ls else task :: ls) ;;
      asg' <- set asg mp v ;;
      Some (labels', eff, asg', S v)
  | None =>
      let v := length labels in
      asg' <- set asg mp v ;;
      Some (labels ++ [[task]], if (e : bool) then v :: eff else eff, asg', S v)
  end.
(** 261-288 *)
Definition addCompactSequenceToSOG (labels : list (list nat)) (eff sq match_pos asg : list nat) : option (list (list nat) * list nat * list nat) :=
  '(labels', eff', asg', _) <- ofold cp_task (combine sq match_pos) (labels, eff, asg, 0) ;;
  Some (labels', eff', asg').

(** 301-317: one method *)
Definition cp_place (labels : list (list nat)) (eff : list nat) (m : nat) : option (list (list nat) * list nat * list nat) :=
  me <- get (p_methods P) m ;;
  o <- get (s_mto C) m ;;
  idx <- omap (get o) (seq 0 (length (m_subs me))) ;;
  sq <- omap (get (m_subs me)) idx ;;
  addCompactSequenceToSOG labels eff sq idx (repeat 0 (length (m_subs me))).
Fixpoint cp_places (labels : list (list nat)) (eff ms : list nat) : option (list (list nat) * list (list nat)) :=
  match ms with
  | [] => Some (labels, [])
  | m :: r =>
      '(labels1, eff1, asg) <- cp_place labels eff m ;;
      '(labels2, rest) <- cp_places labels1 eff1 r ;;
      Some (labels2, asg :: rest)
  end.
(** 294-318, 545-548: the labels of the vertices and methodSubTasksToVertices; at first there are as many unlabelled vertices as the first method has subtasks *)
Definition compact_sog (ms : list nat) : option (list (list nat) * list (list nat)) :=
  match ms with
  | [] => Some ([], [])
  | m :: _ => me <- get (p_methods P) m ;; cp_places (repeat [] (length (m_subs me))) [] ms
  end.

(** ** pdt.cpp 287-318 *)

(** 291, 297: numAdds[t] == 0 && numDels[t] == 0. The arrays have one entry per action; an abstract task is an access outside of them. *)
Definition no_eff (t : nat) : option bool :=
  a <- get (p_add P) t ;; d <- get (p_del P) t ;; Some (Nat.eqb (length a) 0 && Nat.eqb (length d) 0).
(** 293-311, among the children [cs]; childrenTasks[c].begin() is the smallest task. [Some None]: no child is selected (315-318, the program ends). *)
Fixpoint pick_child (e : bool) (occ : list (nat * nat * (nat * nat))) (cs : list nat) : option (option nat) :=
  match cs with
  | [] => Some None
  | c :: r =>
      match child_tasks occ c with
      | [] => Some (Some c)
      | t :: _ => e' <- no_eff t ;; if Bool.eqb e' e then Some (Some c) else pick_child e occ r
      end
  end.
(** None for undefined behaviour and for the end of the program *)
Definition leaf_picker : picker := fun n occ p => e <- no_eff p ;; o <- pick_child e occ (seq 0 n) ;; o.

(** pdt.cpp 120-420 and sog.cpp 539-575 for a totally ordered problem *)
Definition leaf_expand (d : pnode) : option (pnode * list pdt) :=
  let ms := s_sort C (gather P (pn_abs d)) in
  '(labels, asgs) <- compact_sog (map (fun '(m, _, _) => m) ms) ;;
  expand_pick P leaf_picker d ms (length labels) asgs.

(** ** The formula of one depth, as in Pdt_model.v *)

(** sat_planner.cpp 297-500 *)
Definition create_leaf (ff bc : bool) (depth : nat) (st : pdt * Z) : option (pdt * Z * option (list clause)) :=
  let '(t0, nv) := st in
  T <- expand_upto leaf_expand depth t0 ;;
  F <- prune P ff T ;;
  if marked F (IA [] 0) then Some (T, nv, None)
  else
    let '(T', nv1) := assign P F T [] nv in
    '(c1, nv2) <- decomposition C F T' [] nv1 ;;
    r <- get (pn_avar (dat T')) 0 ;;
    let ls := leafs T' [] in
    let atoms := map (fun x => leaf_atoms (snd x)) ls in
    blocks <- (if bc then block_compression P (map (leaf_unpruned F) ls) else Some (unit_blocks atoms)) ;;
    '(c3, nv3) <- state_formula P nv2 atoms blocks ;;
    Some (T', nv3, Some (c1 ++ assertYes (vlit r) ++ pruned_clauses F T' [] ++ c3)).
(** sat_planner.cpp 790-850 *)
Fixpoint leaf_state (ff bc : bool) (d : nat) : option (pdt * Z) :=
  match d with
  | O => Some (pdt_root P, 0%Z)
  | S d' => st <- leaf_state ff bc d' ;; '(t, nv, _) <- create_leaf ff bc d st ;; Some (t, nv)
  end.
Definition leaf_formula (ff bc : bool) (d : nat) : option (pdt * Z * option (list clause)) :=
  st <- leaf_state ff bc d ;; create_leaf ff bc (S d) st.
(** sat_planner.cpp 782-836; the result is None for undefined behaviour and Some None if no plan was found up to the last depth *)
Fixpoint leaf_search (solver : list clause -> option (Z -> bool)) (ff bc : bool) (rounds : nat) (depth : nat) (st : pdt * Z) : option (option (list nat)) :=
  match rounds with
  | O => Some None
  | S rounds' =>
      '(T, nv, o) <- create_leaf ff bc depth st ;;
      match (match o with Some cl => solver cl | None => None end) with
      | Some val => Some (Some (sat_plan val T))
      | None => leaf_search solver ff bc rounds' (S depth) (T, nv)
      end
  end.
Definition solve_leaf (solver : list clause -> option (Z -> bool)) (ff bc : bool) (rounds : nat) : option (option (list nat)) :=
  leaf_search solver ff bc rounds 1 (pdt_root P, 0%Z).

(** ** Partially ordered problems *)

(** sog.cpp 539-575 and pdt.cpp 120-420: the labels and positions of the methods, and the expansion of a node *)
Definition po_leaf_sog (abs : list nat) : option (list (list nat) * list (list nat)) :=
  let ms := map (fun '(m, _, _) => m) (s_sort C (gather P abs)) in
  bs <- omap (method_total P C) ms ;;
  match ms with
  | [] => Some ([], [])
  | _ => if forallb (fun b => b) bs then compact_sog ms
         else '(g, asgs) <- po_sog P true (s_mto C) ms ;; Some (g_labels g, asgs)
  end.
Definition po_leaf_expand (d : pnode) : option (pnode * list pdt) :=
  '(labels, asgs) <- po_leaf_sog (pn_abs d) ;;
  expand_pick P leaf_picker d (s_sort C (gather P (pn_abs d))) (length labels) asgs.

(** state_formula.cpp 262-274: some leaf with actions of both kinds ends the program *)
Definition mixed_leaf (d : pnode) : option bool :=
  es <- omap no_eff (pn_prims d) ;; Some (existsb (fun e => e) es && existsb negb es).
End Leaf.
