(** Model of src/sat/sat_planner.cpp 297-480, 782-836 and 93-115 for partially ordered problems: the decomposition tree with the ordering graphs of its
    nodes (src/sat/sog.cpp 535-575), the formula of one depth, the search for increasing depths and the printed plan.
    Simplifications as in Pdt_model.v, Posog_model.v and Pom_model.v; in particular effectLessActionsInSeparateLeaf, sat_mutexes and the cost mode are
    off. Partially ordered problems are not pruned (sat_planner.cpp 345-383), so the set of pruned items is empty. *)
From Coq Require Import ZArith.
From Verif Require Import Base Htn_problem Sat_model Sf_model Sog_model Posog_model Pom_model Pdt_model.
From Verif Require Order_model.

Section Po.
Variables (P : problem) (C : sconf) (uord : list nat -> list nat).

(** Model.cpp 2986-2988: adj[a] *)
Definition succs_of (me : method) (a : nat) : list nat := map snd (filter (fun x => Nat.eqb (fst x) a) (m_ord me)).
(** Model.cpp 2998-3005, 3095: methodIsTotallyOrdered, given methodTotalOrder *)
Definition method_total (m : nat) : option bool :=
  me <- get (p_methods P) m ;;
  o <- get (s_mto C) m ;;
  Some (Order_model.consecutive (succs_of me) o).

(** sog.cpp 319-326: the edges of the ordering graph of totally ordered methods *)
Definition chain_adj (n : nat) : list (list nat) := map (fun i => seq (S i) (n - S i)) (seq 0 n).
Definition chain_bdj (n : nat) : list (list nat) := map (fun j => seq 0 j) (seq 0 n).
(** The successor lists of a graph given as a matrix (see Posog_model.v). *)
Definition rows (n : nat) (a : matrix) : list (list nat) := map (fun x => filter (fun y => a x y) (seq 0 n)) (seq 0 n).

(** sog.cpp 539-575 for the methods of the abstract tasks of a node: adj, bdj and methodSubTasksToVertices. *)
Definition node_sog (abs : list nat) : option (list (list nat) * list (list nat) * list (list nat)) :=
  let ms := map (fun '(m, _, _) => m) (s_sort C (gather P abs)) in
  bs <- omap method_total ms ;;
  match ms with
  | [] => Some ([], [], [])
  | _ =>
      if forallb (fun b => b) bs then '(n, asgs) <- to_sog P (s_mto C) ms ;; Some (chain_adj n, chain_bdj n, asgs)
      else '(g, asgs) <- po_sog P false (s_mto C) ms ;; Some (rows (g_n g) (g_adj g), rows (g_n g) (g_bdj g), asgs)
  end.

(** pdt.cpp 120-420 for a node that is not expanded and has abstract tasks *)
Definition po_expand_node (d : pnode) : option (pnode * list pdt) :=
  '(adj, _, asgs) <- node_sog (pn_abs d) ;;
  expand_with P d (s_sort C (gather P (pn_abs d))) (length adj) asgs.

(** pdt.cpp 441-453: the tree with its ordering graphs, as getLeafSOG reads it. The graph is a function of the abstract tasks of the node; it is
    recomputed here, while the code keeps it in the node. Leafs (pointers in the code) are numbered by [idx]. *)
Fixpoint otree_of (idx : list nat -> nat) (t : pdt) (q : list nat) {struct t} : option otree :=
  match t with
  | PNode d ch =>
      match ch with
      | [] => Some (OLeaf (idx q) (pn_prims d) (pn_abs d))
      | _ =>
          '(adj, bdj, _) <- node_sog (pn_abs d) ;;
          cs <- (fix go (l : list pdt) (i : nat) {struct l} : option (list otree) :=
                   match l with [] => Some [] | u :: r => x <- otree_of idx u (i :: q) ;; xs <- go r (S i) ;; Some (x :: xs) end) ch 0 ;;
          Some (ONode adj bdj cs)
      end
  end.
(** The number of a leaf: its position in the vector filled by getLeafs. *)
Fixpoint path_index (q : list nat) (ls : list (list nat * pnode)) : nat :=
  match ls with [] => 0 | (q', _) :: r => if list_eq_dec Nat.eq_dec q q' then 0 else S (path_index q r) end.

(** state_formula.cpp 232-239 *)
Definition no_abstract (ls : list (list nat * pnode)) : list clause := flat_map (fun x => flat_map assertNot (somes (pn_avar (snd x)))) ls.

(** leafOfNode[l]->possiblePrimitives together with primitiveVariable *)
Definition leaf_prims (d : pnode) : list (option Z * nat) := combine (pn_pvar d) (pn_prims d).

(** What printSolution uses (MatchingData): the leafs by vertex of the leaf graph, matching.vars, and the base of the matching variables. *)
Record matching := { k_leafs : list (list (option Z * nat)); k_adj : list (list nat); k_vars : list leaf; k_base : Z }.

(** sat_planner.cpp 297-480 (createFormulaForDepth): the tree, the number of variables, the matching and the formula *)
Definition create_po (depth : nat) (st : pdt * Z) : option (pdt * Z * matching * list clause) :=
  let '(t0, nv) := st in
  T <- expand_upto po_expand_node depth t0 ;;
  let '(T', nv1) := assign P [] T [] nv in
  '(c1, nv2) <- decomposition C [] T' [] nv1 ;;
  r <- get (pn_avar (dat T')) 0 ;;
  let ls := leafs T' [] in
  o <- otree_of (fun q => path_index q ls) T' [] ;;
  s <- leaf_sogs o ;;
  lfs <- omap (get ls) (l_leaf s) ;;
  let pls := map (fun x => leaf_prims (snd x)) lfs in
  '(vars, nv3, FG, nv4) <- po_formula P (s_bits C) uord false nv2 pls (l_adj s) ;;
  Some (T', nv4, {| k_leafs := pls; k_adj := l_adj s; k_vars := vars; k_base := nv3 |},
        c1 ++ assertYes (vlit r) ++ no_abstract ls ++ pruned_clauses [] T' [] ++ FG).

(** The state after the first [d] depths, and the formula of the next depth (as in Pdt_model.v) *)
Fixpoint po_state (d : nat) : option (pdt * Z) :=
  match d with
  | 0 => Some (pdt_root P, 0%Z)
  | S d' => st <- po_state d' ;; '(t, nv, _, _) <- create_po d st ;; Some (t, nv)
  end.
Definition po_encoding (d : nat) : option (pdt * Z * matching * list clause) := st <- po_state d ;; create_po (S d) st.

(** sat_planner.cpp 93-115: the leafs printed and their tasks *)
Definition po_plan (val : Z -> bool) (k : matching) : list nat :=
  flat_map (fun l => match output_task val (nth l (k_leafs k) []) with Some a => [a] | None => [] end) (printed (k_leafs k) (k_vars k) (k_base k) val).

(** sat_planner.cpp 782-836, as in Pdt_model.v *)
Fixpoint po_search (solver : list clause -> option (Z -> bool)) (rounds : nat) (depth : nat) (st : pdt * Z) : option (option (list nat)) :=
  match rounds with
  | 0 => Some None
  | S rounds' =>
      '(T, nv, k, cl) <- create_po depth st ;;
      match solver cl with
      | Some val => Some (Some (po_plan val k))
      | None => po_search solver rounds' (S depth) (T, nv)
      end
  end.
Definition solve_po (solver : list clause -> option (Z -> bool)) (rounds : nat) : option (option (list nat)) :=
  po_search solver rounds 1 (pdt_root P, 0%Z).
End Po.
