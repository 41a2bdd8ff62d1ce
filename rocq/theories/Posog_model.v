(** Model of src/sat/sog.cpp 8-172 and 590-722 and of src/sat/pdt.cpp 441-453: the ordering graphs ("SOGs") of partially ordered
    decomposition trees.
    The adjacency vectors (vector<unordered_set<uint16_t>>) are boolean matrices as in [Order_model]; writing to a row that does not exist is [None].
    Simplifications: vertex numbers do not overflow uint16_t; the methods are given in the order produced by the sort of lines 549-551. *)
From Verif Require Import Base Htn_problem.
From Verif Require Order_model.
Notation matrix := Order_model.matrix.
Notation mset := Order_model.mset.
Notation grid := Order_model.grid.

Definition empty_matrix : matrix := fun _ _ => false.

(** ** sog.cpp 590-613: removeTransitiveOrderings *)

(** 597-599: [trans[j][nei] = true]; a neighbour beyond the number of vertices is a write outside of the row. *)
Definition rt_fill (adj : list (list nat)) : option matrix :=
  ofold (fun t j => ns <- get adj j ;;
                    ofold (fun t nei => if Nat.ltb nei (length adj) then Some (mset t j nei true) else None) ns t)
        (seq 0 (length adj)) empty_matrix.
(** 601-604: [adj] is only read in this loop *)
Definition rt_clear (adj : list (list nat)) (t : matrix) : option matrix :=
  ofold (fun t k => ofold (fun t '(x, y) => ax <- get adj x ;; ak <- get adj k ;;
                                          Some (if memb k ax && memb y ak then mset t x y false else t))
                          (grid (length adj)) t)
        (seq 0 (length adj)) t.
(** 590-613: the new adjacency sets *)
Definition remove_transitive (adj : list (list nat)) : option (list (list nat)) :=
  t <- rt_fill adj ;;
  t' <- rt_clear adj t ;;
  Some (map (fun x => filter (fun y => t' x y) (seq 0 (length adj))) (seq 0 (length adj))).

(** ** sog.cpp 616-655: successor sets (and predecessor sets, the same code on bdj) *)

(** visited flags and successorSet *)
Record ds := { d_vis : list bool; d_set : list (list nat) }.
Definition union (a b : list nat) : list nat := fold_left (fun a x => if memb x a then a else x :: a) b a.
(** 616-626 / 638-648; the recursion depth is bounded by [fuel] *)
Fixpoint dfs (fuel : nat) (adj : list (list nat)) (n : nat) (s : ds) : option ds :=
  match fuel with
  | 0 => None
  | S f =>
      b <- get (d_vis s) n ;;
      if (b : bool) then Some s
      else
        vis' <- set (d_vis s) n true ;;
        l <- get (d_set s) n ;;
        set' <- set (d_set s) n (union l [n]) ;;
        ns <- get adj n ;;
        ofold (fun s nei =>
                 s' <- dfs f adj nei s ;;
                 ln <- get (d_set s') nei ;;
                 l <- get (d_set s') n ;;
                 st <- set (d_set s') n (union l ln) ;;
                 Some {| d_vis := d_vis s'; d_set := st |}) ns {| d_vis := vis'; d_set := set' |}
  end.
(** 628-635 / 650-657 *)
Definition reach_sets (adj : list (list nat)) : option (list (list nat)) :=
  s <- ofold (fun s i => dfs (S (length adj)) adj i s) (seq 0 (length adj))
             {| d_vis := repeat false (length adj); d_set := repeat [] (length adj) |} ;;
  Some (d_set s).

(** ** sog.cpp 8-172: runPOSOGOptimiser *)

(** sog.h 11-33 together with the local variables antiAdj, antiBdj and vertices_for_effectless_actions *)
Record posog := { g_n : nat; g_labels : list (list nat); g_adj : matrix; g_bdj : matrix; g_aadj : matrix; g_abdj : matrix; g_eff : list nat }.

Section Po.
Context (P : problem).

(** 24, 56: task < numActions && numAdds[task] == 0 && numDels[task] == 0 *)
Definition effectless (t : nat) : option bool :=
  if nth t (p_prim P) false then a <- get (p_add P) t ;; d <- get (p_del P) t ;; Some (Nat.eqb (length a) 0 && Nat.eqb (length d) 0)
  else Some false.

(** Model.cpp 3099-3104: b in methodSubTasksSuccessors[m][a], equivalently a in methodSubTasksPredecessors[m][b] *)
Definition before (me : method) (a b : nat) : bool := existsb (fun '(x, y) => Nat.eqb x a && Nat.eqb y b) (m_ord me).

(** 20-25 *)
Definition first_eff (subs : list nat) : option (list nat) :=
  ofold (fun l i => t <- get subs i ;; e <- effectless t ;; Some (if (e : bool) then i :: l else l)) (seq 0 (length subs)) [].
(** 30-34 *)
Definition first_adj (n : nat) (ord : list (nat * nat)) : option (matrix * matrix) :=
  ofold (fun '(a, b) '(x, y) => if Nat.ltb x n && Nat.ltb y n then Some (mset a x y true, mset b y x true) else None) ord (empty_matrix, empty_matrix).
(** 35-42 *)
Definition first_anti (n : nat) (adj : matrix) : matrix * matrix :=
  fold_left (fun '(a, b) '(i, j) => if Nat.eqb i j then (a, b) else if adj i j then (a, b) else (mset a i j true, mset b j i true)) (grid n) (empty_matrix, empty_matrix).
(** 11-42: the first method *)
Definition po_first (m0 : nat) : option (posog * list nat) :=
  me <- get (p_methods P) m0 ;;
  let n := length (m_subs me) in
  e <- first_eff (m_subs me) ;;
  '(a, b) <- first_adj n (m_ord me) ;;
  let '(aa, ab) := first_anti n a in
  Some ({| g_n := n; g_labels := map (fun t => [t]) (m_subs me); g_adj := a; g_bdj := b; g_aadj := aa; g_abdj := ab; g_eff := e |}, seq 0 n).

(** 66-85: may the subtask [sub] be put on the vertex [v], given the vertices of the subtasks [others] treated before? *)
Fixpoint po_fits (g : posog) (me : method) (mapping : list nat) (sub v : nat) (others : list nat) : option bool :=
  match others with
  | [] => Some true
  | o :: r =>
      ov <- get mapping o ;;
      let bad := if before me sub o then g_bdj g v ov || g_aadj g v ov
                 else if before me o sub then g_adj g v ov || g_abdj g v ov
                 else g_adj g v ov || g_bdj g v ov in
      if bad then Some false else po_fits g me mapping sub v r
  end.
(** 60-89: matchingVertices; [sep] is effectLessActionsInSeparateLeaf *)
Fixpoint po_cands (sep : bool) (g : posog) (me : method) (mapping taken others : list nat) (sub : nat) (e : bool) (vs : list nat) : option (list nat) :=
  match vs with
  | [] => Some []
  | v :: r =>
      ok <- (if memb v taken then Some false
             else if sep && negb (Bool.eqb e (memb v (g_eff g))) then Some false
             else po_fits g me mapping sub v others) ;;
      rest <- po_cands sep g me mapping taken others sub e r ;;
      Some (if (ok : bool) then v :: rest else rest)
  end.
(** 91-102: a new vertex without edges *)
Definition po_grow (g : posog) : posog :=
  {| g_n := S (g_n g); g_labels := g_labels g ++ [[]]; g_adj := g_adj g; g_bdj := g_bdj g; g_aadj := g_aadj g; g_abdj := g_abdj g; g_eff := g_eff g |}.
(** 110-116: the first candidate that carries the task as label, otherwise the first candidate *)
Fixpoint po_labelled (labels : list (list nat)) (t : nat) (cs : list nat) : option (option nat) :=
  match cs with
  | [] => Some None
  | x :: r => ls <- get labels x ;; if memb t ls then Some (Some x) else po_labelled labels t r
  end.
Definition po_choose (labels : list (list nat)) (t : nat) (cs : list nat) : option nat :=
  o <- po_labelled labels t cs ;; match o with Some v => Some v | None => get cs 0 end.
(** 143-165: edges and anti-edges between the vertex [v] of [sub] and the vertex of an earlier subtask [o] *)
Definition po_edge (me : method) (mapping : list nat) (sub v : nat) (g : posog) (o : nat) : option posog :=
  ov <- get mapping o ;;
  if negb (Nat.ltb v (g_n g) && Nat.ltb ov (g_n g)) then None
  else Some (if before me sub o then
               {| g_n := g_n g; g_labels := g_labels g; g_adj := mset (g_adj g) v ov true; g_bdj := mset (g_bdj g) ov v true;
                  g_aadj := mset (g_aadj g) ov v true; g_abdj := mset (g_abdj g) v ov true; g_eff := g_eff g |}
             else if before me o sub then
               {| g_n := g_n g; g_labels := g_labels g; g_adj := mset (g_adj g) ov v true; g_bdj := mset (g_bdj g) v ov true;
                  g_aadj := mset (g_aadj g) v ov true; g_abdj := mset (g_abdj g) ov v true; g_eff := g_eff g |}
             else
               {| g_n := g_n g; g_labels := g_labels g; g_adj := g_adj g; g_bdj := g_bdj g;
                  g_aadj := mset (mset (g_aadj g) v ov true) ov v true; g_abdj := mset (mset (g_abdj g) v ov true) ov v true; g_eff := g_eff g |}).
(** 138-141: label and effectless mark of the chosen vertex *)
Definition po_label (g : posog) (v t : nat) (e : bool) : option posog :=
  ls <- get (g_labels g) v ;;
  labels' <- set (g_labels g) v (if memb t ls then ls else t :: ls) ;;
  Some {| g_n := g_n g; g_labels := labels'; g_adj := g_adj g; g_bdj := g_bdj g; g_aadj := g_aadj g; g_abdj := g_abdj g;
          g_eff := if e then v :: g_eff g else g_eff g |}.
(** 51-167: one subtask; [others] are the subtasks treated before *)
Definition po_sub (sep : bool) (me : method) (others : list nat) (sub : nat) (s : posog * list nat * list nat) : option (posog * list nat * list nat) :=
  let '(g, mapping, taken) := s in
  t <- get (m_subs me) sub ;;
  e <- effectless t ;;
  cs <- po_cands sep g me mapping taken others sub e (seq 0 (g_n g)) ;;
  let '(g1, cs1) := match cs with [] => (po_grow g, [g_n g]) | _ => (g, cs) end in
  v <- po_choose (g_labels g1) t cs1 ;;
  mapping' <- set mapping sub v ;;
  g2 <- po_label g1 v t e ;;
  g3 <- ofold (po_edge me mapping' sub v) others g2 ;;
  Some (g3, mapping', v :: taken).
Fixpoint po_subs (sep : bool) (me : method) (others todo : list nat) (s : posog * list nat * list nat) : option (posog * list nat * list nat) :=
  match todo with
  | [] => Some s
  | sub :: r => s' <- po_sub sep me others sub s ;; po_subs sep me (others ++ [sub]) r s'
  end.
(** 46-168: one further method; [mto] is htn->methodTotalOrder *)
Definition po_method (sep : bool) (mto : list (list nat)) (g : posog) (m : nat) : option (posog * list nat) :=
  me <- get (p_methods P) m ;;
  o <- get mto m ;;
  idx <- omap (get o) (seq 0 (length (m_subs me))) ;;
  '(g', mapping, _) <- po_subs sep me [] idx (g, repeat 0 (length (m_subs me)), []) ;;
  Some (g', mapping).
Fixpoint po_methods (sep : bool) (mto : list (list nat)) (g : posog) (ms : list nat) : option (posog * list (list nat)) :=
  match ms with
  | [] => Some (g, [])
  | m :: r => '(g1, mp) <- po_method sep mto g m ;; '(g2, mps) <- po_methods sep mto g1 r ;; Some (g2, mp :: mps)
  end.
(** 8-172; only called with at least one method (544) *)
Definition po_sog (sep : bool) (mto : list (list nat)) (ms : list nat) : option (posog * list (list nat)) :=
  match ms with
  | [] => None
  | m0 :: r => '(g, mp) <- po_first m0 ;; '(g', mps) <- po_methods sep mto g r ;; Some (g', mp :: mps)
  end.
End Po.

(** ** sog.cpp 658-722 and pdt.cpp 441-453: the ordering graph of the leafs *)

(** labels, leafOfNode (identified by a number) and the edges in both directions *)
Record lsog := { l_labels : list (list nat); l_leaf : list nat; l_adj : list (list nat); l_bdj : list (list nat) }.
Definition l_n (s : lsog) : nat := length (l_leaf s).

(** 658-671: generateSOGForLeaf *)
Definition leaf_sog (id : nat) (prims abs : list nat) : lsog :=
  {| l_labels := [union (union [] prims) abs]; l_leaf := [id]; l_adj := [[]]; l_bdj := [[]] |}.

(** 679-686: [mapping], consecutive numbers for the vertices of the parts *)
Fixpoint ex_mapping (sizes : list nat) (cur : nat) : list (list nat) :=
  match sizes with [] => [] | n :: r => seq cur n :: ex_mapping r (cur + n) end.
Definition ins (l : list (list nat)) (x y : nat) : option (list (list nat)) :=
  r <- get l x ;; set l x (if memb y r then r else y :: r).
(** 695-704: the edges of the parts *)
Definition ex_inner (mapping : list (list nat)) (parts : list (list (list nat))) (acc : list (list nat)) : option (list (list nat)) :=
  ofold (fun acc i => part <- get parts i ;; mp <- get mapping i ;;
           ofold (fun acc j => ns <- get part j ;;
                    ofold (fun acc nei => x <- get mp j ;; y <- get mp nei ;; ins acc x y) ns acc)
                 (seq 0 (length mp)) acc)
        (seq 0 (length parts)) acc.
(** 707-717: all pairs for an edge of the outer graph *)
Definition ex_outer (mapping : list (list nat)) (outer : list (list nat)) (acc : list (list nat)) : option (list (list nat)) :=
  ofold (fun acc i => ns <- get outer i ;; mi <- get mapping i ;;
           ofold (fun acc nei => mn <- get mapping nei ;;
                    ofold (fun acc '(x, y) => ins acc x y) (list_prod mi mn) acc) ns acc)
        (seq 0 (length outer)) acc.
(** 675-722: expandSOG. [n], [adj] and [bdj] belong to the outer graph; the assertion of line 676 (one part per vertex) is inactive in
    release builds: [mapping] has n rows, so a superfluous part is a write outside of [mapping] (683), and a missing part leaves an empty row. *)
Definition expand_sog (adj bdj : list (list nat)) (parts : list lsog) : option lsog :=
  if Nat.ltb (length adj) (length parts) then None
  else
    let mapping := ex_mapping (map l_n parts) 0 ++ repeat [] (length adj - length parts) in
    let n := fold_left Nat.add (map l_n parts) 0 in
    a1 <- ex_inner mapping (map l_adj parts) (repeat [] n) ;;
    a2 <- ex_outer mapping adj a1 ;;
    b1 <- ex_inner mapping (map l_bdj parts) (repeat [] n) ;;
    b2 <- ex_outer mapping bdj b1 ;;
    a3 <- remove_transitive a2 ;;
    Some {| l_labels := flat_map l_labels parts; l_leaf := flat_map l_leaf parts; l_adj := a3; l_bdj := b2 |}.

(** A decomposition tree reduced to what getLeafSOG looks at: a leaf without SOG, or a node with its SOG (adj, bdj) and its children.
    Simplification: a node with a SOG but without children (an abstract task without methods, finding F3) is not considered. *)
Inductive otree := OLeaf (id : nat) (prims abs : list nat) | ONode (adj bdj : list (list nat)) (children : list otree).
(** pdt.cpp 441-453 *)
Fixpoint leaf_sogs (t : otree) : option lsog :=
  match t with
  | OLeaf id prims abs => Some (leaf_sog id prims abs)
  | ONode adj bdj cs =>
      parts <- (fix go (l : list otree) : option (list lsog) :=
                  match l with [] => Some [] | c :: r => p <- leaf_sogs c ;; ps <- go r ;; Some (p :: ps) end) cs ;;
      expand_sog adj bdj parts
  end.
