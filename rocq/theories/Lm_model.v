(** Model of the AND/OR landmark generator src/heuristics/landmarks/lmExtraction/LmCausal.cpp and of its nodes (lmDataStructures: LmAoNode). The queues are
    the model of IntPairHeap (C21), unionSet (noDelIntSet, C22) is a duplicate free list in the order of insertion, sorting and searching are those of IntUtil
    (C28). An access outside an array and an overflow of int are [None]. Not modelled: the debug code (NDEBUG), the output, the counters, and
    the algorithm computing nodeToSCC ([scc] is arbitrary: it only influences the order in which nodes are processed). *)
From Verif Require Import Base Htn_problem Heap_model IntUtil_model Pg_model.
Local Open Scope Z_scope.

(** LmAoNode.h 22-29: containsFullSet, numLMs, lms (lmContainerSize is the length). maxSize is the number of nodes, ownIndex the index. *)
Record lmnode := { n_full : bool; n_num : nat; n_lms : list Z }.

(** LmAoNode.h 10 *)
Inductive lmtype := INIT | AND | OR.

(** affectedBy, affectedNodes and nodeType of all nodes *)
Record aog := { g_by : list (list nat); g_aff : list (list nat); g_ty : list lmtype }.

(** LmCausal.cpp 286-290 *)
Definition fNode (f : nat) : nat := f.
Definition tNode (P : problem) (t : nat) : nat := (p_nfacts P + t)%nat.
Definition mNode (P : problem) (m : nat) : nat := (p_nfacts P + length (p_prim P) + m)%nat.
(** LmCausal.cpp 13 *)
Definition numNodes (P : problem) : nat := (p_nfacts P + length (p_prim P) + length (p_methods P))%nat.

(** LmCausal.cpp 43-72: the edges in the order in which they are added; [dst] is sortedDistinctSubtasks. *)
Definition ao_edges (P : problem) (dst : list (list nat)) : list (nat * nat) :=
  flat_map (fun a => map (fun f => (fNode f, tNode P a)) (nth a (p_prec P) []) ++ map (fun f => (tNode P a, fNode f)) (nth a (p_add P) []))
    (seq 0 (length (p_cost P))) ++
  flat_map (fun im => (mNode P (fst im), tNode P (m_task (snd im))) :: map (fun st => (tNode P st, mNode P (fst im))) (nth (fst im) dst []))
    (combine (seq 0 (length (p_methods P))) (p_methods P)).

(** vector::push_back on the [i]-th vector *)
Definition push (N : list (list nat)) (i v : nat) : option (list (list nat)) := l <- get N i ;; set N i (l ++ [v]).

(** LmCausal.cpp 22-37 *)
Definition base_type (P : problem) (precless : list nat) (i : nat) : lmtype :=
  if (i <? p_nfacts P)%nat then OR
  else if (i <? tNode P (length (p_prim P)))%nat then
    if memb (i - p_nfacts P) precless then INIT else if (i <? tNode P (length (p_cost P)))%nat then AND else OR
  else AND.

(** LmCausal.cpp 22-90 *)
Definition ao_graph (P : problem) (precless : list nat) (dst : list (list nat)) : option aog :=
  '(N, Ninv) <- ofold (fun '(N, Ninv) '(u, v) => N' <- push N u v ;; Ninv' <- push Ninv v u ;; Some (N', Ninv')) (ao_edges P dst)
    (repeat [] (numNodes P), repeat [] (numNodes P)) ;;
  Some {| g_by := Ninv; g_aff := N; g_ty := map (base_type P precless) (seq 0 (numNodes P)) |}.

Section LM.
Variables (al : nat -> list Z) (nn : nat) (rch : list bool).

(** LmAoNode.cpp 7-13 *)
Definition getSize (n : lmnode) : nat := if n_full n then nn else n_num n.

(** LmAoNode.cpp 15-21 *)
Definition contains (n : lmnode) (lm : Z) : option bool := if n_full n then Some true else containsInt (n_lms n) 0 (n_num n) lm.

(** LmCausal.cpp 602-621 *)
Definition ensureSizeCopy (l : list Z) (size : nat) : list Z := if (length l <? size)%nat then l ++ repeat (-1) (size * 2 - length l) else l.

(** LmCausal.cpp 623-633 *)
Definition resizeNOCOPY (l : list Z) (size : nat) : list Z := if (length l <? size)%nat then repeat (-1) size else l.

(** LmCausal.cpp 386-390, 532-536, 540-544, 549-553: comparing and writing the cell [i]; the container, the next index and the flag changed *)
Definition write (v : Z) (x : list Z * nat * bool) : option (list Z * nat * bool) :=
  let '(l, i, ch) := x in
  w <- get l i ;;
  if w =? v then Some (l, S i, ch) else l' <- set l i v ;; Some (l', S i, true).

(** noDelIntSet::insert on a set of size [nn] *)
Definition zinsert (l : list Z) (v : Z) : option (list Z) :=
  if (0 <=? v) && (v <? Z.of_nat nn) then Some (if existsb (Z.eqb v) l then l else l ++ [v]) else None.

(** LmCausal.cpp 346-358: [None] inside if there is a full set *)
Fixpoint collect (nodes : list lmnode) (combine : list nat) : option (option (list nat)) :=
  match combine with
  | [] => Some (Some [])
  | c :: r =>
      b <- get rch c ;;
      if b : bool then
        n <- get nodes c ;;
        if n_full n then Some None else o <- collect nodes r ;; Some (match o with None => None | Some l => Some (c :: l) end)
      else collect nodes r
  end.

(** LmCausal.cpp 365, 581: whether the set is not already the node itself *)
Definition not_self (own : nat) (u : lmnode) : option bool :=
  if negb (n_full u) && (n_num u =? 1)%nat then w <- get (n_lms u) 0 ;; Some (negb (w =? Z.of_nat own)) else Some true.

(** LmCausal.cpp 378-380: inserting the landmarks of a node *)
Definition insert_lms (n : lmnode) (u : list Z) : option (list Z) := ofold (fun u j => v <- get (n_lms n) j ;; zinsert u v) (seq 0 (n_num n)) u.

(** LmCausal.cpp 306-416 *)
Definition setUnion (nodes : list lmnode) (own : nat) (combine : list nat) : option (bool * lmnode) :=
  u <- get nodes own ;;
  idx <- collect nodes combine ;;
  match idx with
  | None => Some (negb (n_full u), {| n_full := true; n_num := n_num u; n_lms := n_lms u |})
  | Some [] =>
      ch <- not_self own u ;;
      l <- set (resizeNOCOPY (n_lms u) 1) 0 (Z.of_nat own) ;;
      Some (ch, {| n_full := false; n_num := 1; n_lms := l |})
  | Some indices =>
      s0 <- zinsert [] (Z.of_nat own) ;;
      s1 <- ofold (fun s c => n <- get nodes c ;; insert_lms n s) indices s0 ;;
      s2 <- sort s1 0 (length s1) ;;
      '(l, _, ch) <- ofold (fun x v => write v x) s2 (resizeNOCOPY (n_lms u) (length s2), O, false) ;;
      Some (ch || negb (n_num u =? length s2)%nat, {| n_full := false; n_num := length s2; n_lms := l |})
  end.

(** LmCausal.cpp 486-498: the queue is filled, then emptied *)
Definition fill (nodes : list lmnode) (combine : list nat) (h : heap) : option heap :=
  ofold (fun h c => b <- get rch c ;; if b : bool then n <- get nodes c ;; heap_add al h (Z.of_nat (getSize n)) (Z.of_nat c) else Some h) combine h.

Fixpoint drain (k : nat) (h : heap) : option (list nat * heap) :=
  match k with
  | O => Some ([], h)
  | S k' => v <- heap_topVal h ;; h' <- heap_pop h ;; '(l, h'') <- drain k' h' ;; Some (Z.to_nat v :: l, h'')
  end.

(** LmCausal.cpp 521-526 *)
Fixpoint all_contain (nodes : list lmnode) (l : list nat) (lm : Z) : option bool :=
  match l with
  | [] => Some true
  | c :: r => n <- get nodes c ;; b <- contains n lm ;; if b : bool then all_contain nodes r lm else Some false
  end.

(** ensureSizeCopy and write *)
Definition put (v : Z) (x : list Z * nat * bool) : option (list Z * nat * bool) :=
  let '(l, i, ch) := x in write v (ensureSizeCopy l (i + 1), i, ch).

(** LmCausal.cpp 514-546: one landmark of the smallest set; the flag is addedOwnIndex *)
Definition inter_step (nodes : list lmnode) (own : nat) (others : list nat) (x : list Z * nat * bool * bool) (lm : Z) : option (list Z * nat * bool * bool) :=
  let '(y, added) := x in
  '(contained, added) <- (if lm =? Z.of_nat own then Some (true, true) else b <- all_contain nodes others lm ;; Some (b, added)) ;;
  '(y, added) <- (if negb added && (Z.of_nat own <? lm) then y' <- put (Z.of_nat own) y ;; Some (y', true) else Some (y, added)) ;;
  if contained : bool then y' <- put lm y ;; Some (y', added) else Some (y, added).

(** LmCausal.cpp 430-578 *)
Definition setIntersection (nodes : list lmnode) (own : nat) (combine : list nat) (h : heap) : option (bool * lmnode * heap) :=
  u <- get nodes own ;;
  h1 <- fill nodes combine (heap_clear h) ;;
  '(indices, h2) <- drain (heap_size h1) h1 ;;
  match indices with
  | [] => Some (negb (n_full u), {| n_full := true; n_num := n_num u; n_lms := n_lms u |}, h2)
  | c :: others =>
      n <- get nodes c ;;
      if n_full n then Some (negb (n_full u), {| n_full := true; n_num := n_num u; n_lms := n_lms u |}, h2)
      else
        '(y, added) <- ofold (fun x j => lm <- get (n_lms n) j ;; inter_step nodes own others x lm) (seq 0 (n_num n)) (n_lms u, O, false, false) ;;
        '(l, r, ch) <- (if added : bool then Some y else put (Z.of_nat own) y) ;;
        Some (ch || negb (n_num u =? r)%nat, {| n_full := false; n_num := r; n_lms := l |}, h2)
  end.

(** LmCausal.cpp 580-600 *)
Definition setToSelfLM (nodes : list lmnode) (own : nat) : option (bool * lmnode) :=
  u <- get nodes own ;;
  ch <- not_self own u ;;
  if ch : bool then l <- set (ensureSizeCopy (n_lms u) 1) 0 (Z.of_nat own) ;; Some (true, {| n_full := false; n_num := 1; n_lms := l |})
  else Some (false, u).

(** nodes, alreadyIn, heap, setOperationHeap *)
Record lmst := { l_nodes : list lmnode; l_in : list bool; l_heap : heap; l_soh : heap }.

(** LmCausal.cpp 158-159, 168-169, 199-204 *)
Definition enqueue (k : Z) (i : nat) (x : lmst) : option lmst :=
  h <- heap_add al (l_heap x) k (Z.of_nat i) ;;
  b <- set (l_in x) i true ;;
  Some {| l_nodes := l_nodes x; l_in := b; l_heap := h; l_soh := l_soh x |}.

(** LmCausal.cpp 192-206; [size] is n->getSize() *)
Definition affect (scc : list Z) (size : nat) (x : lmst) (i : nat) : option lmst :=
  b <- get rch i ;;
  a <- get (l_in x) i ;;
  if b && negb a then
    c <- get scc i ;;
    let k := c * 10000 + Z.of_nat size in
    if (int_min <=? c * 10000) && (c * 10000 <=? INT_MAX) && (int_min <=? k) && (k <=? INT_MAX) then enqueue k i x else None
  else Some x.

(** LmCausal.cpp 181-188 *)
Definition update (g : aog) (x : lmst) (i : nat) : option (bool * lmnode * heap) :=
  t <- get (g_ty g) i ;;
  by_ <- get (g_by g) i ;;
  match t with
  | AND => '(ch, n) <- setUnion (l_nodes x) i by_ ;; Some (ch, n, l_soh x)
  | OR => setIntersection (l_nodes x) i by_ (l_soh x)
  | INIT => '(ch, n) <- setToSelfLM (l_nodes x) i ;; Some (ch, n, l_soh x)
  end.

(** LmCausal.cpp 174-211 *)
Definition lm_step (g : aog) (scc : list Z) (x : lmst) : option lmst :=
  v <- heap_topVal (l_heap x) ;;
  h <- heap_pop (l_heap x) ;;
  let i := Z.to_nat v in
  b <- set (l_in x) i false ;;
  '(ch, n, soh) <- update g x i ;;
  ns <- set (l_nodes x) i n ;;
  let x' := {| l_nodes := ns; l_in := b; l_heap := h; l_soh := soh |} in
  if ch : bool then aff <- get (g_aff g) i ;; ofold (affect scc (getSize n)) aff x' else Some x'.

(** LmCausal.cpp 173-212 *)
Fixpoint lm_loop (fuel : nat) (g : aog) (scc : list Z) (x : lmst) : option lmst :=
  if heap_isEmpty (l_heap x) then Some x
  else match fuel with O => None | S f => x' <- lm_step g scc x ;; lm_loop f g scc x' end.
End LM.

(** The memory of a generator: the containers of the nodes (as left by an earlier call), the two queues. *)
Record lm_mem := { m_lms : list (list Z); m_heap : heap; m_soh : heap }.

(** LmCausal.cpp 16-21, 99-100: a new generator *)
Definition lm_new (al : nat -> list Z) (P : problem) : option lm_mem :=
  h <- heap_new al (numNodes P / 4) ;;
  s <- heap_new al 25 ;;
  Some {| m_lms := repeat [] (numNodes P); m_heap := h; m_soh := s |}.

(** LmCausal.cpp 160: the types during the computation (reverted in 215-217) *)
Definition run_type (P : problem) (s : list bool) (g : aog) : aog :=
  {| g_by := g_by g; g_aff := g_aff g;
     g_ty := map (fun '(i, t) => if (i <? p_nfacts P)%nat && nth i s false then INIT else t) (combine (seq 0 (numNodes P)) (g_ty g)) |}.

(** LmCausal.cpp 143-171; [rch] is the result of reachable for every node *)
Definition lm_start (al : nat -> list Z) (P : problem) (precless : list nat) (s rch : list bool) (mm : lm_mem) : option lmst :=
  x <- ofold (fun x f => b <- get s f ;; if b : bool then enqueue al 0 (fNode f) x else Some x) (seq 0 (p_nfacts P))
    {| l_nodes := map (fun l => {| n_full := true; n_num := 0; n_lms := l |}) (m_lms mm); l_in := repeat false (numNodes P);
       l_heap := heap_clear (m_heap mm); l_soh := m_soh mm |} ;;
  ofold (fun x a => b <- get rch (tNode P a) ;; if b : bool then enqueue al 0 (tNode P a) x else Some x) precless x.

(** LmCausal.cpp 143-217 *)
Definition calcLMs (al : nat -> list Z) (P : problem) (precless : list nat) (dst : list (list nat)) (scc : list Z) (s rch : list bool) (mm : lm_mem) : option lmst :=
  g <- ao_graph P precless dst ;;
  x <- lm_start al P precless s rch mm ;;
  lm_loop al (numNodes P) rch (numNodes P * S (S (numNodes P) * S (numNodes P)))%nat (run_type P s g) scc x.

(** LmCausal.cpp 240-266 *)
Definition copy_node (nn : nat) (nodes : list lmnode) (u : list Z) (i : nat) : option (list Z) :=
  n <- get nodes i ;;
  ofold (fun u j => v <- get (n_lms n) j ;; zinsert nn u v) (seq 0 (if n_full n then nn else n_num n)) u.

Definition copyGlobalLMs (P : problem) (contained : list nat) (nodes : list lmnode) : option (list Z) :=
  u <- ofold (fun u t => copy_node (numNodes P) nodes u (tNode P t)) contained [] ;;
  ofold (fun u f => copy_node (numNodes P) nodes u (fNode f)) (p_goal P) u.

(** landmark: fact, task or METHOD with its number *)
Inductive lmatom := LF (f : nat) | LT (t : nat) | LM (m : nat).

(** LmCausal.cpp 268-283 with 292-304 *)
Definition node_atom (P : problem) (i : nat) : lmatom :=
  if (p_nfacts P <=? i)%nat && (i <? p_nfacts P + length (p_prim P))%nat then LT (i - p_nfacts P)
  else if (i <? p_nfacts P)%nat then LF i else LM (i - (p_nfacts P + length (p_prim P))).

(** pCalcLMs as a whole: the landmarks *)
Definition lm_result (al : nat -> list Z) (P : problem) (precless : list nat) (dst : list (list nat)) (scc : list Z) (s rch : list bool) (contained : list nat) (mm : lm_mem) : option (list lmatom) :=
  x <- calcLMs al P precless dst scc s rch mm ;;
  u <- copyGlobalLMs P contained (l_nodes x) ;;
  Some (map (fun v => node_atom P (Z.to_nat v)) u).

(** LmCausal.cpp 635-647: without and with a planning graph *)
Definition reach_all (P : problem) : list bool := repeat true (numNodes P).
Definition reach_pg (P : problem) (r : pg_result) : list bool :=
  map (fun i => if (p_nfacts P <=? i)%nat && (i <? p_nfacts P + length (p_prim P))%nat then taskReachable r (i - p_nfacts P)
                else if (i <? p_nfacts P)%nat then memb i (r_useful r) else methodReachable r (i - (p_nfacts P + length (p_prim P)))) (seq 0 (numNodes P)).
