(** Model of src/sat/pdt.cpp and of src/sat/sat_planner.cpp 180-222, 297-500 for totally ordered problems: the path decomposition tree, pruning, and the
    formula of one depth.
    Simplifications valid for the whole file:
    - options: effectLessActionsInSeparateLeaf off (see Leaf_model.v), sat_mutexes off, cost mode off, pruning none or ff (the default); partially ordered problems are not modelled;
    - a node is addressed by its reversed path (the mother of [c :: q] is [q]; the code stores the path and a mother pointer);
    - the pruned... bit arrays are a set of marked items; arrays indexed by abstract task and method are nested lists;
      listIndexOfChildrenForMethods is the list of its writes (an absent entry is present = false);
    - the value -1 of variable arrays is [None]; it is the literal -1 where the code uses it as a literal;
    - assertions are off (release build); output and time measurement are not modelled; indices do not overflow. *)
From Coq Require Import ZArith.
From Verif Require Import Base Htn_problem Sat_model Sf_model Sog_model.
From Verif Require Htn_model.

Definition enum {A} (l : list A) : list (nat * A) := combine (seq 0 (length l)) l.

(** What is not determined by the code itself: methodTotalOrder (computed by Model.cpp 2985-3006), the order in which std::sort leaves methods of equal
    length, and the floating-point computation of the number of bits in atMostOne. *)
Record sconf := {
  s_mto : list (list nat);
  s_sort : list (nat * nat * nat) -> list (nat * nat * nat);
  s_bits : nat -> nat }.

(** pdt.h 18-20: taskCause; taskIndex = -1 is [None] *)
Definition cause := (option nat * nat)%type.
(** pdt.h 10-16: causePointer with present = true *)
Record cptr := { cp_prim : bool; cp_task : nat; cp_cause : nat }.

(** pdt.h 22-95 without children and pruning information. [pn_none = None] is vertexVariables = false. *)
Record pnode := {
  pn_prims : list nat;
  pn_abs : list nat;
  pn_cp : list (list cause);
  pn_ca : list (list cause);
  pn_exp : bool;
  pn_ptr : list ((nat * nat * nat) * cptr);
  pn_pos : list (nat * nat * nat);
  pn_none : option Z;
  pn_pvar : list (option Z);
  pn_avar : list (option Z);
  pn_mvar : list (list (option Z)) }.
Inductive pdt := PNode (d : pnode) (ch : list pdt).
Definition dat (t : pdt) : pnode := match t with PNode d _ => d end.
Definition kids (t : pdt) : list pdt := match t with PNode _ ch => ch end.

Definition fresh_node (prims abs : list nat) (cp ca : list (list cause)) : pnode :=
  {| pn_prims := prims; pn_abs := abs; pn_cp := cp; pn_ca := ca; pn_exp := false; pn_ptr := []; pn_pos := [];
     pn_none := None; pn_pvar := []; pn_avar := []; pn_mvar := [] |}.

(** pdt.cpp 26-36 *)
Definition pdt_root (P : problem) : pdt := PNode (fresh_node [] [p_init P] [] []) [].

Section Conf.
Variables (P : problem) (C : sconf).

(** taskToMethods, numMethodsForTask *)
Definition methods_of (t : nat) : list nat := Htn_model.task_to_methods P t.
Definition nmeth (t : nat) : nat := length (methods_of t).
(** t < htn->numActions *)
Definition is_prim (t : nat) : bool := nth t (p_prim P) false.

(** ** Expansion *)

(** pdt.cpp 138-145: (method, index of the abstract task, index of the method) *)
Definition gather (abs : list nat) : list (nat * nat * nat) :=
  flat_map (fun '(ti, t) => map (fun '(mi, m) => (m, ti, mi)) (enum (methods_of t))) (enum abs).

(** pdt.cpp 187-198: (vertex, task, cause), in the order of insertion into childrenTasks *)
Definition occ_of (n : nat) (x : (nat * nat * nat) * list nat) : option (list (nat * nat * (nat * nat))) :=
  let '((m, ti, mi), asg) := x in
  me <- get (p_methods P) m ;;
  omap (fun '(sub, task) => v <- get asg sub ;; if Nat.ltb v n then Some (v, task, (ti, mi)) else None) (enum (m_subs me)).
Definition occurrences (n : nat) (ms : list (nat * nat * nat)) (asgs : list (list nat)) : option (list (nat * nat * (nat * nat))) :=
  os <- omap (occ_of n) (combine ms asgs) ;; Some (concat os).

(** childrenTasks[c]: a map from tasks (in increasing order) to causes *)
Fixpoint sins (t : nat) (l : list nat) : list nat :=
  match l with
  | [] => [t]
  | u :: r => if Nat.ltb t u then t :: l else if Nat.eqb t u then l else u :: sins t r
  end.
Definition child_tasks (occ : list (nat * nat * (nat * nat))) (c : nat) : list nat :=
  fold_left (fun l '(v, t, _) => if Nat.eqb v c then sins t l else l) occ [].
Definition child_causes (occ : list (nat * nat * (nat * nat))) (c t : nat) : list (nat * nat) :=
  flat_map (fun '(v, u, k) => if Nat.eqb v c && Nat.eqb u t then [k] else []) occ.

(** pdt.cpp 209-268: the children before inheritance *)
Definition child_prims occ c := filter is_prim (child_tasks occ c).
Definition child_abs occ c := filter (fun t => negb (is_prim t)) (child_tasks occ c).
Definition causes_of occ c t : list cause := map (fun '(a, m) => (Some a, m)) (child_causes occ c t).
Definition new_child occ (c : nat) : pnode :=
  fresh_node (child_prims occ c) (child_abs occ c) (map (causes_of occ c) (child_prims occ c)) (map (causes_of occ c) (child_abs occ c)).

(** pdt.cpp 240-263: the entries of listIndexOfChildrenForMethods *)
Definition ptr_writes (c : nat) (pr : bool) (tasks : list nat) occ : list ((nat * nat * nat) * cptr) :=
  flat_map (fun '(ti, t) => map (fun '(ci, (a, m)) => ((a, m, c), {| cp_prim := pr; cp_task := ti; cp_cause := ci |})) (enum (child_causes occ c t))) (enum tasks).
Definition ptr_table (n : nat) occ : list ((nat * nat * nat) * cptr) :=
  flat_map (fun c => ptr_writes c true (child_prims occ c) occ ++ ptr_writes c false (child_abs occ c) occ) (seq 0 n).

(** pdt.cpp 276-344: inheritance of one primitive *)
Fixpoint index_of (t : nat) (l : list nat) : option nat :=
  match l with
  | [] => None
  | u :: r => if Nat.eqb t u then Some 0 else i <- index_of t r ;; Some (S i)
  end.
Definition add_prim (d : pnode) (p : nat) : pnode :=
  {| pn_prims := pn_prims d ++ [p]; pn_abs := pn_abs d; pn_cp := pn_cp d ++ [[]]; pn_ca := pn_ca d; pn_exp := pn_exp d; pn_ptr := pn_ptr d; pn_pos := pn_pos d;
     pn_none := pn_none d; pn_pvar := pn_pvar d; pn_avar := pn_avar d; pn_mvar := pn_mvar d |}.
Definition set_cp (d : pnode) (cp : list (list cause)) : pnode :=
  {| pn_prims := pn_prims d; pn_abs := pn_abs d; pn_cp := cp; pn_ca := pn_ca d; pn_exp := pn_exp d; pn_ptr := pn_ptr d; pn_pos := pn_pos d;
     pn_none := pn_none d; pn_pvar := pn_pvar d; pn_avar := pn_avar d; pn_mvar := pn_mvar d |}.
(** pdt.cpp 289-325: the child for a primitive that is in none of the children, given their number and tasks; child 0 (320-324) if
    effectLessActionsInSeparateLeaf is off *)
Definition picker := nat -> list (nat * nat * (nat * nat)) -> nat -> option nat.
Definition first_child : picker := fun _ _ _ => Some 0.
Definition inherit_pick (pick : picker) (n : nat) occ (st : list pnode * list (nat * nat * nat)) (x : nat * nat) : option (list pnode * list (nat * nat * nat)) :=
  let '(chs, pos) := st in
  let '(pIndex, p) := x in
  '(c, chs1) <- match find (fun c => memb p (child_tasks occ c)) (seq 0 n) with
                | Some c => Some (c, chs)
                | None => c <- pick n occ p ;; d0 <- get chs c ;; chs' <- set chs c (add_prim d0 p) ;; Some (c, chs')
                end ;;
  d <- get chs1 c ;;
  i <- index_of p (pn_prims d) ;;
  cs <- get (pn_cp d) i ;;
  cp <- set (pn_cp d) i (cs ++ [(None, pIndex)]) ;;
  chs2 <- set chs1 c (set_cp d cp) ;;
  Some (chs2, pos ++ [(c, i, length cs)]).

Definition inherit_one := inherit_pick first_child.

(** pdt.cpp 163-420: the children, given the number of vertices and the vertices of the subtasks of the methods [ms] *)
Definition expand_pick (pick : picker) (d : pnode) (ms : list (nat * nat * nat)) (n : nat) (asgs : list (list nat)) : option (pnode * list pdt) :=
  occ <- occurrences n ms asgs ;;
  '(chs, pos) <- (if Nat.eqb n 0 then Some ([], []) else ofold (inherit_pick pick n occ) (enum (pn_prims d)) (map (new_child occ) (seq 0 n), [])) ;;
  Some ({| pn_prims := pn_prims d; pn_abs := pn_abs d; pn_cp := pn_cp d; pn_ca := pn_ca d; pn_exp := true; pn_ptr := ptr_table n occ; pn_pos := pos;
           pn_none := pn_none d; pn_pvar := pn_pvar d; pn_avar := pn_avar d; pn_mvar := pn_mvar d |},
        map (fun d => PNode d []) chs).
Definition expand_with := expand_pick first_child.
(** pdt.cpp 120-420 for a node that is not expanded and has abstract tasks; sog.cpp 535-575 *)
Definition expand_node (d : pnode) : option (pnode * list pdt) :=
  let ms := s_sort C (gather (pn_abs d)) in
  '(n, asgs) <- to_sog P (s_mto C) (map (fun '(m, _, _) => m) ms) ;;
  expand_with d ms n asgs.

(** pdt.cpp 423-431, 120-130; [xp] is the expansion of a node *)
Fixpoint expand_upto (xp : pnode -> option (pnode * list pdt)) (K : nat) (t : pdt) : option pdt :=
  match K with
  | 0 => Some t
  | S K' =>
      '(d, ch) <- match t with PNode d ch => if pn_exp d then Some (d, ch) else match pn_abs d with [] => Some (d, ch) | _ => xp d end end ;;
      ch' <- omap (expand_upto xp K') ch ;;
      Some (PNode d ch')
  end.
Definition expand_to : nat -> pdt -> option pdt := expand_upto expand_node.

(** pdt.cpp 433-439; with their reversed paths *)
Fixpoint leafs (t : pdt) (q : list nat) {struct t} : list (list nat * pnode) :=
  match t with
  | PNode d ch =>
      match ch with
      | [] => [(q, d)]
      | _ => (fix go (l : list pdt) (i : nat) {struct l} := match l with [] => [] | u :: r => leafs u (i :: q) ++ go r (S i) end) ch 0
      end
  end.

(** ** Pruning *)
Fixpoint subtree (t : pdt) (path : list nat) : option pdt :=
  match path with
  | [] => Some t
  | c :: r => u <- get (kids t) c ;; subtree u r
  end.

(** prunedPrimitives[p], prunedAbstracts[a], prunedMethods[a][m], prunedCausesForPrimitive(p,c), prunedCausesForAbstract(a,c) of the node at [q] *)
Inductive item := IP (q : list nat) (p : nat) | IA (q : list nat) (a : nat) | IM (q : list nat) (a m : nat) | ICP (q : list nat) (p c : nat) | ICA (q : list nat) (a c : nat).
Definition item_eq_dec : forall i j : item, {i = j} + {i <> j}.
Proof. decide equality; try apply Nat.eq_dec; apply (list_eq_dec Nat.eq_dec). Defined.
Definition flags := list item.
Definition marked (F : flags) (i : item) : bool := if in_dec item_eq_dec i F then true else false.
Definition mark (F : flags) (l : list item) : flags := fold_left (fun F i => if marked F i then F else i :: F) l F.
Definition news (F : flags) (l : list item) : bool := existsb (fun i => negb (marked F i)) l.

Definition find_ptr (d : pnode) (a m c : nat) : option cptr :=
  match find (fun '((a', m', c'), _) => Nat.eqb a a' && Nat.eqb m m' && Nat.eqb c c') (rev (pn_ptr d)) with Some (_, k) => Some k | None => None end.

(** pdt.cpp 702-764: what is inferred about the node itself *)
Definition own_step (q : list nat) (d : pnode) (F : flags) : flags :=
  let F1 := mark F (flat_map (fun '(a, t) => if marked F (IA q a) then [] else if negb (pn_exp d) || forallb (fun m => marked F (IM q a m)) (seq 0 (nmeth t)) then [IA q a] else []) (enum (pn_abs d))) in
  let F2 := match q with
            | [] => F1
            | _ => mark F1 (flat_map (fun '(p, cs) => if forallb (fun c => marked F1 (ICP q p c)) (seq 0 (length cs)) then [IP q p] else []) (enum (pn_cp d)) ++
                            flat_map (fun '(a, cs) => if forallb (fun c => marked F1 (ICA q a c)) (seq 0 (length cs)) then [IA q a] else []) (enum (pn_ca d)))
            end in
  if pn_exp d then mark F2 (flat_map (fun '(a, t) => if marked F2 (IA q a) then map (IM q a) (seq 0 (nmeth t)) else []) (enum (pn_abs d))) else F2.

(** pdt.cpp 672-684: the item of the mother that a cause stands for *)
Definition cause_item (q : list nat) (k : cause) : item := match k with (None, p) => IP q p | (Some a, m) => IM q a m end.

(** pdt.cpp 771-797: causes of pruned tasks, at the node (first component) and at the mother [q'] (second component) *)
Definition up_items (q q' : list nat) (d : pnode) (F : flags) : list item * list item :=
  let pr := flat_map (fun '(p, cs) => if marked F (IP q p) then map (fun '(c, k) => (ICP q p c, cause_item q' k)) (enum cs) else []) (enum (pn_cp d)) in
  let ab := flat_map (fun '(a, cs) => if marked F (IA q a) then map (fun '(c, k) => (ICA q a c, cause_item q' k)) (enum cs) else []) (enum (pn_ca d)) in
  (map fst (pr ++ ab), map snd (pr ++ ab)).

(** pdt.cpp 799-847: causes to be pruned at child [c] *)
Definition ptr_item (q : list nat) (k : cptr) : item := if cp_prim k then ICP q (cp_task k) (cp_cause k) else ICA q (cp_task k) (cp_cause k).
Definition down_items (q : list nat) (d : pnode) (F : flags) (c : nat) : option (list item) :=
  pr <- omap (fun '(p, _) => if marked F (IP q p) then '(c', i, k) <- get (pn_pos d) p ;; Some (if Nat.eqb c' c then [ICP (c :: q) i k] else []) else Some []) (enum (pn_prims d)) ;;
  Some (concat pr ++
    flat_map (fun '(a, t) => flat_map (fun m => if marked F (IM q a m) then match find_ptr d a m c with Some k => [ptr_item (c :: q) k] | None => [] end else []) (seq 0 (nmeth t))) (enum (pn_abs d))).

(** pdt.cpp 689-857 *)
Fixpoint propagate (T : pdt) (fuel : nat) (q : list nat) (F : flags) : option flags :=
  match fuel with
  | 0 => None
  | S fuel' =>
      t <- subtree T (rev q) ;;
      let d := dat t in
      let F1 := own_step q d F in
      let '(self, up) := match q with [] => ([], []) | _ :: q' => up_items q q' d F1 end in
      let F2 := mark F1 (self ++ up) in
      downs <- omap (down_items q d F2) (seq 0 (length (kids t))) ;;
      let F3 := mark F2 (concat downs) in
      F4 <- ofold (fun G '(c, l) => if news F2 l then propagate T fuel' (c :: q) G else Some G) (enum downs) F3 ;;
      if news F1 up then propagate T fuel' (tl q) F4 else Some F4
  end.

(** All items of the tree; every call but the first is caused by an item that was not marked before. *)
Definition node_items (q : list nat) (d : pnode) : list item :=
  map (IP q) (seq 0 (length (pn_prims d))) ++ map (IA q) (seq 0 (length (pn_abs d))) ++
  flat_map (fun '(a, t) => map (IM q a) (seq 0 (nmeth t))) (enum (pn_abs d)) ++
  flat_map (fun '(p, cs) => map (ICP q p) (seq 0 (length cs))) (enum (pn_cp d)) ++
  flat_map (fun '(a, cs) => map (ICA q a) (seq 0 (length cs))) (enum (pn_ca d)).
Fixpoint tree_items (t : pdt) (q : list nat) {struct t} : list item :=
  match t with
  | PNode d ch => node_items q d ++ (fix go (l : list pdt) (i : nat) {struct l} := match l with [] => [] | u :: r => tree_items u (i :: q) ++ go r (S i) end) ch 0
  end.
Definition prune_fuel (T : pdt) : nat := S (length (tree_items T [])).
Definition propagate_all (T : pdt) (F : flags) : option flags := ofold (fun G '(q, _) => propagate T (prune_fuel T) q G) (leafs T []) F.

(** sat_planner.cpp 180-222: reachableFacts as a list; the result tells whether something was pruned *)
Definition ff_prims (reach : list nat) (q : list nat) (F : flags) (prims : list nat) : option (list item * list nat) :=
  rs <- omap (fun '(i, p) => if marked F (IP q i) then Some ([], []) else
                pr <- get (p_prec P) p ;; if forallb (fun f => memb f reach) pr then Some ([], [p]) else Some ([IP q i], [])) (enum prims) ;;
  Some (concat (map fst rs), concat (map snd rs)).
Fixpoint ff_leafs (reach : list nat) (F : flags) (ls : list (list nat * pnode)) : option (list item) :=
  match ls with
  | [] => Some []
  | (q, d) :: r =>
      '(its, exe) <- ff_prims reach q F (pn_prims d) ;;
      ads <- omap (get (p_add P)) exe ;;
      rest <- ff_leafs (concat ads ++ reach) F r ;;
      Some (its ++ rest)
  end.
Definition filter_leafs_ff (ls : list (list nat * pnode)) (F : flags) : option (flags * bool) :=
  its <- ff_leafs (p_s0 P) F ls ;; Some (mark F its, match its with [] => false | _ => true end).
(** sat_planner.cpp 355-370 with pruningMode = SAT_FF *)
Fixpoint ff_loop (fuel : nat) (ls : list (list nat * pnode)) (F : flags) : option flags :=
  match fuel with
  | 0 => None
  | S fuel' => '(F', more) <- filter_leafs_ff ls F ;; if more : bool then ff_loop fuel' ls F' else Some F'
  end.

(** ** Variables *)
Local Open Scope Z_scope.

(** pdt.cpp 524-540, 551-566, 584-600: variables for what is not pruned and has none *)
Fixpoint assign_list (pruned : nat -> bool) (i : nat) (l : list (option Z)) (nv : Z) : list (option Z) * Z :=
  match l with
  | [] => ([], nv)
  | x :: r =>
      let '(x', nv1) := match x with Some _ => (x, nv) | None => if pruned i then (None, nv) else (Some (nv + 1), nv + 1) end in
      let '(r', nv2) := assign_list pruned (S i) r nv1 in (x' :: r', nv2)
  end.
Fixpoint assign_methods (q : list nat) (F : flags) (a : nat) (abs : list nat) (nv : Z) : list (list (option Z)) * Z :=
  match abs with
  | [] => ([], nv)
  | t :: r =>
      let '(x, nv1) := assign_list (fun m => marked F (IM q a m)) 0 (repeat None (nmeth t)) nv in
      let '(xs, nv2) := assign_methods q F (S a) r nv1 in (x :: xs, nv2)
  end.
(** pdt.cpp 508-603, without the children *)
Definition assign_node (q : list nat) (F : flags) (d : pnode) (nv : Z) : pnode * Z :=
  let '(none, pv, av, nv0) := match pn_none d with
                              | Some x => (x, pn_pvar d, pn_avar d, nv)
                              | None => (nv + 1, repeat None (length (pn_prims d)), repeat None (length (pn_abs d)), nv + 1)
                              end in
  let '(pv', nv1) := assign_list (fun p => marked F (IP q p)) 0 pv nv0 in
  let '(av', nv2) := assign_list (fun a => marked F (IA q a)) 0 av nv1 in
  let '(mv', nv3) := if pn_exp d then assign_methods q F 0 (pn_abs d) nv2 else (pn_mvar d, nv2) in
  ({| pn_prims := pn_prims d; pn_abs := pn_abs d; pn_cp := pn_cp d; pn_ca := pn_ca d; pn_exp := pn_exp d; pn_ptr := pn_ptr d; pn_pos := pn_pos d;
      pn_none := Some none; pn_pvar := pv'; pn_avar := av'; pn_mvar := mv' |}, nv3).
(** pdt.cpp 508-613 *)
Fixpoint assign (F : flags) (t : pdt) (q : list nat) (nv : Z) {struct t} : pdt * Z :=
  match t with
  | PNode d ch =>
      let '(d', nv1) := assign_node q F d nv in
      if pn_exp d then
        let '(ch', nv2) := (fix go (l : list pdt) (i : nat) (nv : Z) {struct l} :=
            match l with [] => ([], nv) | u :: r => let '(u', nv') := assign F u (i :: q) nv in let '(r', nv'') := go r (S i) nv' in (u' :: r', nv'') end) ch O nv1 in
        (PNode d' ch', nv2)
      else (PNode d' ch, nv1)
  end.

(** ** Clauses *)
Definition somes {A} (l : list (option A)) : list A := flat_map (fun o => match o with Some x => [x] | None => [] end) l.
(** -1 used as a literal *)
Definition vlit (o : option Z) : Z := match o with Some x => x | None => -1 end.

(** pdt.cpp 928-938: inheritance of primitives *)
Definition cl_inherit (d : pnode) (ch : list pdt) : option (list clause) :=
  cs <- omap (fun '(p, x) => match x with
                             | None => Some []
                             | Some pv =>
                                 '(c, i, _) <- get (pn_pos d) p ;;
                                 u <- get ch c ;;
                                 y <- get (pn_pvar (dat u)) i ;;
                                 os <- omap (fun '(c', u') => if Nat.eqb c c' then Some [] else z <- pn_none (dat u') ;; Some (implies pv z)) (enum ch) ;;
                                 Some (implies pv (vlit y) ++ concat os)
                             end) (enum (pn_pvar d)) ;;
  Some (concat cs).
(** pdt.cpp 959-984: subtasks of a chosen method. A missing variable of a subtask ends the program (974-977). *)
Definition cl_method (d : pnode) (ch : list pdt) (a m : nat) (mv : Z) : option (list clause) :=
  cs <- omap (fun '(c, u) => match find_ptr d a m c with
                             | Some k => y <- get (if cp_prim k then pn_pvar (dat u) else pn_avar (dat u)) (cp_task k) ;; z <- y ;; Some (implies mv z)
                             | None => z <- pn_none (dat u) ;; Some (implies mv z)
                             end) (enum ch) ;;
  Some (concat cs).
(** pdt.cpp 947-994 *)
Definition cl_abstract (d : pnode) (ch : list pdt) : option (list clause) :=
  cs <- omap (fun '(a, x) => match x with
                             | None => Some []
                             | Some av =>
                                 mvs <- get (pn_mvar d) a ;;
                                 ms <- omap (fun '(m, y) => match y with None => Some [] | Some mv => c <- cl_method d ch a m mv ;; Some (implies mv av ++ c) end) (enum mvs) ;;
                                 Some (concat ms ++ impliesOr av (somes mvs))
                             end) (enum (pn_avar d)) ;;
  Some (concat cs).
(** pdt.cpp 1001-1046: tasks of the child [u] at [c :: q] need a cause *)
Definition cause_lit (d : pnode) (k : cause) : option Z :=
  match k with
  | (None, p) => x <- get (pn_pvar d) p ;; Some (vlit x)
  | (Some a, m) => mvs <- get (pn_mvar d) a ;; x <- get mvs m ;; Some (vlit x)
  end.
Definition cl_caused (d : pnode) (pruned : nat -> nat -> bool) (vars : list (option Z)) (causes : list (list cause)) : option (list clause) :=
  cs <- omap (fun '(i, x) => match x with
                             | None => Some []
                             | Some v => ks <- get causes i ;;
                                         ls <- omap (fun '(c, k) => if pruned i c : bool then Some [] else l <- cause_lit d k ;; Some [l]) (enum ks) ;;
                                         Some (impliesOr v (concat ls))
                             end) (enum vars) ;;
  Some (concat cs).
Definition cl_child (q : list nat) (F : flags) (d : pnode) (x : nat * pdt) : option (list clause) :=
  let '(c, u) := x in
  ab <- cl_caused d (fun a i => marked F (ICA (c :: q) a i)) (pn_avar (dat u)) (pn_ca (dat u)) ;;
  pr <- cl_caused d (fun p i => marked F (ICP (c :: q) p i)) (pn_pvar (dat u)) (pn_cp (dat u)) ;;
  Some (ab ++ pr).
(** pdt.cpp 1052-1082 *)
Definition cl_none (d : pnode) (ch : list pdt) : option (list clause) :=
  x <- pn_none d ;;
  cs <- omap (fun u => z <- pn_none (dat u) ;; Some (implies x z)) ch ;;
  Some (impliesAllNot x (somes (pn_pvar d)) ++ impliesAllNot x (somes (pn_avar d)) ++ concat cs).
(** pdt.cpp 911-923: methods of tasks that are not pruned *)
Definition method_atoms (q : list nat) (F : flags) (d : pnode) : option (list Z) :=
  xs <- omap (fun '(a, _) => if marked F (IA q a) then Some [] else mvs <- get (pn_mvar d) a ;; Some (somes mvs)) (enum (pn_abs d)) ;;
  Some (concat xs).

(** pdt.cpp 897-1082: the clauses of one node *)
Definition node_clauses (q : list nat) (F : flags) (d : pnode) (ch : list pdt) (nv : Z) : option (list clause * Z) :=
  let '(c1, nv1) := atMostOne (s_bits C) nv (somes (pn_pvar d) ++ somes (pn_avar d)) in
  ma <- method_atoms q F d ;;
  let '(c2, nv2) := match ma with [] => ([], nv1) | _ => atMostOne (s_bits C) nv1 ma end in
  c3 <- cl_inherit d ch ;;
  c4 <- cl_abstract d ch ;;
  c5 <- omap (cl_child q F d) (enum ch) ;;
  c6 <- cl_none d ch ;;
  Some (c1 ++ c2 ++ c3 ++ c4 ++ concat c5 ++ c6, nv2).

(** pdt.cpp 887-1112: nothing below a node without task variables *)
Fixpoint decomposition (F : flags) (t : pdt) (q : list nat) (nv : Z) {struct t} : option (list clause * Z) :=
  match t with
  | PNode d ch =>
      if negb (pn_exp d) then Some ([], nv)
      else match somes (pn_pvar d) ++ somes (pn_avar d) with
           | [] => Some ([], nv)
           | _ =>
               '(c, nv1) <- node_clauses q F d ch nv ;;
               '(cs, nv2) <- (fix go (l : list pdt) (i : nat) (nv : Z) {struct l} : option (list clause * Z) :=
                   match l with [] => Some ([], nv) | u :: r => '(x, nv') <- decomposition F u (i :: q) nv ;; '(y, nv'') <- go r (S i) nv' ;; Some (x ++ y, nv'') end) ch O nv1 ;;
               Some (c ++ cs, nv2)
           end
  end.

(** pdt.cpp 863-883 *)
Definition pruned_list (pruned : nat -> bool) (l : list (option Z)) : list clause :=
  flat_map (fun '(i, x) => match x with Some v => if pruned i then assertNot v else [] | None => [] end) (enum l).
Definition pruned_node (q : list nat) (F : flags) (d : pnode) : list clause :=
  pruned_list (fun p => marked F (IP q p)) (pn_pvar d) ++ pruned_list (fun a => marked F (IA q a)) (pn_avar d) ++
  (if pn_exp d then flat_map (fun '(a, l) => pruned_list (fun m => marked F (IM q a m)) l) (enum (pn_mvar d)) else []).
Fixpoint pruned_clauses (F : flags) (t : pdt) (q : list nat) {struct t} : list clause :=
  match t with
  | PNode d ch => pruned_node q F d ++ (fix go (l : list pdt) (i : nat) {struct l} := match l with [] => [] | u :: r => pruned_clauses F u (i :: q) ++ go r (S i) end) ch O
  end.

(** state_formula.cpp 242-256 *)
Definition leaf_atoms (d : pnode) : leaf := flat_map (fun '(x, p) => match x with Some v => [(v, p)] | None => [] end) (combine (pn_pvar d) (pn_prims d)).
(** disabling_graph.cpp 416-420: primitives that are not pruned *)
Definition leaf_unpruned (F : flags) (x : list nat * pnode) : list nat :=
  flat_map (fun '(i, p) => if marked F (IP (fst x) i) then [] else [p]) (enum (pn_prims (snd x))).

(** ** One depth *)
Definition prune (ff : bool) (T : pdt) : option flags :=
  let ls := leafs T [] in
  F1 <- propagate_all T (mark [] (flat_map (fun '(q, d) => map (IA q) (seq 0 (length (pn_abs d)))) ls)) ;;
  F2 <- (if ff then ff_loop (S (length (flat_map (fun '(_, d) => pn_prims d) ls))) ls F1 else Some F1) ;;
  propagate_all T F2.

(** sat_planner.cpp 297-500 (createFormulaForDepth): the tree, the number of variables and, unless the initial task was pruned, the formula. The state
    between the calls is the tree and the number of variables (solve_with_sat_planner_linear_bound_increase uses the same tree and capsule for all depths). *)
Definition create_formula (ff bc : bool) (depth : nat) (st : pdt * Z) : option (pdt * Z * option (list clause)) :=
  let '(t0, nv) := st in
  T <- expand_to depth t0 ;;
  F <- prune ff T ;;
  if marked F (IA [] 0) then Some (T, nv, None)
  else
    let '(T', nv1) := assign F T [] nv in
    '(c1, nv2) <- decomposition F T' [] nv1 ;;
    r <- get (pn_avar (dat T')) 0 ;;
    let ls := leafs T' [] in
    let atoms := map (fun x => leaf_atoms (snd x)) ls in
    blocks <- (if bc then block_compression P (map (leaf_unpruned F) ls) else Some (unit_blocks atoms)) ;;
    '(c3, nv3) <- state_formula P nv2 atoms blocks ;;
    Some (T', nv3, Some (c1 ++ assertYes (vlit r) ++ pruned_clauses F T' [] ++ c3)).

(** sat_planner.cpp 790-850: the state after the first [d] depths were found unsatisfiable *)
Fixpoint sat_state (ff bc : bool) (d : nat) : option (pdt * Z) :=
  match d with
  | O => Some (pdt_root P, 0)
  | S d' => st <- sat_state ff bc d' ;; '(t, nv, _) <- create_formula ff bc d st ;; Some (t, nv)
  end.
Definition sat_formula (ff bc : bool) (d : nat) : option (pdt * Z * option (list clause)) :=
  st <- sat_state ff bc d ;; create_formula ff bc (S d) st.

(** sat_planner.cpp 66-85: the printed plan *)
Definition sat_plan (val : Z -> bool) (T : pdt) : list nat :=
  flat_map (fun '(_, d) => map snd (filter (fun x => val (fst x)) (leaf_atoms d))) (leafs T []).

(** sat_planner.cpp 782-836 (solve_with_sat_planner_linear_bound_increase): [solver] stands for ipasir_solve and ipasir_val. The result is None for
    undefined behaviour and Some None if no plan was found up to the last depth; the code has no last depth. *)
Fixpoint sat_search (solver : list clause -> option (Z -> bool)) (ff bc : bool) (rounds : nat) (depth : nat) (st : pdt * Z) : option (option (list nat)) :=
  match rounds with
  | O => Some None
  | S rounds' =>
      '(T, nv, o) <- create_formula ff bc depth st ;;
      match (match o with Some cl => solver cl | None => None end) with
      | Some val => Some (Some (sat_plan val T))
      | None => sat_search solver ff bc rounds' (S depth) (T, nv)
      end
  end.
Definition solve_sat (solver : list clause -> option (Z -> bool)) (ff bc : bool) (rounds : nat) : option (option (list nat)) :=
  sat_search solver ff bc rounds 1 (pdt_root P, 0).
End Conf.
