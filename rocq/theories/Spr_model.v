(** Model of the output of the SAT planner for totally ordered problems: src/sat/sat_planner.cpp 35-123 (printSolution) and src/sat/pdt.cpp 620-688
    (assignOutputNumbers, getNextOutputTask, printDecomposition). [v] stands for ipasir_val(...) > 0; the value -1 of outputID, outputTask and outputMethod is [None]; task and
    method names are their numbers. Not modelled: the cost line, the lines of outputSOGOrder, the debug output. Assertions are off (release build). *)
From Coq Require Import ZArith.
From Verif Require Import Base Htn_problem Sf_model Pdt_model.
From Verif Require Tree_spec.

(** pdt.h 121-124: a node with outputID, outputTask, outputMethod *)
Inductive ann := Ann (d : pnode) (id task meth : option nat) (ch : list ann).
Definition a_id (a : ann) : option nat := match a with Ann _ i _ _ _ => i end.

(** the actions of a leaf whose variables are true, in the order of possiblePrimitives *)
Definition true_prims (v : Z -> bool) (d : pnode) : list nat := map snd (filter (fun x => v (fst x)) (leaf_atoms d)).
(** the last number given out when [k] numbers are given out starting with [n] *)
Definition last_id (n k : nat) : option nat := match k with 0 => None | S k' => Some (n + k') end.

(** sat_planner.cpp 72-92: the leafs from left to right; the printed lines and the next number. outputTask is not set. *)
Fixpoint number (v : Z -> bool) (t : pdt) (n : nat) {struct t} : ann * list (nat * nat) * nat :=
  match t with
  | PNode d [] => let ps := true_prims v d in (Ann d (last_id n (length ps)) None None [], combine (seq n (length ps)) ps, n + length ps)
  | PNode d ch =>
      let '(chs, acts, n') := (fix go (l : list pdt) (n : nat) {struct l} : list ann * list (nat * nat) * nat :=
          match l with [] => ([], [], n) | u :: r => let '(a, x, n1) := number v u n in let '(rs, y, n2) := go r n1 in (a :: rs, x ++ y, n2) end) ch n in
      (Ann d None None None chs, acts, n')
  end.

Section P.
Variable P : problem.

(** pdt.cpp 649-656: the last method of the task with a true variable *)
Definition chosen_method (v : Z -> bool) (d : pnode) (ai t : nat) (meth : option nat) : option (option nat) :=
  ofold (fun acc '(mi, m) => mvs <- get (pn_mvar d) ai ;; z <- get mvs mi ;; Some (match z with Some z => if v z then Some m else acc | None => acc end)) (enum (methods_of P t)) meth.
(** pdt.cpp 637-658: the abstract tasks; outputID, outputTask, outputMethod and the next number *)
Definition number_abs (v : Z -> bool) (d : pnode) (x : option nat * option nat * option nat * nat) : option (option nat * option nat * option nat * nat) :=
  ofold (fun '(id, task, meth, n) '(ai, t) =>
    a <- get (pn_avar d) ai ;;
    match a with
    | Some a => if v a then meth' <- chosen_method v d ai t meth ;; Some (Some n, Some t, meth', S n) else Some (id, task, meth, n)
    | None => Some (id, task, meth, n)
    end) (enum (pn_abs d)) x.
(** pdt.cpp 620-661 *)
Fixpoint assign_out (v : Z -> bool) (a : ann) (n : nat) {struct a} : option (ann * nat) :=
  match a with
  | Ann d (Some i) task meth ch => Some (a, n)
  | Ann d None task meth ch =>
      let '(id1, task1, n1) := match ch with
                               | [] => let ps := true_prims v d in (last_id n (length ps), match ps with [] => task | _ => Some (last ps 0) end, n + length ps)
                               | _ => (None, task, n)
                               end in
      '(id2, task2, meth2, n2) <- number_abs v d (id1, task1, meth, n1) ;;
      '(chs, n3) <- (fix go (l : list ann) (n : nat) {struct l} : option (list ann * nat) :=
          match l with [] => Some ([], n) | u :: r => '(b, n1) <- assign_out v u n ;; '(rs, n2) <- go r n1 ;; Some (b :: rs, n2) end) ch n2 ;;
      Some (Ann d id2 task2 meth2 chs, n3)
  end.

(** pdt.cpp 663-671 *)
Fixpoint next_out (a : ann) : option nat :=
  match a with
  | Ann _ (Some i) _ _ _ => Some i
  | Ann _ None _ _ ch => (fix go (l : list ann) : option nat := match l with [] => None | u :: r => match next_out u with Some i => Some i | None => go r end end) ch
  end.

(** pdt.cpp 673-688; a line whose method is -1 reads outside of methodNames *)
Fixpoint print_rows (a : ann) : option (list Tree_spec.row) :=
  match a with
  | Ann _ (Some i) (Some t) meth ch =>
      if is_prim P t then Some []
      else
        m <- meth ;;
        rest <- (fix go (l : list ann) : option (list Tree_spec.row) := match l with [] => Some [] | u :: r => x <- print_rows u ;; y <- go r ;; Some (x ++ y) end) ch ;;
        Some ({| Tree_spec.rw_id := i; Tree_spec.rw_task := t; Tree_spec.rw_meth := m; Tree_spec.rw_kids := flat_map (fun u => match next_out u with Some k => [k] | None => [] end) ch |} :: rest)
  | _ => Some []
  end.

(** sat_planner.cpp 35-123: the lines of the plan, the root, the lines of the decomposition *)
Definition sat_print (v : Z -> bool) (T : pdt) : option (list (nat * nat) * option nat * list Tree_spec.row) :=
  let '(a, acts, n) := number v T 0 in
  '(b, _) <- assign_out v a n ;;
  rs <- print_rows b ;;
  Some (acts, a_id b, rs).
End P.
