(** Translation of partially ordered HTN problems to SAS+ problems without conditional effects (src/translation/htnToSAS.cpp, htnToStrips,
    encoding "postrips"), and the written file.

    Simplifications as in Sas_model. Products of 64 bit numbers in [binom] and the sum of the numbers of operators do not overflow here. *)
From Coq Require Import NArith.
From Verif Require Import Base Htn_problem Sas_model Push_model.

(** ** combination (htnToSAS.cpp 12-33) *)

(** One round of the outer loop (16-32). The array is reversed: its last element, which is incremented first, is the head. [n] is [highest].
    [None]: no element could be incremented and array[-1] is read (for k > 0). *)
Fixpoint bump (n : nat) (r : list nat) : option (list nat) :=
  match r with
  | [] => None
  | x :: r' => if S x <? n then Some (S x :: r') else
               r'' <- bump (n - 1) r' ;; match r'' with [] => None | y :: _ => Some (S y :: r'') end
  end.
(** The rounds (16); the array starts with 0, ..., k - 1 (13-15). *)
Fixpoint bumps (n i : nat) (r : list nat) : option (list nat) :=
  match i with
  | 0 => Some r
  | S i' => r' <- bump n r ;; bumps n i' r'
  end.
Definition combination (n k i : nat) : option (list nat) := r <- bumps n i (rev (seq 0 k)) ;; Some (rev r).

(** bin (htnToSAS.cpp 35-51) before it is cut at INT_MAX; [None] is -1. *)
Definition binom (n k : nat) : option nat :=
  if n <? k then None else
  if ((k =? 0) || (k =? n))%bool then Some 1 else
  Some (fold_left (fun b i => b * (n - i + 1) / i) (seq 1 k) 1).

(** ** hasNoLastTask (htnToSAS.cpp 312-330, 388-415) *)

(** The array lower as the list of the indices whose entry is true: one round over the orderings (399-403). *)
Definition lower_step (o : list (nat * nat)) (l : list nat) : list nat :=
  fold_left (fun l e => if memb (fst e) l then snd e :: l else l) o l.
(** [o] are the rewritten orderings. *)
Definition no_last (n : nat) (o : list (nat * nat)) : bool :=
  if n <=? 1 then false else
  if length o <? n - 1 then true else
  negb (forallb (fun j => memb j (Nat.iter (n - 1) (lower_step o) [n - 1])) (seq 0 n)).

(** ** htnToStrips (htnToSAS.cpp 1481-1850) *)

(** Operator names (1598, 1671, 1813-1835): primitive(id,head), method(id,head,subtasks), emptyTask(head). *)
Inductive sname :=
| TPrim (id head : nat)
| TMeth (id head : nat) (subs : list nat)
| TEmpty (head : nat).

Record strop := { r_name : sname; r_prec : list nat; r_add : list nat; r_cost : nat; r_ok : bool }.

Section Enc.
  Variables (P : problem) (S : sproblem) (pgb : nat).

  (** The first facts of the variables for tasks, constraints and occupied positions (firstIndexTrans, 1483-1514), the running sums in closed form. *)
  Definition tk (j : nat) : nat := head0 S + j * (ntasks P + 2).
  Definition cn (i : nat) : nat := tk pgb + 2 * i.
  Definition st (j : nat) : nat := cn (pgb * (pgb - 1)) + 2 * j.
  (** The number of the constraint that position [k] precedes position [j] (1584-1597, 1660-1669, 1720-1730, 1763, 1766-1771, 1795-1810). *)
  Definition ci (k j : nat) : nat := k * (pgb - 1) + (if j <? k then j else j - 1).
  (** firstIndexTrans, lastIndexTrans (1496-1514) *)
  Definition svars : list var :=
    sp_var S ++ map (fun j => (tk j, tk j + ntasks P + 1)) (seq 0 pgb) ++ map (fun i => (cn i, cn i + 1)) (seq 0 (pgb * (pgb - 1))) ++
    map (fun j => (st j, st j + 1)) (seq 0 pgb).
  (** s0ListTrans (1555-1562) and gListTrans (1564-1569) *)
  Definition ss0 : list nat :=
    [tk 0 + p_init P + 2] ++ map tk (seq 1 (pgb - 1)) ++ map cn (seq 0 (pgb * (pgb - 1))) ++ [st 0 + 1] ++ map st (seq 1 (pgb - 1)).
  Definition sgoal : list nat := map tk (seq 0 pgb).

  (** No position precedes [j], and its value is [b] (1584-1597, 1660-1669, 1720-1730) *)
  Definition ready (j b : nat) : list nat := map (fun l => if l =? j then tk j + b else cn (ci l j)) (seq 0 pgb).

  (** Empty tasks (1571-1599); the writer takes the cost of the operator with the same number, which belongs to the first action (2350). *)
  Definition empty_op (cost i : nat) : strop :=
    {| r_name := TEmpty i; r_prec := ready i 1;
       r_add := map (fun k => if k =? i then tk i else cn (ci i k)) (seq 0 pgb) ++ [st i];
       r_cost := cost; r_ok := true |}.
  Definition empty_cost : option nat :=
    match p_cost P, p_methods P with
    | c :: _, _ => Some c
    | [], _ :: _ => Some 0
    | [], [] => None
    end.

  (** Actions (1631-1636, 1640-1678) *)
  Definition sact_op (i : nat) (prec add : list nat) (cost j : nat) : strop :=
    {| r_name := TPrim i j; r_prec := prec ++ ready j (i + 2);
       r_add := add ++ [tk j] ++ map (fun k => cn (j * (pgb - 1) + k)) (seq 0 (pgb - 1)) ++ [st j];
       r_cost := cost; r_ok := true |}.

  (** The number of operators for one method and one position (1602-1620); [None]: the function returns -1. *)
  Definition n_comb (n : nat) (nl : bool) : option nat :=
    match (match n, nl with 0, false => None | _, true => binom (pgb - 1) n | _, false => binom (pgb - 1) (n - 1) end) with
    | None => Some 1
    | Some m => let m' := if m <? 1 then 1 else m in
                if (2147483647 <=? N.of_nat m')%N then None else Some (if n <=? 1 then 1 else m')
    end.

  (** The positions of the subtasks skip [j] (1754-1758, 1784-1788). *)
  Definition skip (j x : nat) : nat := if j <=? x then x + 1 else x.
  (** Preconditions on the new positions (1745-1751, 1759-1760, 1776-1782, 1789-1790): they are free, and all other positions below the last of them are occupied. *)
  Definition fresh (j : nat) (raw : list nat) : list nat :=
    map (fun x => tk (skip j x)) raw ++
    map (fun x => if memb x raw then st (skip j x) else st (skip j x) + 1) (seq 0 (Datatypes.S (last raw 0))).

  (** Methods (1687-1840), the [k]-th choice of positions. [s] is subTasksInOrder[i], [o] the rewritten orderings, [nl] is hasNoLastTask[i]. *)
  Definition smeth_op (i : nat) (m : method) (s : list nat) (o : list (nat * nat)) (nl : bool) (j k : nat) : option strop :=
    let n := length s in
    if pgb <? n + (if nl then 1 else 0) then Some {| r_name := TMeth i j []; r_prec := []; r_add := []; r_cost := 0; r_ok := false |} else
    match s with
    | [] => Some {| r_name := TMeth i j []; r_prec := ready j (m_task m + 2);
                    r_add := [tk j] ++ map (fun k => cn (j * (pgb - 1) + k)) (seq 0 (pgb - 1)) ++ [st j]; r_cost := 0; r_ok := true |}
    | [t] => Some {| r_name := TMeth i j [j]; r_prec := ready j (m_task m + 2); r_add := [tk j + 2 + t]; r_cost := 0; r_ok := true |}
    | t :: s' =>
        raw <- combination (pgb - 1) (if nl then n else n - 1) k ;;
        let subs := map (skip j) raw in
        if nl then (* 1743-1772 *)
          os <- omap (fun e => a <- get subs (fst e) ;; b <- get subs (snd e) ;; Some (cn (ci a b) + 1)) o ;;
          Some {| r_name := TMeth i j subs; r_prec := ready j (m_task m + 2) ++ fresh j raw;
                  r_add := [tk j + 1] ++ map (fun pt => tk (fst pt) + 2 + snd pt) (combine subs s) ++ map (fun p => cn (ci p j) + 1) subs ++
                           map (fun p => st p + 1) subs ++ os;
                  r_cost := 0; r_ok := true |}
        else (* 1774-1811; the first element of an ordering must not be the last task: subs[-1] *)
          os <- omap (fun e => a <- match fst e with 0 => None | Datatypes.S x => get subs x end ;;
                               b <- match snd e with 0 => Some j | Datatypes.S x => get subs x end ;; Some (cn (ci a b) + 1)) o ;;
          Some {| r_name := TMeth i j (j :: subs); r_prec := ready j (m_task m + 2) ++ fresh j raw;
                  r_add := [tk j + t + 2] ++ map (fun pt => tk (fst pt) + 2 + snd pt) (combine subs s') ++ map (fun p => st p + 1) subs ++ os;
                  r_cost := 0; r_ok := true |}
    end.

  (** All operators: empty tasks (2297-2356), then actions and methods (1622-1625). *)
  Definition sact_ops : option (list strop) :=
    l <- omap (fun i => p <- get (sp_prec S) i ;; a <- get (sp_add S) i ;; c <- get (p_cost P) i ;;
                        Some (map (sact_op i p a c) (seq 0 pgb))) (seq 0 (length (p_cost P))) ;;
    Some (concat l).
  Definition smeth_ops : option (list strop) :=
    l <- omap (fun im => '(s, o) <- po_reorder (p_prim P) (snd im) ;;
                         let nl := no_last (length s) o in
                         cnt <- n_comb (length s) nl ;;
                         l <- omap (fun j => omap (smeth_op (fst im) (snd im) s o nl j) (seq 0 cnt)) (seq 0 pgb) ;;
                         Some (concat l))
              (combine (seq 0 (length (p_methods P))) (p_methods P)) ;;
    Some (concat l).
  Definition strips_ops : option (list strop) :=
    c <- empty_cost ;; a <- sact_ops ;; m <- smeth_ops ;; Some (map (empty_op c) (seq 0 pgb) ++ a ++ m).
End Enc.

(** ** writeToFastDown (htnToSAS.cpp 2208-2509) without conditional effects *)
Record ss_task := { ss_dom : list nat; ss_init : list nat; ss_goal : list (nat * nat); ss_ops : list (sname * fd_op) }.

Definition write_strop (c : list (option (nat * nat))) (o : strop) : option fd_op :=
  ps <- omap (conv c) (r_prec o) ;;
  es <- omap (conv c) (r_add o) ;;
  Some (write_op ps es (r_cost o)).

Definition write_strips (P : problem) (S : sproblem) (pgb : nat) (ops : list strop) : option ss_task :=
  let tv := svars P S pgb in
  c <- conv_array tv ;;
  i1 <- omap (conv c) (sp_s0 S) ;;
  i2 <- omap (conv c) (ss0 P S pgb) ;;
  g1 <- omap (conv c) (sp_goal S) ;;
  g2 <- omap (conv c) (sgoal P S pgb) ;;
  fs <- omap (fun o => f <- write_strop c o ;; Some (r_name o, f)) (filter r_ok ops) ;;
  Some {| ss_dom := map (fun v => Datatypes.S (snd v) - fst v) tv; ss_init := map snd (i1 ++ i2); ss_goal := g1 ++ g2; ss_ops := fs |}.

(** ** The pipeline for one bound (translationController.cpp 18-62) *)
Definition strips_translate (P : problem) (V : list var) (pgb : nat) : option ss_task :=
  S <- sas_plus P V ;;
  ops <- strips_ops P S pgb ;;
  write_strips P S pgb ops.

(** ** The actions printed for a plan (planToHddl, htnToSAS.cpp 2594-2664): "emptyTask" lines print nothing. *)
Definition strips_printed (plan : list sname) : list nat :=
  concat (map (fun n => match n with TPrim i _ => [i] | _ => [] end) plan).
