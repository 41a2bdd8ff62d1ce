(** Translation of partially ordered HTN problems to SAS+ problems with conditional effects (src/translation/htnToSAS.cpp, htnToCondSorted,
    encoding "Push", the default for partially ordered problems), and the written file.

    Simplifications as in Sas_model. The contents of memory that is allocated but not initialised are a parameter. *)
From Verif Require Import Base Htn_problem Sas_model.

(** ** reorderTasks (htnToSAS.cpp 304-418): subTasksInOrder and the rewritten orderings (371-377); hasNoLastTask is not used by this encoding. *)
Definition po_reorder (prim : list bool) (m : method) : option (list nat * list (nat * nat)) :=
  let n := length (m_subs m) in
  match m_subs m with
  | [] => Some ([], m_ord m)
  | [t] => b <- get prim t ;; Some ([t], m_ord m)
  | _ =>
      match m_ord m with
      | [] => Some (rev (m_subs m), [])
      | _ =>
          subs <- picks n (m_ord m) n [] ;;
          s <- omap (fun k => get (m_subs m) (n - 1 - k)) subs ;;
          o <- omap (fun e => a <- get subs (fst e) ;; b <- get subs (snd e) ;; Some (n - 1 - a, n - 1 - b)) (m_ord m) ;;
          f <- lead_prims prim (m_subs m) ;;
          Some (s, o)
      end
  end.

(** ** htnToCondSorted (htnToSAS.cpp 547-949) *)

(** Operator names (914-947): primitive(id,head), method(id,head,subtasks), move(task,from,to). *)
Inductive pname :=
| QPrim (id head : nat)
| QMeth (id head : nat) (subs : list nat)
| QMove (task from to : nat).

(** Preconditions, unconditional effects, conditional effects (condition, effect; every one has just one condition), cost, not invalidTransActions. *)
Record pop := { q_name : pname; q_prec : list nat; q_add : list nat; q_cond : list (nat * nat); q_cost : nat; q_ok : bool }.

(** The number of constraints between positions below [k]: k * (k - 1) / 2. *)
Definition tri (k : nat) : nat := k * (k - 1) / 2.

Section Enc.
  Variables (P : problem) (S : sproblem) (pgb : nat).
  (** Contents of the two uninitialised conditional effects of the operator that moves a task (see [move_op]): task, position, number -> condition, effect. *)
  Variable u : nat -> nat -> nat -> nat * nat.

  (** The first facts of the variables for tasks, constraints, occupied and movable positions (firstIndexTrans, 549-586), the running sums in closed form. *)
  Definition tk (j : nat) : nat := head0 S + j * Datatypes.S (ntasks P).
  Definition cn (i : nat) : nat := tk pgb + 2 * i.
  Definition st (j : nat) : nat := cn (tri pgb) + 2 * j.
  Definition mv (j : nat) : nat := st pgb + 2 * j.
  (** firstIndexTrans, lastIndexTrans (561-586) *)
  Definition pvars : list var :=
    sp_var S ++ map (fun j => (tk j, tk j + ntasks P)) (seq 0 pgb) ++ map (fun i => (cn i, cn i + 1)) (seq 0 (tri pgb)) ++
    map (fun j => (st j, st j + 1)) (seq 0 pgb) ++ map (fun j => (mv j, mv j + 1)) (seq 0 pgb).
  (** s0ListTrans (632-640) and gListTrans (642-647) *)
  Definition ps0 : list nat :=
    [tk 0 + p_init P + 1] ++ map tk (seq 1 (pgb - 1)) ++ map cn (seq 0 (tri pgb)) ++ [st 0 + 1] ++ map st (seq 1 (pgb - 1)) ++ map mv (seq 0 pgb).
  Definition pgoal : list nat := map tk (seq 0 pgb).

  (** A task at position [j] can be processed if no task has to precede it and all lower positions are occupied (752-763, 801-811); [b] is its value. *)
  Definition ready (j b : nat) : list nat :=
    map (fun k => if k <? j then st k + 1 else if j <? k then cn (tri k + j) else tk j + b) (seq 0 pgb).
  (** What is set when position [j] becomes free (755, 764-765; 814-818) *)
  Definition leave (j : nat) : list nat := map (fun k => cn (tri j + k)) (seq 0 j) ++ [tk j; st j].

  (** Actions (673-677, 687-692, 739-767) *)
  Definition pact_op (i : nat) (prec add : list nat) (cost j : nat) : pop :=
    {| q_name := QPrim i j; q_prec := prec ++ ready j (i + 1); q_add := add ++ leave j; q_cond := []; q_cost := cost; q_ok := true |}.

  (** The position of a subtask after decomposing position [j] (835-848); the subtraction of one is done first. *)
  Definition place (n j a : nat) : nat := match a with 0 => j | Datatypes.S b => pgb - n + b + 1 end.
  (** Methods (678-680, 693-713, 770-854). [s] is subTasksInOrder[i], [o] the rewritten orderings. *)
  Definition pmeth_op (i : nat) (m : method) (s : list nat) (o : list (nat * nat)) (j : nat) : pop :=
    let n := length s in
    {| q_name := QMeth i j (match n with 0 => [] | _ => j :: map (fun l => pgb - n + 1 + l) (seq 0 (n - 1)) end);
       q_prec := ready j (m_task m + 1) ++ map (fun l => tk (pgb - 1 - l)) (seq 0 (n - 1));
       q_add := match s with
                | [] => leave j
                | t :: r => tk j + 1 + t :: map (fun lt => tk (pgb - n + 1 + fst lt) + 1 + snd lt) (combine (seq 0 (n - 1)) r) ++
                            map (fun l => st (pgb - 1 - l) + 1) (seq 0 (n - 1))
                end;
       q_cond := if n <=? 1 then [] else
                 concat (map (fun l => map (fun k => (cn (tri j + k) + 1, cn (tri (pgb - l - 1) + k) + 1)) (seq 0 j)) (seq 0 (n - 1))) ++
                 map (fun e => let x := tri (place n j (fst e)) + place n j (snd e) in (cn x, cn x + 1)) o;
       q_cost := 0;
       q_ok := n + j <=? pgb |}.

  (** Moving task [i] from position [j] to [j - 1] (857-905). There are pgb + 2 conditional effects (pgb for j = 1), but only pgb (pgb - 2)
      are filled (714-730, 877-901): the last two are uninitialised. *)
  Definition move_op (i j : nat) : pop :=
    {| q_name := QMove i j (j - 1);
       q_prec := [tk j + 1 + i; st j + 1; tk (j - 1); st (j - 1)] ++ map (fun l => if l <? j then mv l else mv (l + 1)) (seq 0 (pgb - 2));
       q_add := [tk j; st j; tk (j - 1) + 1 + i; st (j - 1) + 1; mv j] ++
                map (fun l => if l <? j - 1 then cn (tri j + l) else cn (tri (l + 2) + j)) (seq 0 (pgb - 2));
       q_cond := map (fun l => if l <? j - 1 then (cn (tri j + l) + 1, cn (tri (j - 1) + l) + 1)
                               else (cn (tri (l + 2) + j) + 1, cn (tri (l + 2) + j - 1) + 1)) (seq 0 (pgb - 2)) ++
                 (if 1 <? j then [(st (j - 2), mv (j - 1) + 1); (st (j - 2) + 1, mv (j - 1))] else []) ++
                 [u i j 0; u i j 1];
       q_cost := 0; q_ok := true |}.

  (** All operators: actions, methods, moves (665-667). *)
  Definition pact_ops : option (list pop) :=
    l <- omap (fun i => p <- get (sp_prec S) i ;; a <- get (sp_add S) i ;; c <- get (p_cost P) i ;;
                        Some (map (pact_op i p a c) (seq 0 pgb))) (seq 0 (length (p_cost P))) ;;
    Some (concat l).
  Definition pmeth_ops : option (list pop) :=
    l <- omap (fun im => '(s, o) <- po_reorder (p_prim P) (snd im) ;; Some (map (pmeth_op (fst im) (snd im) s o) (seq 0 pgb)))
              (combine (seq 0 (length (p_methods P))) (p_methods P)) ;;
    Some (concat l).
  Definition move_ops : list pop := concat (map (fun i => map (move_op i) (seq 1 (pgb - 1))) (seq 0 (ntasks P))).
  Definition push_ops : option (list pop) := a <- pact_ops ;; m <- pmeth_ops ;; Some (a ++ m ++ move_ops).
End Enc.

(** ** writeToFastDown (htnToSAS.cpp 2208-2509) with conditional effects (2446-2450, 2475-2491) *)

(** An operator in the file: the unconditional part, and the conditional effects (condition, effect) that follow it. *)
Record cd_op := { c_op : fd_op; c_cond : list ((nat * nat) * (nat * nat)) }.
Record cd_task := { cd_dom : list nat; cd_init : list nat; cd_goal : list (nat * nat); cd_ops : list (pname * cd_op) }.

(** [ce] is hasCondEff: without it the conditional effects are not written. *)
Definition write_pop (c : list (option (nat * nat))) (ce : bool) (o : pop) : option cd_op :=
  ps <- omap (conv c) (q_prec o) ;;
  es <- omap (conv c) (q_add o) ;;
  cs <- omap (fun e => a <- conv c (fst e) ;; b <- conv c (snd e) ;; Some (a, b)) (if ce then q_cond o else []) ;;
  Some {| c_op := write_op ps es (q_cost o); c_cond := cs |}.

Definition write_push (P : problem) (S : sproblem) (pgb : nat) (ce : bool) (ops : list pop) : option cd_task :=
  let tv := pvars P S pgb in
  c <- conv_array tv ;;
  i1 <- omap (conv c) (sp_s0 S) ;;
  i2 <- omap (conv c) (ps0 P S pgb) ;;
  g1 <- omap (conv c) (sp_goal S) ;;
  g2 <- omap (conv c) (pgoal P S pgb) ;;
  fs <- omap (fun o => f <- write_pop c ce o ;; Some (q_name o, f)) (filter q_ok ops) ;;
  Some {| cd_dom := map (fun v => Datatypes.S (snd v) - fst v) tv; cd_init := map snd (i1 ++ i2); cd_goal := g1 ++ g2; cd_ops := fs |}.

(** ** The pipeline for one bound (translationController.cpp 18-62, 70-79): encoding "Push" is written with, encoding "pocond" without conditional effects. *)
Definition push_translate (P : problem) (V : list var) (pgb : nat) (ce : bool) (u : nat -> nat -> nat -> nat * nat) : option cd_task :=
  S <- sas_plus P V ;;
  ops <- push_ops P S pgb u ;;
  write_push P S pgb ce ops.

(** ** The actions printed for a plan (planToHddl, htnToSAS.cpp 2594-2664): "move" lines print nothing. *)
Definition push_printed (plan : list pname) : list nat :=
  concat (map (fun n => match n with QPrim i _ => [i] | _ => [] end) plan).
