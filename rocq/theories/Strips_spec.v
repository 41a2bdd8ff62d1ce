(** Semantics of the written planning task, and the inputs for which the translation without conditional effects is correct. *)
From Coq Require Import List Arith NArith.
Import ListNotations.
From Verif Require Import Htn_problem Htn_spec Sas_model Sas_spec Push_spec Strips_model.

Inductive ss_run (T : ss_task) : list nat -> list (sname * fd_op) -> list nat -> Prop :=
| srun_nil : forall s, ss_run T s [] s
| srun_cons : forall s n o r s', In (n, o) (ss_ops T) -> fd_applicable s o -> ss_run T (fd_result s o) r s' -> ss_run T s ((n, o) :: r) s'.
Definition ss_plan (T : ss_task) (pl : list (sname * fd_op)) : Prop :=
  exists s, ss_run T (ss_init T) pl s /\ forall p, In p (ss_goal T) -> holds s p.
Definition ss_plan_cost (pl : list (sname * fd_op)) : nat := list_sum (map (fun o => f_cost (snd o)) pl).
(** The number of operators for empty tasks in a plan *)
Definition empties (pl : list sname) : nat := list_sum (map (fun n => match n with TEmpty _ => 1 | _ => 0 end) pl).

(** Well-formed tasks: values lie in the domains. *)
Definition ss_in_dom (T : ss_task) (p : nat * nat) : Prop := exists n, nth_error (ss_dom T) (fst p) = Some n /\ snd p < n.
Record ss_wf (T : ss_task) : Prop := {
  sw_init : length (ss_init T) = length (ss_dom T) /\ forall v d, nth_error (ss_init T) v = Some d -> ss_in_dom T (v, d);
  sw_goal : forall p, In p (ss_goal T) -> ss_in_dom T p;
  sw_prev : forall n o p, In (n, o) (ss_ops T) -> In p (f_prev o) -> ss_in_dom T p;
  sw_eff : forall n o v c d, In (n, o) (ss_ops T) -> In (v, c, d) (f_eff o) -> ss_in_dom T (v, d) /\ forall e, c = Some e -> ss_in_dom T (v, e) }.

(** If the first subtask of a method precedes all others, then all others precede the last one. *)
Definition last_after_first (P : problem) : Prop :=
  forall m, In m (p_methods P) -> (forall a, 0 < a < length (m_subs m) -> m_lt m 0 a) -> forall a, S a < length (m_subs m) -> m_lt m a (length (m_subs m) - 1).

(** Pascal's triangle: the number of ways to choose [k] of [n] positions *)
Fixpoint choose (n k : nat) : nat :=
  match k, n with
  | 0, _ => 1
  | S _, 0 => 0
  | S k', S n' => choose n' k' + choose n' k
  end.
Definition increasing (l : list nat) : Prop := forall i j x y, i < j -> nth_error l i = Some x -> nth_error l j = Some y -> x < y.
(** There are less than INT_MAX choices of positions for the subtasks of every method. *)
Definition few_choices (P : problem) (pgb : nat) : Prop :=
  forall m, In m (p_methods P) -> forall k, k = length (m_subs m) \/ k = length (m_subs m) - 1 -> (N.of_nat (choose (pgb - 1) k) < 2147483647)%N.
