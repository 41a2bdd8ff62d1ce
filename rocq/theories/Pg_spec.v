(** Reachability in the delete relaxation, restricted to the tasks in [R] and combined bottom-up with the methods. Independent of the model. *)
From Coq Require Import List Arith.
Import ListNotations.
From Verif Require Import Htn_problem Htn_spec.

Section Spec.
Variable P : problem.
Variable s : nat -> Prop.
Variable R : nat -> Prop.

Inductive fact_reach : nat -> Prop :=
| fr_state : forall f, s f -> fact_reach f
| fr_add : forall a f, act_reach a -> adds P a f -> fact_reach f
with act_reach : nat -> Prop :=
| ar_intro : forall a, a < length (p_cost P) -> R a -> (forall f, precs P a f -> fact_reach f) -> act_reach a.

(** [A]: the reachable actions *)
Inductive task_reach (A : nat -> Prop) : nat -> Prop :=
| tr_action : forall a, A a -> task_reach A a
| tr_method : forall m md, method_reach A m -> nth_error (p_methods P) m = Some md -> task_reach A (m_task md)
with method_reach (A : nat -> Prop) : nat -> Prop :=
| mr_intro : forall m md, nth_error (p_methods P) m = Some md -> R (m_task md) -> (forall t, In t (m_subs md) -> task_reach A t) -> method_reach A m.
End Spec.
Scheme fact_reach_ind2 := Induction for fact_reach Sort Prop with act_reach_ind2 := Induction for act_reach Sort Prop.
Combined Scheme reach_ind from fact_reach_ind2, act_reach_ind2.
Scheme task_reach_ind2 := Induction for task_reach Sort Prop with method_reach_ind2 := Induction for method_reach Sort Prop.
Combined Scheme task_method_ind from task_reach_ind2, method_reach_ind2.
