(** Specification for the constraints against disconnected cycles. *)
From Verif Require Import Base Htn_problem Htn_spec.

(** A task is connected to the network by methods of a set. *)
Inductive linked (P : problem) (tn : tnet) (M : nat -> Prop) : nat -> Prop :=
| lk_net : forall y, t_in tn y -> linked P tn M (t_lab tn y)
| lk_method : forall m md t, M m -> nth_error (p_methods P) m = Some md -> linked P tn M (m_task md) -> In t (m_subs md) -> linked P tn M t.
