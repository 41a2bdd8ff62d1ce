(** Local landmarks (Elkawkagy et al.), independent of the model: a task whose methods all contain [u] has the local landmark [u]. *)
From Coq Require Import List Relations.
Import ListNotations.
From Verif Require Import Htn_problem.

(** [t] has a method, and [u] is a subtask of all its methods. *)
Definition local (P : problem) (t u : nat) : Prop :=
  (exists m, In m (p_methods P) /\ m_task m = t) /\ forall m, In m (p_methods P) -> m_task m = t -> In u (m_subs m).

(** Recursively *)
Definition recursive_local (P : problem) : nat -> nat -> Prop := clos_trans nat (local P).
