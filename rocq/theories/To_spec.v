(** Derivations of totally ordered HTN problems: a task derives a plan as a nonterminal of a grammar derives a word. *)
From Coq Require Import List.
Import ListNotations.
From Verif Require Import Htn_problem Htn_spec.

(** [o] lists the subtasks of the method in the order in which they have to be executed. *)
Definition total_seq (m : method) (o : list nat) : Prop :=
  NoDup o /\ (forall j, In j o <-> j < length (m_subs m)) /\ forall l1 a l2 b, o = l1 ++ a :: l2 -> In b l2 -> m_lt m a b.

(** The task [t] derives [plan] with at most [h] nested method applications. *)
Fixpoint derives (P : problem) (h : nat) (t : nat) (plan : list nat) : Prop :=
  (primitive P t /\ plan = [t]) \/
  match h with
  | 0 => False
  | S h' => exists m o plans,
      In m (p_methods P) /\ m_task m = t /\ total_seq m o /\
      Forall2 (fun j p => exists u, nth_error (m_subs m) j = Some u /\ derives P h' u p) o plans /\
      plan = concat plans
  end.
