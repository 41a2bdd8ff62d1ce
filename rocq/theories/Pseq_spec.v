(** The inputs for which the translation with parallel sequences is correct. *)
From Coq Require Import List Arith.
Import ListNotations.
From Verif Require Import Htn_problem Htn_spec.

(** The listing of the subtasks is the only order in which they may be executed. *)
Definition total (m : method) : Prop := forall a b, a < b < length (m_subs m) -> m_lt m a b.
(** All methods but those of the initial task are totally ordered. *)
Definition sequences (P : problem) : Prop := forall m, In m (p_methods P) -> m_task m <> p_init P -> total m.
(** The methods of the initial task have the same number of subtasks. *)
Definition same_width (P : problem) : Prop :=
  forall m m', In m (p_methods P) -> In m' (p_methods P) -> m_task m = p_init P -> m_task m' = p_init P -> length (m_subs m) = length (m_subs m').
(** The initial task is not a subtask of any method. *)
Definition init_once (P : problem) : Prop := forall m, In m (p_methods P) -> ~ In (p_init P) (m_subs m).
Definition init_decomposable (P : problem) : Prop := exists m, In m (p_methods P) /\ m_task m = p_init P.
