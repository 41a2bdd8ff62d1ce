(** Carrying out a task of a totally ordered problem with a bounded stack. Independent of the model (apart from the type of
    the result of the planner). *)
From Coq Require Import List Arith ZArith.
Import ListNotations.
From Verif Require Import Htn_problem Htn_spec Mix_spec Sas_spec Pgb_model.

(** The task [t] can be refined to the actions [p] with [k] cells: an action needs a cell; the subtasks after the leading actions of a method are put
    on the stack, the first one on top. *)
Inductive carried (P : problem) : nat -> nat -> list nat -> Prop :=
| c_prim : forall t k, primitive P t -> 1 <= k -> carried P t k [t]
| c_meth : forall m prims rest k p, In m (p_methods P) -> m_subs m = prims ++ rest -> leading P m prims -> 1 <= k -> stack P rest k p ->
    carried P (m_task m) k (prims ++ p)
(** ... the stack [ts], with [k] cells for all of it *)
with stack (P : problem) : list nat -> nat -> list nat -> Prop :=
| s_nil : forall k, stack P [] k []
| s_cons : forall t ts k p q, length ts < k -> carried P t (k - length ts) p -> stack P ts k q -> stack P (t :: ts) k (p ++ q).

(** Every task with a method can be refined with [c t] cells, and the values stay below [max]. *)
Definition small_refinements (P : problem) (max : Z) (c : nat -> nat) : Prop :=
  (forall t, has_method P t -> exists p, carried P t (c t) p) /\
  forall m t, In m (p_methods P) -> In t (m_subs m) -> (Z.of_nat (2 * length (m_subs m) + c t) <= max)%Z.

(** The called planner is sound and complete: it finds a plan, or ends with an error code above 10 (documented ones are 512, 1280, 2816 and 3072) and there
    is no plan. [plans b] are the plans of the task written for the bound [b]. *)
Definition complete_planner {A : Type} (plans : nat -> A -> Prop) (solve : nat -> option (fdout A)) : Prop :=
  forall b, 1 <= b -> (exists pl, solve b = Some (FdPlan pl) /\ plans b pl) \/ (exists c, (10 < c)%Z /\ solve b = Some (FdCode c) /\ forall pl, ~ plans b pl).
