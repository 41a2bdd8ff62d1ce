(** Costs and sizes of the refinements of a task. Independent of the model. *)
From Coq Require Import List ZArith.
Import ListNotations.
From Verif Require Import Htn_problem Htn_spec.

(** The task [t] can be refined to actions of total cost [c] using [d] actions and decompositions. *)
Inductive refinement (P : problem) : nat -> nat -> nat -> Prop :=
| rf_prim : forall a, primitive P a -> refinement P a (cost_of P a) 1
| rf_abs : forall m c d, In m (p_methods P) -> refinements P (m_subs m) c d -> refinement P (m_task m) c (S d)
with refinements (P : problem) : list nat -> nat -> nat -> Prop :=
| rfs_nil : refinements P [] 0 0
| rfs_cons : forall t ts c d cs ds, refinement P t c d -> refinements P ts cs ds -> refinements P (t :: ts) (c + cs) (d + ds).

(** Refining a network, with the number of decompositions. *)
Inductive refines_in (P : problem) : tnet -> nat -> tnet -> Prop :=
| ri_refl : forall tn, refines_in P tn 0 tn
| ri_step : forall tn x m tn' n tn'', decomposes P tn x m tn' -> refines_in P tn' n tn'' -> refines_in P tn (S n) tn''.

(** [L] lists the tasks of a network. *)
Definition lists (tn : tnet) (L : list tid) : Prop := NoDup L /\ forall x, In x L <-> t_in tn x.

(** No task contains itself. *)
Definition acyclic_hierarchy (P : problem) : Prop :=
  exists rank : nat -> nat, forall m t, In m (p_methods P) -> In t (m_subs m) -> rank t < rank (m_task m).

(** The reader puts the actions first. *)
Definition actions_first (P : problem) : Prop := forall t, t < length (p_cost P) -> primitive P t.

Definition has_method (P : problem) (t : nat) : Prop := exists m, In m (p_methods P) /\ m_task m = t.

(** Every action and every task with a method has refinements of cost [c t] and of size [d t]; the sums over each method are at
    most [max]. *)
Definition short_refinements (P : problem) (max : Z) (c d : nat -> nat) : Prop :=
  (forall t, t < length (p_cost P) \/ has_method P t -> (exists e, refinement P t (c t) e) /\ (exists e, refinement P t e (d t))) /\
  forall m, In m (p_methods P) -> (Z.of_nat (list_sum (map c (m_subs m))) <= max)%Z /\ (Z.of_nat (S (list_sum (map d (m_subs m)))) <= max)%Z.
