(** Deriving facts, tasks and methods bottom-up, and landmarks. Independent of the model. *)
From Coq Require Import List Arith.
Import ListNotations.
From Verif Require Import Htn_problem Htn_spec.

Inductive elem := EF (f : nat) | ET (t : nat) | EM (m : nat).

Section Spec.
Variable P : problem.
Variable s : nat -> Prop.
Variable R : nat -> Prop. (* the allowed tasks *)

(** [dv x W]: a derivation of [x] in the delete relaxation, [W] lists everything that occurs in it. A fact is in the state or added by a derived action, an action
    needs its preconditions, an abstract task one method, a method its subtasks. *)
Inductive dv : elem -> list elem -> Prop :=
| dv_state : forall f, s f -> dv (EF f) [EF f]
| dv_add : forall a f W, dv (ET a) W -> adds P a f -> dv (EF f) (EF f :: W)
| dv_act : forall a l W, nth_error (p_prec P) a = Some l -> R a -> dvs (map EF l) W -> dv (ET a) (ET a :: W)
| dv_task : forall m md W, nth_error (p_methods P) m = Some md -> dv (EM m) W -> dv (ET (m_task md)) (ET (m_task md) :: W)
| dv_meth : forall m md W, nth_error (p_methods P) m = Some md -> R (m_task md) -> dvs (map ET (m_subs md)) W -> dv (EM m) (EM m :: W)
with dvs : list elem -> list elem -> Prop :=
| dvs_nil : dvs [] []
| dvs_cons : forall x l W V, dv x W -> dvs l V -> dvs (x :: l) (W ++ V).

Definition derivable (x : elem) : Prop := exists W, dv x W.
(** [y] is a landmark of [x] *)
Definition landmark (x y : elem) : Prop := forall W, dv x W -> In y W.

Definition exists_elem (x : elem) : Prop :=
  match x with EF f => f < p_nfacts P | ET t => t < length (p_prim P) | EM m => m < length (p_methods P) end.
End Spec.
Scheme dv_ind2 := Induction for dv Sort Prop with dvs_ind2 := Induction for dvs Sort Prop.
Combined Scheme dv_dvs_ind from dv_ind2, dvs_ind2.

(** ** What happens in a solution *)

(** Refinement with the networks and methods on the way. *)
Inductive refines_by (P : problem) : tnet -> list (tnet * nat) -> tnet -> Prop :=
| rb_nil : forall tn, refines_by P tn [] tn
| rb_step : forall tn x m md tn1 tr tn2, nth_error (p_methods P) m = Some md -> decomposes P tn x md tn1 -> refines_by P tn1 tr tn2 -> refines_by P tn ((tn, m) :: tr) tn2.

Definition solves_by (P : problem) (s : state) (tn : tnet) (tr : list (tnet * nat)) (tn' : tnet) (plan : list nat) : Prop :=
  exists L, refines_by P tn tr tn' /\ (forall x, t_in tn' x -> primitive P (t_lab tn' x)) /\ linearisation tn' L /\ plan = map (t_lab tn') L /\
    executable P s plan /\ goal_state P (after P s plan).

(** A fact holds at some time; a task is in some network; a method is applied. *)
Definition occurs (P : problem) (s : state) (tr : list (tnet * nat)) (tn' : tnet) (plan : list nat) (y : elem) : Prop :=
  match y with
  | EF f => exists k, after P s (firstn k plan) f
  | ET t => exists tn x, (tn = tn' \/ exists m, In (tn, m) tr) /\ t_in tn x /\ t_lab tn x = t
  | EM m => exists tn, In (tn, m) tr
  end.

(** The landmarks are numbered: facts, tasks, methods. *)
Definition code (P : problem) (x : elem) : nat :=
  match x with EF f => f | ET t => p_nfacts P + t | EM m => p_nfacts P + length (p_prim P) + m end.
