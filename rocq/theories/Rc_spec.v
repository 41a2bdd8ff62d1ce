(** Solutions together with the methods that are applied (compare [solves] in Htn_spec). *)
From Coq Require Import List.
Import ListNotations.
From Verif Require Import Htn_problem Htn_spec.

(** [refines_by P tn ms tn']: [tn'] results from [tn] by applying the methods with the indices [ms]. *)
Inductive refines_by (P : problem) : tnet -> list nat -> tnet -> Prop :=
| rb_refl : forall tn, refines_by P tn [] tn
| rb_step : forall tn x i m tn' ms tn'', nth_error (p_methods P) i = Some m -> decomposes P tn x m tn' ->
    refines_by P tn' ms tn'' -> refines_by P tn (i :: ms) tn''.

Definition solves_by (P : problem) (s : state) (tn : tnet) (ms : list nat) (plan : list nat) : Prop :=
  exists tn' L,
    refines_by P tn ms tn' /\
    (forall x, t_in tn' x -> primitive P (t_lab tn' x)) /\
    linearisation tn' L /\
    plan = map (t_lab tn') L /\
    executable P s plan /\
    goal_state P (after P s plan).

(** Further assumptions about the input: the actions are the first tasks and no precondition is listed twice. *)
Record rc_input (P : problem) : Prop := {
  ri_prim : forall t, t < length (p_cost P) -> nth_error (p_prim P) t = Some true;
  ri_prec : forall l, In l (p_prec P) -> NoDup l }.
