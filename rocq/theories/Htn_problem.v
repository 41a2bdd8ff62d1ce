(** Grounded HTN problems as stored by src/Model.h after reading (data only, shared by the model and the
    specification). *)
From Coq Require Import List.

(** ** Input data *)

(** One method as stored after reading (Model.h: decomposedTask, subTasks, ordering; the flat
    array [ordering[m]] of even length is a list of pairs here). *)
Record method := { m_task : nat; m_subs : list nat; m_ord : list (nat * nat) }.

(** Model.h: numStateBits, isPrimitive, precLists/addLists/delLists, actionCosts, methods,
    initialTask, s0List, gList. The arrays precLists.. have one entry per action. *)
Record problem := {
  p_nfacts : nat;
  p_prim : list bool;
  p_prec : list (list nat);
  p_add : list (list nat);
  p_del : list (list nat);
  p_cost : list nat;
  p_methods : list method;
  p_init : nat;
  p_s0 : list nat;
  p_goal : list nat }.

