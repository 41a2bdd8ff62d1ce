(** Semantics of planning tasks with conditional effects, and the inputs for which the translation of partially ordered problems is correct. *)
From Coq Require Import List Arith.
Import ListNotations.
From Verif Require Import Htn_problem Htn_spec Sas_model Sas_spec Push_model.

Definition holdsb (s : list nat) (p : nat * nat) : bool := match nth_error s (fst p) with Some d => d =? snd p | None => false end.

(** The effects whose condition holds in the state [s] before the operator is applied, carried out in their order. *)
Definition cd_result (s : list nat) (o : cd_op) : list nat :=
  fold_left (fun s' e => if holdsb s (fst e) then assign s' (fst (snd e)) (snd (snd e)) else s') (c_cond o) (fd_result s (c_op o)).

Inductive cd_run (T : cd_task) : list nat -> list (pname * cd_op) -> list nat -> Prop :=
| crun_nil : forall s, cd_run T s [] s
| crun_cons : forall s n o r s', In (n, o) (cd_ops T) -> fd_applicable s (c_op o) -> cd_run T (cd_result s o) r s' ->
    cd_run T s ((n, o) :: r) s'.

Definition cd_plan (T : cd_task) (pl : list (pname * cd_op)) : Prop :=
  exists s, cd_run T (cd_init T) pl s /\ forall p, In p (cd_goal T) -> holds s p.
Definition cd_plan_cost (pl : list (pname * cd_op)) : nat := list_sum (map (fun o => f_cost (c_op (snd o))) pl).

(** Well-formed tasks: values lie in the domains. *)
Definition cd_in_dom (T : cd_task) (p : nat * nat) : Prop := exists n, nth_error (cd_dom T) (fst p) = Some n /\ snd p < n.
Record cd_wf (T : cd_task) : Prop := {
  cw_init : length (cd_init T) = length (cd_dom T) /\ forall v d, nth_error (cd_init T) v = Some d -> cd_in_dom T (v, d);
  cw_goal : forall p, In p (cd_goal T) -> cd_in_dom T p;
  cw_prev : forall n o p, In (n, o) (cd_ops T) -> In p (f_prev (c_op o)) -> cd_in_dom T p;
  cw_eff : forall n o v c d, In (n, o) (cd_ops T) -> In (v, c, d) (f_eff (c_op o)) -> cd_in_dom T (v, d) /\ forall e, c = Some e -> cd_in_dom T (v, e);
  cw_cond : forall n o p q, In (n, o) (cd_ops T) -> In (p, q) (c_cond o) -> cd_in_dom T p /\ cd_in_dom T q }.

(** The listing of the subtasks of each method is in line with its orderings, and its last two tasks are ordered (unless there are no orderings). *)
Definition listed_po (P : problem) : Prop :=
  forall m, In m (p_methods P) -> (forall a b, In (a, b) (m_ord m) -> a < b) /\
    (m_ord m <> [] -> In (length (m_subs m) - 2, length (m_subs m) - 1) (m_ord m)).

(** Uninitialised memory happens to be zero. *)
Definition zeroed (u : nat -> nat -> nat -> nat * nat) : Prop := forall i j e, u i j e = (0, 0).
