(** Costs of plans, independent of the encoder. *)
From Coq Require Import List Arith.
Import ListNotations.
From Verif Require Import Htn_problem Htn_spec.

(** The cost of a plan for a table of action costs. *)
Fixpoint plan_cost (cost : list nat) (plan : list nat) : nat :=
  match plan with [] => 0 | a :: r => nth a cost 0 + plan_cost cost r end.

(** The cost counted in units of [u], rounded down for every action. *)
Fixpoint unit_cost (u : nat) (cost : list nat) (plan : list nat) : nat :=
  match plan with [] => 0 | a :: r => nth a cost 0 / u + unit_cost u cost r end.
