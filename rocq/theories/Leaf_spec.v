(** What the separation of actions without effects is about. *)
From Coq Require Import List.
Import ListNotations.
From Verif Require Import Htn_problem Posog_spec Pdt_model.

(** Every vertex carries tasks of one kind: only actions without effects, or only other tasks. *)
Definition separated (P : problem) (labels : list (list nat)) : Prop :=
  forall v ls t t', nth_error labels v = Some ls -> In t ls -> In t' ls -> (no_effect P t <-> no_effect P t').

(** A node of the tree: its actions are of one kind, and a node with abstract tasks has no action without effects. *)
Definition pure (P : problem) (d : pnode) : Prop :=
  (forall p, In p (pn_prims d) -> nth p (p_prim P) false = true) /\
  (forall p q, In p (pn_prims d) -> In q (pn_prims d) -> (no_effect P p <-> no_effect P q)) /\
  (pn_abs d <> [] -> forall p, In p (pn_prims d) -> ~ no_effect P p).

(** Actions are numbered before abstract tasks (Model.h: isPrimitive is t < numActions). *)
Definition actions_first (P : problem) : Prop := forall t, nth t (p_prim P) false = false -> length (p_add P) <= t.
