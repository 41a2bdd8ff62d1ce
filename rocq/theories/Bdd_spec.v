(** Which states a BDD of the symbolic planner stands for. *)
From Coq Require Import List Arith.
Import ListNotations.
From Verif Require Import Htn_problem Htn_spec Sas_spec Bdd_model.

(** The number written with the given BDD variables, the least significant bit first. *)
Fixpoint value (r : nat -> bool) (idx : list nat) : nat :=
  match idx with
  | [] => 0
  | v :: l => (if r v then 1 else 0) + 2 * value r l
  end.

(** The state of a valuation: fact number [d] of a variable is true iff the variable has the value [d]. *)
Definition shown (V : list (nat * nat)) (r : nat -> bool) : state :=
  fun b => exists i d, fact_of V i d b /\ value r (pre_index V i) = d.

(** States with the same facts. *)
Definition same_state (s s' : state) : Prop := forall b, s b <-> s' b.
(** The auxiliary variables (the state that was pushed) are the same. *)
Definition same_aux (V : list (nat * nat)) (r r' : nat -> bool) : Prop := forall i x, In x (aux_index V i) -> r x = r' x.
(** The function depends on current and auxiliary variables only. *)
Definition over_pre_aux (V : list (nat * nat)) (f : bdd) : Prop :=
  forall r r', (forall i x, In x (pre_index V i) \/ In x (aux_index V i) -> r x = r' x) -> f r = f r'.

(** The function stands for states in which variables with several facts have exactly one value, and the action keeps this. *)
Definition valid_for (P : problem) (V : list (nat * nat)) (a : nat) (f : bdd) : Prop :=
  forall r, f r = true -> one_value V (shown V r) /\ (applicable P (shown V r) a -> one_value V (result P (shown V r) a)).
