(** Delete-relaxed STRIPS planning, stated without any algorithm. A task is given by its operators (numbered from 0),
    with preconditions, add effects and costs; delete effects play no role here. *)
From Verif Require Import Base.

Section RELAX.
Variables (nops : nat) (pre add : nat -> list nat) (cost : nat -> nat) (s : list nat).

(** Facts reachable from [s] when nothing is ever deleted. *)
Inductive rreach : nat -> Prop :=
| rr_init f : In f s -> rreach f
| rr_op op f : op < nops -> (forall p, In p (pre op) -> rreach p) -> In f (add op) -> rreach f.

(** The costs of the ways to derive a fact: true facts cost nothing; an operator costs its own cost plus the aggregate
    of the costs of its preconditions. With [agg] = maximum the cheapest derivation has the cost h^max, with
    [agg] = sum it has the cost h^add. *)
Inductive deriv (agg : list nat -> nat) : nat -> nat -> Prop :=
| dv_init f : In f s -> deriv agg f 0
| dv_op op f (c : nat -> nat) : op < nops -> (forall p, In p (pre op) -> deriv agg p (c p)) -> In f (add op) ->
    deriv agg f (cost op + agg (map c (pre op))).

(** [v] is the cost of a cheapest derivation. *)
Definition cheapest agg f v := deriv agg f v /\ (forall v', deriv agg f v' -> v <= v').

(** Executing operators one after the other without deleting anything. *)
Fixpoint rexec (st : nat -> Prop) (ops : list nat) : (nat -> Prop) -> Prop :=
  match ops with
  | [] => fun out => forall f, out f <-> st f
  | op :: t => fun out => op < nops /\ (forall p, In p (pre op) -> st p) /\ rexec (fun f => st f \/ In f (add op)) t out
  end.

(** A relaxed plan for the goals [g]. *)
Definition rplan (ops : list nat) (g : list nat) : Prop :=
  exists out, rexec (fun f => In f s) ops out /\ (forall f, In f g -> out f).

Definition pcost (ops : list nat) : nat := list_sum (map cost ops).

(** Real execution: an operator removes its delete effects and then adds its add effects. *)
Fixpoint sexec (del : nat -> list nat) (st : nat -> Prop) (ops : list nat) : (nat -> Prop) -> Prop :=
  match ops with
  | [] => fun out => forall f, out f <-> st f
  | op :: t => fun out => op < nops /\ (forall p, In p (pre op) -> st p) /\
                          sexec del (fun f => (st f /\ ~ In f (del op)) \/ In f (add op)) t out
  end.

(** A (real) plan for the goals [g]. *)
Definition splan (del : nat -> list nat) (ops : list nat) (g : list nat) : Prop :=
  exists out, sexec del (fun f => In f s) ops out /\ (forall f, In f g -> out f).

(** Every relaxed plan uses one of these operators. *)
Definition disj_landmark (g L : list nat) : Prop := forall ops, rplan ops g -> exists op, In op ops /\ In op L.
End RELAX.
