(** What a placement of a sequence of tasks on a sequence of labelled vertices is. *)
From Coq Require Import List Arith.
Import ListNotations.

(** The [j]-th task goes to vertex [nth j pos]: an own vertex for every task, in the same order. *)
Definition placement (n : nat) (sq pos : list nat) : Prop :=
  length pos = length sq /\ (forall p, In p pos -> p < n) /\ forall i j, i < j -> j < length pos -> nth i pos 0 < nth j pos 0.

(** How many tasks are not yet among the labels of their vertex. *)
Fixpoint new_labels (labels : list (list nat)) (sq pos : list nat) : nat :=
  match sq, pos with
  | t :: sr, p :: pr => (if in_dec Nat.eq_dec t (nth p labels []) then 0 else 1) + new_labels labels sr pr
  | _, _ => 0
  end.
