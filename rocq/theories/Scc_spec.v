(** Graph notions in which the properties of the graph algorithms are stated. *)
From Verif Require Import Base.

(** [w] is an entry of the adjacency list of [v]. *)
Definition edge (G : list (list nat)) (v w : nat) : Prop := exists ns, nth_error G v = Some ns /\ In w ns.

(** A path, possibly empty. *)
Inductive reach (G : list (list nat)) : nat -> nat -> Prop :=
| reach_refl v : reach G v v
| reach_step u v w : edge G u v -> reach G v w -> reach G u w.

(** Both vertices lie on a common closed walk. *)
Definition mutual (G : list (list nat)) (u v : nat) : Prop := reach G u v /\ reach G v u.

(** All entries of adjacency lists are vertices. *)
Definition graph_wf (G : list (list nat)) : Prop := forall v w, edge G v w -> w < length G.

(** [scc] numbers the strongly connected components of the part [dom] of the graph with the numbers below [num], successors
    first. *)
Record components (G : list (list nat)) (dom : nat -> Prop) (scc : list (option nat)) (num : nat) : Prop := {
  c_len : length scc = length G;
  c_dom : forall v, dom v <-> exists k, nth_error scc v = Some (Some k);
  c_lt : forall v k, nth_error scc v = Some (Some k) -> k < num;
  c_used : forall k, k < num -> exists v, nth_error scc v = Some (Some k);
  c_same : forall u v k k', nth_error scc u = Some (Some k) -> nth_error scc v = Some (Some k') -> (k = k' <-> mutual G u v);
  c_order : forall u v k, nth_error scc u = Some (Some k) -> edge G u v -> exists k', nth_error scc v = Some (Some k') /\ k' <= k }.
