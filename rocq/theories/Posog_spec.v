(** What the ordering graphs of partially ordered decomposition trees should be. Independent of the model functions; only the type [otree] of
    trees is taken from there. *)
From Coq Require Import Relation_Operators.
From Verif Require Import Base Htn_problem.
From Verif Require Import Posog_model.

(** A graph given by successor lists over the vertices 0 .. n-1. *)
Definition edge (adj : list (list nat)) (x y : nat) : Prop := exists l, nth_error adj x = Some l /\ In y l.
Definition wf_graph (adj : list (list nat)) : Prop := forall x y, edge adj x y -> y < length adj.
(** x is ordered before y *)
Definition precedes (adj : list (list nat)) : nat -> nat -> Prop := clos_trans nat (edge adj).
Definition dag (adj : list (list nat)) : Prop := forall x, ~ precedes adj x x.
(** [bdj] are the predecessor lists of the same order *)
Definition converse (adj bdj : list (list nat)) : Prop := forall x y, precedes bdj y x <-> precedes adj x y.

(** The orderings of a method form a strict partial order on its subtasks (transitively closed, as after Model.cpp 3083-3087). *)
Record closed_order (me : method) : Prop := {
  co_rng : forall a b, In (a, b) (m_ord me) -> a < length (m_subs me) /\ b < length (m_subs me);
  co_irr : forall a, ~ In (a, a) (m_ord me);
  co_trans : forall a b c, In (a, b) (m_ord me) -> In (b, c) (m_ord me) -> In (a, c) (m_ord me) }.

(** Effects are known for every primitive task. *)
Definition effects_known (P : problem) : Prop := forall t, nth t (p_prim P) false = true -> t < length (p_add P) /\ t < length (p_del P).

(** The method [me] is embedded by [mp] in a graph with [n] vertices, labels and edges: subtasks go to different vertices that carry their label,
    and two subtasks are ordered by an edge exactly if the method orders them. *)
Record embedded (n : nat) (labels : list (list nat)) (adj : nat -> nat -> Prop) (me : method) (mp : list nat) : Prop := {
  em_len : length mp = length (m_subs me);
  em_inj : NoDup mp;
  em_rng : forall v, In v mp -> v < n;
  em_lab : forall i v t, nth_error mp i = Some v -> nth_error (m_subs me) i = Some t -> exists ls, nth_error labels v = Some ls /\ In t ls;
  em_ord : forall i j u v, nth_error mp i = Some u -> nth_error mp j = Some v -> (adj u v <-> In (i, j) (m_ord me)) }.

(** A primitive task without add and delete effects. *)
Definition no_effect (P : problem) (t : nat) : Prop :=
  nth t (p_prim P) false = true /\ nth_error (p_add P) t = Some [] /\ nth_error (p_del P) t = Some [].

(** A method to be merged: it exists, its order is closed, and its entry of methodTotalOrder lists its subtasks. *)
Definition meth_ok (P : problem) (mto : list (list nat)) (m : nat) : Prop :=
  exists me o, nth_error (p_methods P) m = Some me /\ closed_order me /\ nth_error mto m = Some o /\ Permutation o (seq 0 (length (m_subs me))).

(** ** Decomposition trees *)
Fixpoint subtree (t : otree) (p : list nat) : option otree :=
  match p with
  | [] => Some t
  | i :: r => match t with OLeaf _ _ _ => None | ONode _ _ cs => match nth_error cs i with Some c => subtree c r | None => None end end
  end.
(** the paths of the leafs, from left to right *)
Fixpoint number {A} (i : nat) (l : list (list A)) (f : nat -> A -> A) : list A :=
  match l with [] => [] | x :: r => map (f i) x ++ number (S i) r f end.
Fixpoint leaf_paths (t : otree) : list (list nat) :=
  match t with
  | OLeaf _ _ _ => [[]]
  | ONode _ _ cs => number 0 (map leaf_paths cs) cons
  end.
(** p is ordered before q by the node where the two paths separate *)
Definition tree_before (t : otree) (p q : list nat) : Prop :=
  exists r i j p' q' adj bdj cs, p = r ++ i :: p' /\ q = r ++ j :: q' /\ subtree t r = Some (ONode adj bdj cs) /\ precedes adj i j.
(** every node has one child per vertex of its graph, which is acyclic *)
Inductive wf_otree : otree -> Prop :=
| wo_leaf id prims abs : wf_otree (OLeaf id prims abs)
| wo_node adj bdj cs : length adj = length cs -> length bdj = length cs -> cs <> [] -> wf_graph adj -> wf_graph bdj -> dag adj -> converse adj bdj ->
    Forall wf_otree cs -> wf_otree (ONode adj bdj cs).
