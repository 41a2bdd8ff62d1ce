(** What placing the leafs of a partially ordered decomposition tree at the positions of a plan means. Independent of the encoder. *)
From Coq Require Import List ZArith.
Import ListNotations.
From Verif Require Import Htn_problem Htn_spec Sat_spec Posog_spec.

(** A leaf lists its possible actions with their variables (if any). *)
Notation aleaf := (list (option Z * nat)) (only parsing).

(** The action [a] is chosen at the leaf. *)
Definition occurs (v : assignment) (l : aleaf) (a : nat) : Prop := exists x, In (Some x, a) l /\ v x = true.
Definition active (v : assignment) (l : aleaf) : Prop := exists a, occurs v l a.
(** At most one action is chosen at every leaf. *)
Definition one_chosen (v : assignment) (leafs : list aleaf) : Prop := forall l a b, In l leafs -> occurs v l a -> occurs v l b -> a = b.

(** The action changes the state; the leaf may contain such an action. *)
Definition effectful (P : problem) (a : nat) : Prop := exists f, adds P a f \/ dels P a f.
Definition effect_leaf (P : problem) (l : aleaf) : Prop := exists x a, In (x, a) l /\ effectful P a.

(** The action [a] is chosen at a position of the plan. *)
Definition happens (v : assignment) (acts : list (Z * nat)) (a : nat) : Prop := exists x, In (x, a) acts /\ v x = true.

(** [pl] places leafs at positions: all active leafs are placed, leafs with effects at different positions, and no leaf before one of its predecessors;
    the action of a leaf happens at its position; an action with effects happens only where a leaf with effects is placed, and it is the action of that leaf. *)
Record placement (P : problem) (v : assignment) (leafs : list aleaf) (adj : list (list nat)) (vars : list (list (Z * nat))) (pl : nat -> option nat) : Prop := {
  pl_rng : forall l p, pl l = Some p -> l < length leafs /\ p < length vars;
  pl_all : forall l lf, nth_error leafs l = Some lf -> active v lf -> pl l <> None;
  pl_one : forall l k lf kf p, nth_error leafs l = Some lf -> nth_error leafs k = Some kf -> effect_leaf P lf -> effect_leaf P kf -> pl l = Some p -> pl k = Some p -> l = k;
  pl_ord : forall l k p q, precedes adj l k -> pl l = Some p -> pl k = Some q -> p <= q;
  pl_up : forall l lf p acts a, nth_error leafs l = Some lf -> pl l = Some p -> nth_error vars p = Some acts -> occurs v lf a -> happens v acts a;
  pl_down : forall l lf p acts a, nth_error leafs l = Some lf -> effect_leaf P lf -> pl l = Some p -> nth_error vars p = Some acts -> effectful P a -> happens v acts a -> occurs v lf a;
  pl_caused : forall p acts a, nth_error vars p = Some acts -> effectful P a -> happens v acts a ->
    exists l lf, nth_error leafs l = Some lf /\ effect_leaf P lf /\ pl l = Some p }.

(** The leafs [ls] are the active ones, in an order compatible with the order of the leafs. *)
Record linearises (v : assignment) (leafs : list aleaf) (adj : list (list nat)) (ls : list nat) : Prop := {
  li_nodup : NoDup ls;
  li_act : forall l, In l ls <-> exists lf, nth_error leafs l = Some lf /\ active v lf;
  li_ord : ForallOrdPairs (fun l k => ~ precedes adj k l) ls }.

(** The plan consists of the actions of the leafs [ls] in this order. *)
Definition plan_of (v : assignment) (leafs : list aleaf) (ls plan : list nat) : Prop :=
  Forall2 (fun l a => exists lf, nth_error leafs l = Some lf /\ occurs v lf a) ls plan.

(** No leaf whose actions all have no effects comes after a leaf with effects. *)
Definition effects_last (P : problem) (leafs : list aleaf) (adj : list (list nat)) : Prop :=
  forall l k lf kf, nth_error leafs l = Some lf -> nth_error leafs k = Some kf -> kf <> [] -> effect_leaf P lf -> precedes adj l k -> effect_leaf P kf.
(** Every leaf that may contain an action may contain one with effects. *)
Definition all_effects (P : problem) (leafs : list aleaf) : Prop := forall lf, In lf leafs -> lf <> [] -> effect_leaf P lf.

(** A leaf may be executed after all leafs with effects only if there is a position left for it: there are no leafs with effects, one of them is
    inactive, or no leaf is executed after the last of them. *)
Definition room (P : problem) (v : assignment) (leafs : list aleaf) (ls : list nat) : Prop :=
  (forall lf, In lf leafs -> ~ effect_leaf P lf) \/
  (exists lf, In lf leafs /\ effect_leaf P lf /\ ~ active v lf) \/
  ls = [] \/
  (exists pre l lf, ls = pre ++ [l] /\ nth_error leafs l = Some lf /\ effect_leaf P lf).

(** The input of the encoder: the leafs have different actions of the problem, with variables among 1, ..., nv. *)
Record leafs_ok (P : problem) (nv : Z) (leafs : list aleaf) : Prop := {
  lo_acts : forall l x a, In l leafs -> In (x, a) l -> a < length (p_cost P);
  lo_nodup : forall l, In l leafs -> NoDup (map snd l);
  lo_vars : forall l x a, In l leafs -> In (Some x, a) l -> (1 <= x <= nv)%Z }.

(** Lists the elements of a set without repetition. *)
Definition set_order (uord : list nat -> list nat) : Prop := forall l, NoDup (uord l) /\ forall x, In x (uord l) <-> In x l.
