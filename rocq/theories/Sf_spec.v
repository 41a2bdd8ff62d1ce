(** What a choice of actions at the leaves means. *)
From Coq Require Import List ZArith.
Import ListNotations.
From Verif Require Import Htn_problem Htn_spec Sat_spec.

(** The chosen actions (those whose variable is true), in the order of the leaves. *)
Definition chosen_at (v : assignment) (leaf : list (Z * nat)) : list nat := map snd (filter (fun x => v (fst x)) leaf).
Definition chosen (v : assignment) (leafs : list (list (Z * nat))) : list nat := flat_map (chosen_at v) leafs.

(** At most one action is chosen per leaf. *)
Definition one_each (v : assignment) (leafs : list (list (Z * nat))) : Prop := forall leaf, In leaf leafs -> length (chosen_at v leaf) <= 1.

(** The variables base, base + 1, ... describe the state [s]. *)
Definition describes (P : problem) (v : assignment) (base : Z) (s : state) : Prop :=
  forall f, f < p_nfacts P -> (v (base + Z.of_nat f)%Z = true <-> s f).

(** No chosen action adds and deletes the same fact. *)
Definition consistent (P : problem) (plan : list nat) : Prop := forall a f, In a plan -> adds P a f -> ~ dels P a f.

(** The action [a] can be executed together with the later action [b]: neither effect concerns the other. *)
Definition independent (P : problem) (a b : nat) : Prop :=
  forall f, (adds P a f -> ~ precs P b f /\ ~ dels P b f) /\ (dels P a f -> ~ precs P b f /\ ~ adds P b f).

(** Consecutive leaves are grouped into blocks whose leaves contain pairwise independent actions. *)
Definition blocks_independent (P : problem) (leafs : list (list (Z * nat))) (blocks : list (list nat)) : Prop :=
  concat blocks = seq 0 (length leafs) /\
  forall b i j x y, In b blocks -> In i b -> In j b -> i < j ->
    In x (nth i leafs []) -> In y (nth j leafs []) -> independent P (snd x) (snd y).
