(** Invariants: what they mean. *)
From Coq Require Import List ZArith Permutation.
Import ListNotations.
From Verif Require Import Htn_problem Htn_spec.

(** A non-negative number is a fact, a negative number l the negation of the fact -l-1. *)
Definition lit_holds (s : state) (l : Z) : Prop := ((l < 0)%Z -> ~ s (Z.to_nat (- l - 1))) /\ ((0 <= l)%Z -> s (Z.to_nat l)).
Definition clause2_holds (s : state) (c : Z * Z) : Prop := lit_holds s (fst c) \/ lit_holds s (snd c).
Definition lit_in (n : nat) (l : Z) : Prop := (- Z.of_nat n <= l < Z.of_nat n)%Z.

(** States that are reached from the initial state by a sequence of actions *)
Definition reachable (P : problem) (s : state) : Prop := exists plan, executable P (initial_state P) plan /\ (forall f, s f <-> after P (initial_state P) plan f).

(** No action adds and deletes the same fact. *)
Definition no_conflict (P : problem) : Prop := forall a f, adds P a f -> ~ dels P a f.

(** What the parsed groups claim about a state: of a SAS+ variable exactly one fact is true, of a strict mutex group exactly one, of a mutex group at most one; of an
    invariant at least one literal. *)
Definition at_most_one (s : state) (l : list nat) : Prop := forall i j f g, nth_error l i = Some f -> nth_error l j = Some g -> s f -> s g -> i = j.
Definition at_least_one (s : state) (l : list nat) : Prop := exists f, In f l /\ s f.
Record input_holds (sas : list (nat * nat)) (strict mutex : list (list nat)) (inv : list (list Z)) (s : state) : Prop := {
  ih_sas_one : forall a b, In (a, b) sas -> a <> b -> at_least_one s (seq a (S b - a));
  ih_sas_amo : forall a b, In (a, b) sas -> at_most_one s (seq a (S b - a));
  ih_strict_one : forall l, In l strict -> at_least_one s l;
  ih_strict_amo : forall l, In l strict -> at_most_one s l;
  ih_mutex : forall l, In l mutex -> at_most_one s l;
  ih_inv : forall l, In l inv -> exists x, In x l /\ lit_holds s x }.
Record input_ok (n : nat) (sas : list (nat * nat)) (strict mutex : list (list nat)) (inv : list (list Z)) : Prop := {
  io_sas : forall a b, In (a, b) sas -> a <= b < n;
  io_strict : forall l f, In l strict -> In f l -> f < n;
  io_mutex : forall l f, In l mutex -> In f l -> f < n;
  io_inv : forall l x, In l inv -> In x l -> lit_in n x }.
