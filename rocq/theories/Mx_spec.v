(** What the mutex clauses say about a state. *)
From Coq Require Import List ZArith.
Import ListNotations.
From Verif Require Import Htn_problem Htn_spec Inv_spec.

(** The groups that become clauses of their own: SAS+ variables with more than one value, other groups unless they have two members. *)
Record groups_hold (sas : list (nat * nat)) (strict mutex : list (list nat)) (inv : list (list Z)) (s : state) : Prop := {
  gh_sas : forall a b, In (a, b) sas -> a <> b -> at_most_one s (seq a (S b - a)) /\ at_least_one s (seq a (S b - a));
  gh_strict : forall l, In l strict -> length l <> 2 -> at_most_one s l /\ at_least_one s l;
  gh_mutex : forall l, In l mutex -> length l <> 2 -> at_most_one s l;
  gh_inv : forall l, In l inv -> length l <> 2 -> exists x, In x l /\ lit_holds s x }.
(** The clauses of a table: [tab] has the literals in clauses with the literal i - n at position i. *)
Definition pairs_hold (n : nat) (tab : list (list Z)) (s : state) : Prop :=
  forall i l b, nth_error tab i = Some l -> In b l -> clause2_holds s ((Z.of_nat i - Z.of_nat n)%Z, b).
