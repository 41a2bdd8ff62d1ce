(** What the encoder of totally ordered problems relies on. *)
From Coq Require Import List Arith ZArith Permutation Sorting.Sorted.
Import ListNotations.
From Verif Require Import Htn_problem Htn_spec To_spec Sat_model Sat_spec Pdt_model.

Definition subs_len (P : problem) (m : nat) : nat := match nth_error (p_methods P) m with Some me => length (m_subs me) | None => 0 end.

(** - methodTotalOrder lists the subtasks of every method in the order of the method (see Order_thm.v);
    - the sorting function returns the elements by decreasing number of subtasks;
    - methods have at most 10^6 subtasks (the constant "impossible" of sog.cpp);
    - every abstract task has a method (otherwise expandPDT may leave positionOfPrimitivesInChildren empty, and addDecompositionClauses reads it);
    - the number of bits is sufficient (floating-point computation in atMostOne). *)
Record conf_ok (P : problem) (C : sconf) : Prop := {
  ok_mto : forall m me, nth_error (p_methods P) m = Some me -> exists o, nth_error (s_mto C) m = Some o /\ total_seq me o;
  ok_sort : forall l, Permutation (s_sort C l) l /\ StronglySorted (fun x y => subs_len P (fst (fst y)) <= subs_len P (fst (fst x))) (s_sort C l);
  ok_small : forall me, In me (p_methods P) -> (Z.of_nat (length (m_subs me)) <= 1000 * 1000)%Z;
  ok_covered : forall t, nth_error (p_prim P) t = Some false -> exists me, In me (p_methods P) /\ m_task me = t;
  ok_bits : forall n, 256 <= n -> n <= 2 ^ s_bits C n }.

(** A correct and complete SAT solver. *)
Definition solver_ok (solver : list clause -> option (Z -> bool)) : Prop :=
  forall F, match solver F with Some v => satisfies v F | None => forall v, ~ satisfies v F end.
