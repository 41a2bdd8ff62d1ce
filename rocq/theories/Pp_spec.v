(** What the encoder of partially ordered problems relies on. *)
From Coq Require Import List Arith ZArith Permutation Sorting.Sorted.
Import ListNotations.
From Verif Require Import Htn_problem Htn_spec Sat_model Pdt_model Pdt_spec Posog_spec Pom_spec.

(** - the orderings of every method are transitively closed (Model.cpp 3083-3087), and methodTotalOrder lists its subtasks;
    - the sorting function returns the elements by decreasing number of subtasks;
    - methods have at most 10^6 subtasks (the constant "impossible" of sog.cpp);
    - every abstract task has a method;
    - the number of bits is sufficient (floating-point computation in atMostOne);
    - iterating over a set lists its elements. *)
Record po_conf (P : problem) (C : sconf) (uord : list nat -> list nat) : Prop := {
  pc_meth : forall m me, nth_error (p_methods P) m = Some me -> meth_ok P (s_mto C) m;
  pc_sort : forall l, Permutation (s_sort C l) l /\ StronglySorted (fun x y => subs_len P (fst (fst y)) <= subs_len P (fst (fst x))) (s_sort C l);
  pc_small : forall me, In me (p_methods P) -> (Z.of_nat (length (m_subs me)) <= 1000 * 1000)%Z;
  pc_covered : forall t, nth_error (p_prim P) t = Some false -> exists me, In me (p_methods P) /\ m_task me = t;
  pc_bits : forall n, 256 <= n -> n <= 2 ^ s_bits C n;
  pc_uord : set_order uord }.
