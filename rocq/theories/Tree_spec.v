(** What a printed decomposition tree has to be, independent of the search. *)
From Coq Require Import List Arith Relations.
Import ListNotations.
From Verif Require Import Htn_problem Htn_spec.

(** A decomposition: number of the decomposed task, its name, the method, the numbers of the subtasks in order. *)
Record row := { rw_id : nat; rw_task : nat; rw_meth : nat; rw_kids : list nat }.

Section TreeSpec.
  Variables (P : problem) (rows : list row) (acts : list (nat * nat)).
  Definition child (i c j : nat) : Prop := exists r, In r rows /\ rw_id r = i /\ nth_error (rw_kids r) j = Some c.
  Definition below : nat -> nat -> Prop := clos_refl_trans nat (fun i c => exists j, child i c j).
  Definition named (i t : nat) : Prop := In (i, t) acts \/ exists r, In r rows /\ rw_id r = i /\ rw_task r = t.
  (** [a] lies below an earlier subtask of the same decomposition than [b]. *)
  Definition must_precede (a b : nat) : Prop := exists r m j k ca cb,
    In r rows /\ nth_error (p_methods P) (rw_meth r) = Some m /\ m_lt m j k /\
    nth_error (rw_kids r) j = Some ca /\ nth_error (rw_kids r) k = Some cb /\ below ca a /\ below cb b.
End TreeSpec.

Definition ids (rows : list row) (acts : list (nat * nat)) : list nat := map rw_id rows ++ map fst acts.

(** [acts] (number, action) in execution order is a linearisation of the leaves of the tree given by [rows]. *)
Record tree_ok (P : problem) (root : nat) (rows : list row) (acts : list (nat * nat)) : Prop := {
  tr_ids : NoDup (ids rows acts);
  tr_prim : forall i t, In (i, t) acts -> primitive P t;
  tr_root : exists r, In r rows /\ rw_id r = root /\ rw_task r = p_init P;
  tr_rows : forall r, In r rows -> exists m, nth_error (p_methods P) (rw_meth r) = Some m /\ m_task m = rw_task r /\
              length (rw_kids r) = length (m_subs m) /\
              forall j c, nth_error (rw_kids r) j = Some c -> exists t, nth_error (m_subs m) j = Some t /\ named rows acts c t;
  tr_parent : forall i, In i (ids rows acts) -> i <> root -> exists p j, child rows p i j;
  tr_unique : forall i p j p' j', child rows p i j -> child rows p' i j' -> p = p' /\ j = j';
  tr_noparent : forall p j, ~ child rows p root j;
  tr_below : forall i, In i (ids rows acts) -> below rows root i;
  tr_order : forall q1 q2 a b, q1 < q2 -> nth_error (map fst acts) q1 = Some a -> nth_error (map fst acts) q2 = Some b ->
               ~ must_precede P rows b a }.

