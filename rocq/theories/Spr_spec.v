(** A printed decomposition whose lines list the subtasks in some order. *)
From Coq Require Import List Permutation.
Import ListNotations.
From Verif Require Import Htn_problem Htn_spec To_spec Tree_spec.

(** The same line with its subtasks in another order. *)
Definition rearranged (r r' : row) : Prop := rw_id r' = rw_id r /\ rw_task r' = rw_task r /\ rw_meth r' = rw_meth r /\ Permutation (rw_kids r) (rw_kids r').
(** The lines are a decomposition tree if their subtasks are listed as in the methods. *)
Definition tree_up_to_order (P : problem) (root : nat) (rows : list row) (acts : list (nat * nat)) : Prop :=
  exists rows', Forall2 rearranged rows rows' /\ tree_ok P root rows' acts.

(** The subtasks are listed in the order in which they are executed. *)
Definition in_execution_order (P : problem) (rows : list row) (acts : list (nat * nat)) : Prop :=
  forall r, In r rows -> exists m o, nth_error (p_methods P) (rw_meth r) = Some m /\ total_seq m o /\
    Forall2 (fun j c => exists t, nth_error (m_subs m) j = Some t /\ named rows acts c t) o (rw_kids r).
