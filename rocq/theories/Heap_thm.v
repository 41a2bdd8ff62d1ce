(** C21: the heap of IntPairHeap.h behaves as a priority queue, for every sequence of operations. *)
From Verif Require Import Base Arr Heap_model Heap_proof.
Local Open Scope Z_scope.

(** Specification: a bag of (key, value) pairs. [pop] may remove any pair with a smallest key. *)
Inductive bag_step : list (Z * Z) -> heap_op -> list (Z * Z) -> Prop :=
| bs_add b k v b' : Permutation b' ((k, v) :: b) -> bag_step b (HAdd k v) b'
| bs_pop b x b' : Permutation b (x :: b') -> (forall y, In y b -> fst x <= fst y) -> bag_step b HPop b'
| bs_clear b : bag_step b HClear [].

Inductive bag_run : list (Z * Z) -> list heap_op -> list (Z * Z) -> Prop :=
| br_nil b : bag_run b [] b
| br_cons b o b1 l b2 : bag_step b o b1 -> bag_run b1 l b2 -> bag_run b (o :: l) b2.

(** A client respects the interface when keys are at least INT_MIN and pop is never called on an empty heap. *)
Fixpoint legal (n : nat) (l : list heap_op) : Prop :=
  match l with
  | [] => True
  | HAdd k _ :: r => int_min <= k /\ legal (S n) r
  | HPop :: r => (1 <= n)%nat /\ legal (n - 1) r
  | HClear :: r => legal 0 r
  end.

Lemma heap_run_inv al : (forall n, length (al n) = n) -> forall l h, HInv h -> legal (heap_size h) l ->
  exists h', heap_run al h l = Some h' /\ HInv h' /\ bag_run (elems h) l (elems h').
Proof.
  intros AL. induction l as [|o l IH]; intros h I Lg.
  - exists h. split; [reflexivity|]. split; [auto|constructor].
  - destruct o as [k v| |]; cbn [legal] in Lg.
    + destruct Lg as [Hk Lg]. destruct (heap_add_ok al h k v AL I Hk) as (h1 & E & I1 & P).
      destruct (IH h1 I1) as (h2 & E2 & I2 & B2).
      { rewrite <- elems_length, (Permutation_length P). simpl. now rewrite elems_length. }
      exists h2. unfold heap_run. cbn [ofold heap_step]. rewrite E. split; [exact E2|]. split; [auto|].
      econstructor; [|exact B2]. constructor. auto.
    + destruct Lg as [H1 Lg].
      assert (NE : elems h <> []) by (rewrite <- elems_length in H1; destruct (elems h); [simpl in H1; lia|discriminate]).
      destruct (heap_pop_ok h I NE) as (h1 & k & v & E & I1 & _ & _ & P & Mn).
      destruct (IH h1 I1) as (h2 & E2 & I2 & B2).
      { pose proof (Permutation_length P) as Q. simpl in Q. rewrite !elems_length in Q.
        replace (heap_size h1) with (heap_size h - 1)%nat by lia. auto. }
      exists h2. unfold heap_run. cbn [ofold heap_step]. rewrite E. split; [exact E2|]. split; [auto|].
      econstructor; [|exact B2]. apply (bs_pop _ (k, v)); auto.
    + destruct (heap_clear_ok h I) as [I1 P].
      destruct (IH (heap_clear h) I1) as (h2 & E2 & I2 & B2).
      { rewrite <- elems_length, P. auto. }
      exists h2. unfold heap_run. cbn [ofold heap_step]. split; [exact E2|]. split; [auto|].
      econstructor; [|exact B2]. rewrite P. constructor.
Qed.

(** For every initial size of at least one, every content of fresh memory and every legal sequence of
    operations: no access leaves the arrays; the contents evolve as a bag; the size and emptiness tests
    are those of the bag; and the reported top is an element with smallest key. *)
Theorem heap_is_priority_queue al size l :
  (forall n, length (al n) = n) -> (1 <= size)%nat -> legal 0 l ->
  exists h0 h b, heap_new al size = Some h0 /\ heap_run al h0 l = Some h /\ bag_run [] l b /\
    heap_size h = length b /\ (heap_isEmpty h = true <-> b = []) /\
    (b <> [] -> exists k v, heap_topKey h = Some k /\ heap_topVal h = Some v /\ In (k, v) b /\
       forall y, In y b -> k <= fst y).
Proof.
  intros AL S1 Lg. destruct (heap_new_ok al size S1 (AL size)) as (h0 & E0 & I0 & B0).
  destruct (heap_run_inv al AL l h0 I0) as (h & E & I & B).
  { rewrite <- elems_length, B0. auto. }
  exists h0, h, (elems h). split; [auto|]. split; [auto|]. split; [now rewrite B0 in B|].
  split; [now rewrite elems_length|]. split.
  - pose proof (elems_length h) as L. unfold heap_size in L. unfold heap_isEmpty. rewrite Nat.eqb_eq.
    pose proof (hi_next _ I). split; intros Q.
    + apply length_zero_iff_nil. lia.
    + rewrite Q in L. simpl in L. lia.
  - intros NE. destruct (heap_pop_ok h I NE) as (h1 & k & v & _ & _ & K1 & K2 & P & Mn).
    exists k, v. split; [auto|]. split; [auto|]. split; [|auto].
    apply (Permutation_in _ (Permutation_sym P)). now left.
Qed.

(** Removing every element yields the keys in ascending order. *)
Fixpoint drain (fuel : nat) (h : heap) : option (list Z) :=
  match fuel with
  | O => Some []
  | S f => k <- heap_topKey h ;; h' <- heap_pop h ;; r <- drain f h' ;; Some (k :: r)
  end.

Inductive ascending : list Z -> Prop :=
| asc_nil : ascending []
| asc_cons x l : (forall y, In y l -> x <= y) -> ascending l -> ascending (x :: l).

Theorem heap_drains_sorted h : HInv h ->
  exists r, drain (heap_size h) h = Some r /\ ascending r /\ Permutation r (map fst (elems h)).
Proof.
  remember (heap_size h) as n eqn:En. revert h En. induction n as [|n IH]; intros h En I.
  - exists []. split; [auto|]. split; [constructor|].
    rewrite <- elems_length in En. destruct (elems h); [constructor|discriminate].
  - assert (NE : elems h <> []) by (rewrite <- elems_length in En; destruct (elems h); discriminate).
    destruct (heap_pop_ok h I NE) as (h1 & k & v & E & I1 & K1 & _ & P & Mn).
    destruct (IH h1) as (r & D & A & PR); auto.
    { pose proof (Permutation_length P) as Q. simpl in Q. rewrite !elems_length in Q. lia. }
    exists (k :: r). cbn [drain]. rewrite K1. cbn [obind]. rewrite E. cbn [obind]. rewrite D. cbn [obind].
    split; [auto|]. split.
    + constructor; auto. intros y Hy. apply (Permutation_in _ PR) in Hy. apply in_map_iff in Hy.
      destruct Hy as (p & <- & Hp). apply Mn. apply (Permutation_in _ (Permutation_sym P)). now right.
    + rewrite (Permutation_map fst P). simpl. auto.
Qed.

(** Without the precondition on the size the property fails: a heap of initial size 0 (hsLmCut on a problem without
    state bits, LmCausal with less than four nodes) writes outside its array already in the constructor. *)
Theorem heap_size_zero_refuted al : length (al 0%nat) = 0%nat -> heap_new al 0 = None.
Proof. intros H. unfold heap_new. destruct (al 0%nat); [reflexivity|discriminate]. Qed.

(** Popping an empty heap leaves a state that reports not to be empty. *)
Theorem heap_pop_empty_refuted : exists h h', heap_isEmpty h = true /\ heap_pop h = Some h' /\ heap_isEmpty h' = false.
Proof. exists {| hk := [int_min; 7]; hv := [0; 0]; hnext := 1 |}. eexists. repeat split; vm_compute; reflexivity. Qed.

Module Ex.
  Definition al (n : nat) : list Z := repeat 77 n.
  Definition prog := [HAdd 5 50; HAdd 3 30; HAdd 4 40; HPop; HAdd 1 10; HAdd 3 31; HPop].
  Example al_ok : forall n, length (al n) = n.
  Proof. intros. apply repeat_length. Qed.
  Example prog_legal : legal 0 prog.
  Proof. cbn. unfold int_min. repeat split; lia. Qed.
  Example prog_runs : exists h, (h0 <- heap_new al 1 ;; heap_run al h0 prog) = Some h /\ elems h = [(3, 31); (5, 50); (4, 40)] /\
     drain (heap_size h) h = Some [3; 4; 5].
  Proof. eexists. split; [vm_compute; reflexivity|]. split; vm_compute; reflexivity. Qed.
End Ex.

Print Assumptions heap_is_priority_queue.
Print Assumptions heap_drains_sorted.
Print Assumptions heap_size_zero_refuted.
Print Assumptions heap_pop_empty_refuted.
