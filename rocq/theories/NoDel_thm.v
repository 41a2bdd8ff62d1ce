(** C22, C23: noDelIntSet is a set with iteration, union and difference; its intersection is not one. *)
From Verif Require Import Base Arr IntUtil_model IntUtil_proof IntSet_model NoDel_proof.
Local Open Scope Z_scope.

Inductive set_op := OInsert (i : Z) | OClear | OSort.

Definition set_step (s : iset) (o : set_op) : option iset :=
  match o with OInsert i => is_insert s i | OClear => is_clear s | OSort => is_sort s end.
Definition set_run (al : nat -> list Z) (size : nat) (l : list set_op) : option iset := ofold set_step l (is_init al size).

(** Specification: the mathematical set after a sequence of operations. *)
Definition spec_step (M : Z -> Prop) (o : set_op) : Z -> Prop :=
  match o with OInsert i => fun x => x = i \/ M x | OClear => fun _ => False | OSort => M end.
Definition spec_run (l : list set_op) : Z -> Prop := fold_left spec_step l (fun _ => False).

(** The client contract: inserted elements are below the initialised size. *)
Definition op_ok (size : nat) (o : set_op) : Prop := match o with OInsert i => 0 <= i < Z.of_nat size | _ => True end.

Lemma run_ok size : forall l s M, WF s -> length (ib s) = size -> (forall x, In x (members s) <-> M x) ->
  Forall (op_ok size) l ->
  exists s', ofold set_step l s = Some s' /\ WF s' /\ length (ib s') = size /\
    forall x, In x (members s') <-> fold_left spec_step l M x.
Proof.
  induction l as [|o l IH]; intros s M W L E F; simpl.
  - exists s. auto.
  - inversion F as [|? ? F1 F2]; subst. destruct o as [i| |]; simpl in *.
    + destruct (insert_ok s i W F1) as (s1 & -> & W1 & L1 & D). cbn [obind].
      apply IH; auto. intros x. destruct D as [[I ->]|[NI ->]].
      * rewrite E. split; [auto|]. intros [->|Q]; auto. now apply E.
      * rewrite in_app_iff, E. simpl. intuition.
    + destruct (clear_ok s W) as (s1 & -> & W1 & L1 & M1). cbn [obind]. apply IH; auto.
      intros x. rewrite M1. simpl. tauto.
    + destruct (is_sort_ok s W) as (s1 & -> & W1 & L1 & P & _). cbn [obind]. apply IH; auto.
      intros x. rewrite <- E. split; intros I; [apply (Permutation_in _ (Permutation_sym P))|apply (Permutation_in _ P)]; auto.
Qed.

(** After every legal sequence of operations: no undefined behaviour, and membership test, size, emptiness and the
    enumeration by getFirst/getNext are those of the mathematical set; every member is enumerated exactly once. *)
Theorem nodel_is_set al size l : (forall n, length (al n) = n) -> Forall (op_ok size) l ->
  exists s e, set_run al size l = Some s /\ enumerate s = Some e /\ NoDup e /\
    (forall x, In x e <-> spec_run l x) /\
    is_getSize s = length e /\ (is_isEmpty s = true <-> forall x, ~ spec_run l x) /\
    (forall x, 0 <= x < Z.of_nat size -> exists b, is_get s x = Some b /\ (b = true <-> spec_run l x)).
Proof.
  intros AL F. destruct (init_ok al size AL) as [W0 M0].
  destruct (run_ok size l (is_init al size) (fun _ => False) W0) as (s & E & W & L & I); auto.
  { simpl. apply repeat_length. }
  { intros x. rewrite M0. simpl. tauto. }
  exists s, (members s). split; [exact E|]. split; [now apply enumerate_ok|]. split; [apply wf_nd; auto|].
  split; [exact I|]. split; [unfold is_getSize; symmetry; now apply members_length|]. split.
  - unfold is_isEmpty. rewrite Nat.eqb_eq, <- (members_length s W). split.
    + intros Q x Hx. apply I in Hx. destruct (members s); [destruct Hx|discriminate].
    + intros Q. destruct (members s) as [|y r] eqn:Em; [reflexivity|]. elim (Q y). apply I. now left.
  - intros x Hx. rewrite <- L in Hx. destruct (get_ok s x W Hx) as (b & Eb & Db). exists b. split; [auto|].
    rewrite Db. apply I.
Qed.

(** Sets produced by operation sequences. *)
Definition reachable (size : nat) (s : iset) : Prop :=
  exists al l, (forall n, length (al n) = n) /\ Forall (op_ok size) l /\ set_run al size l = Some s.

Lemma reachable_WF size s : reachable size s -> WF s /\ length (ib s) = size.
Proof.
  intros (al & l & AL & F & E). destruct (init_ok al size AL) as [W0 M0].
  destruct (run_ok size l (is_init al size) (fun _ => False) W0) as (s' & E' & W & L & _); auto.
  { simpl. apply repeat_length. }
  { intros x. rewrite M0. simpl. tauto. }
  unfold set_run in E. rewrite E in E'. injection E' as <-. auto.
Qed.

Definition holds (s : iset) (x : Z) : Prop := is_get s x = Some true.

Lemma holds_members s x : WF s -> (holds s x <-> In x (members s)).
Proof.
  intros W. unfold holds. split.
  - intros H. unfold is_get, zget in H. destruct (Z.ltb_spec x 0); [discriminate|].
    pose proof (get_lt _ _ _ H). destruct (get_ok s x W ltac:(lia)) as (b & E & D).
    unfold is_get, zget in E. destruct (Z.ltb_spec x 0); [lia|]. rewrite E in H. injection H as ->. now apply D.
  - intros I. destruct (get_ok s x W (wf_rng s W x I)) as (b & E & D). rewrite E. f_equal. now apply D.
Qed.

(** A result set [r] has contents [P]: by its membership test, by iteration and by size. *)
Definition is_set_of (r : iset) (P : Z -> Prop) : Prop :=
  (forall x, holds r x <-> P x) /\
  exists e, enumerate r = Some e /\ NoDup e /\ (forall x, In x e <-> P x) /\ is_getSize r = length e.

Lemma is_set_of_WF r P : WF r -> (forall x, In x (members r) <-> P x) -> is_set_of r P.
Proof.
  intros W I. split.
  - intros x. rewrite holds_members by auto. auto.
  - exists (members r). split; [now apply enumerate_ok|]. split; [apply wf_nd; auto|]. split; [auto|].
    symmetry. now apply members_length.
Qed.

Theorem clone_correct al n s : (forall n, length (al n) = n) -> reachable n s ->
  exists r, is_clone al s = Some r /\ is_set_of r (holds s).
Proof.
  intros AL R. apply reachable_WF in R as [W _]. destruct (clone_ok al s AL W) as (r & E & Wr & _ & I).
  exists r. split; [auto|]. apply is_set_of_WF; auto. intros x. rewrite holds_members by auto. auto.
Qed.

Theorem union_correct al n m a b : (forall n, length (al n) = n) -> reachable n a -> reachable m b ->
  exists r, is_union al a b = Some r /\ is_set_of r (fun x => holds a x \/ holds b x).
Proof.
  intros AL Ra Rb. apply reachable_WF in Ra as [Wa _]. apply reachable_WF in Rb as [Wb _].
  destruct (union_ok al a b AL Wa Wb) as (r & E & Wr & _ & I).
  exists r. split; [auto|]. apply is_set_of_WF; auto. intros x. rewrite !holds_members by auto. auto.
Qed.

Theorem union_into_correct n m k a b res : reachable n a -> reachable m b -> reachable k res -> (n <= k)%nat -> (m <= k)%nat ->
  exists r, is_union_into res a b = Some r /\ is_set_of r (fun x => holds a x \/ holds b x).
Proof.
  intros Ra Rb Rr H1 H2. apply reachable_WF in Ra as [Wa La]. apply reachable_WF in Rb as [Wb Lb]. apply reachable_WF in Rr as [Wr Lr].
  destruct (union_into_ok res a b Wr Wa Wb) as (r & E & W & _ & I); [lia|lia|].
  exists r. split; [auto|]. apply is_set_of_WF; auto. intros x. rewrite !holds_members by auto. auto.
Qed.

Theorem minus_correct al n m a b : (forall n, length (al n) = n) -> reachable n a -> reachable m b ->
  exists r, is_minus al a b = Some r /\ is_set_of r (fun x => holds a x /\ ~ holds b x).
Proof.
  intros AL Ra Rb. apply reachable_WF in Ra as [Wa _]. apply reachable_WF in Rb as [Wb _].
  destruct (minus_ok al a b AL Wa Wb) as (r & E & Wr & _ & I).
  exists r. split; [auto|]. apply is_set_of_WF; auto. intros x. rewrite !holds_members by auto. auto.
Qed.

Theorem minus_into_correct n m k a b res : reachable n a -> reachable m b -> reachable k res -> (n <= k)%nat ->
  exists r, is_minus_into res a b = Some r /\ is_set_of r (fun x => holds a x /\ ~ holds b x).
Proof.
  intros Ra Rb Rr H1. apply reachable_WF in Ra as [Wa La]. apply reachable_WF in Rb as [Wb Lb]. apply reachable_WF in Rr as [Wr Lr].
  destruct (minus_into_ok res a b Wr Wa Wb) as (r & E & W & _ & I); [lia|].
  exists r. split; [auto|]. apply is_set_of_WF; auto. intros x. rewrite !holds_members by auto. auto.
Qed.

(** The intersection of two sets over the same universe is always reported empty: the bound test in front of the
    membership test is the wrong way round. *)
Theorem intersection_always_empty al n a b : (forall n, length (al n) = n) -> reachable n a -> reachable n b ->
  exists r, is_inter al a b = Some r /\ is_set_of r (fun _ => False).
Proof.
  intros AL Ra Rb. apply reachable_WF in Ra as [Wa La]. apply reachable_WF in Rb as [Wb Lb].
  unfold is_inter. rewrite La, Lb, Nat.ltb_irrefl.
  destruct (init_ok al n AL) as [W0 M0].
  assert (G : forall less more, WF less -> length (ib less) = n -> length (ib more) = n ->
    ('(r, _) <- is_foreach (inter_body more) (is_init al n) less ;; Some r) = Some (is_init al n)).
  { intros less more Wl Ll Lm. destruct (foreach_ok (inter_body more) (is_init al n) less Wl) as (s & _ & ->).
    rewrite inter_core; auto. intros x Hx. pose proof (wf_rng less Wl x Hx). lia. }
  exists (is_init al n). split; [destruct (Nat.ltb (icur b) (icur a)); now apply G|].
  apply is_set_of_WF; auto. intros x. rewrite M0. simpl. tauto.
Qed.

(** Hence the claim "contains exactly the common elements" fails. *)
Theorem intersection_refuted : exists a b r x, reachable 3 a /\ reachable 3 b /\ is_inter (repeat 0) a b = Some r /\
  holds a x /\ holds b x /\ ~ holds r x.
Proof.
  pose (s := {| ib := [false; true; false]; ii := [1; 0; 0]; icur := 1; iiter := 0 |}).
  assert (R : reachable 3 s).
  { exists (repeat 0), [OInsert 1]. split; [intros; apply repeat_length|]. split; [|vm_compute; reflexivity].
    constructor; [simpl; lia|constructor]. }
  exists s, s. eexists. exists 1. split; [exact R|]. split; [exact R|].
  split; [vm_compute; reflexivity|]. repeat split; vm_compute; try reflexivity. discriminate.
Qed.

(** With different universes the test lets exactly the reads outside the array through. *)
Theorem intersection_out_of_bounds_refuted : exists a b, reachable 5 a /\ reachable 2 b /\ is_inter (repeat 0) a b = None.
Proof.
  exists {| ib := [false; false; false; false; true]; ii := [4; 0; 0; 0; 0]; icur := 1; iiter := 0 |},
         {| ib := [true; false]; ii := [0; 0]; icur := 1; iiter := 0 |}.
  split; [|split].
  - exists (repeat 0), [OInsert 4]. split; [intros; apply repeat_length|]. split; [|vm_compute; reflexivity].
    constructor; [simpl; lia|constructor].
  - exists (repeat 0), [OInsert 0]. split; [intros; apply repeat_length|]. split; [|vm_compute; reflexivity].
    constructor; [simpl; lia|constructor].
  - vm_compute. reflexivity.
Qed.

Module Ex.
  Definition prog := [OInsert 3; OInsert 1; OInsert 3; OClear; OInsert 2; OInsert 0; OInsert 2].
  Example prog_ok : Forall (op_ok 4) prog.
  Proof. repeat constructor; simpl; lia. Qed.
  Example prog_runs : (s <- set_run (repeat 9) 4 prog ;; enumerate s) = Some [2; 0].
  Proof. vm_compute. reflexivity. Qed.
  Example minus_ex : (a <- set_run (repeat 9) 4 [OInsert 3; OInsert 1; OInsert 2] ;; b <- set_run (repeat 9) 2 [OInsert 1] ;;
     r <- is_minus (repeat 9) a b ;; enumerate r) = Some [3; 2].
  Proof. vm_compute. reflexivity. Qed.
  Example union_ex : (a <- set_run (repeat 9) 4 [OInsert 3; OInsert 1; OInsert 2] ;; b <- set_run (repeat 9) 2 [OInsert 1; OInsert 0] ;;
     r <- is_union (repeat 9) a b ;; enumerate r) = Some [3; 1; 2; 0].
  Proof. vm_compute. reflexivity. Qed.
End Ex.

Print Assumptions nodel_is_set.
Print Assumptions clone_correct.
Print Assumptions union_correct.
Print Assumptions union_into_correct.
Print Assumptions minus_correct.
Print Assumptions minus_into_correct.
Print Assumptions intersection_always_empty.
Print Assumptions intersection_refuted.
Print Assumptions intersection_out_of_bounds_refuted.
