(** C24: bIntSet enumerates its members in increasing order. *)
From Verif Require Import Base Arr IntUtil_model IntUtil_proof IntSet_model NoDel_proof.
Local Open Scope Z_scope.

Inductive bset_op := BInsert (i : Z) | BAppend (i : Z) | BErase (i : Z) | BSort | BClear.

Definition bset_step (s : iset) (o : bset_op) : option iset :=
  match o with
  | BInsert i => bs_insert s i
  | BAppend i => is_insert s i
  | BErase i => bs_erase s i
  | BSort => is_sort s
  | BClear => is_clear s
  end.
Definition bset_run (al : nat -> list Z) (size : nat) (l : list bset_op) : option iset := ofold bset_step l (is_init al size).

(** Specification. *)
Definition bspec_step (M : Z -> Prop) (o : bset_op) : Z -> Prop :=
  match o with
  | BInsert i | BAppend i => fun x => x = i \/ M x
  | BErase i => fun x => x <> i /\ M x
  | BSort => M
  | BClear => fun _ => False
  end.
Definition bspec_run (l : list bset_op) : Z -> Prop := fold_left bspec_step l (fun _ => False).

(** Legal sequences: elements below the size; after an append the set has to be sorted before something is erased.
    [dirty] tells whether there was an append since the last sorting. *)
Fixpoint blegal (size : nat) (dirty : bool) (l : list bset_op) : Prop :=
  match l with
  | [] => True
  | BInsert i :: r => 0 <= i < Z.of_nat size /\ blegal size dirty r
  | BAppend i :: r => 0 <= i < Z.of_nat size /\ blegal size true r
  | BErase i :: r => 0 <= i < Z.of_nat size /\ dirty = false /\ blegal size dirty r
  | BSort :: r => blegal size false r
  | BClear :: r => blegal size false r
  end.
Fixpoint bdirty (dirty : bool) (l : list bset_op) : bool :=
  match l with
  | [] => dirty
  | BAppend _ :: r => bdirty true r
  | BSort :: r | BClear :: r => bdirty false r
  | _ :: r => bdirty dirty r
  end.

Lemma bs_insert_ok s i : WF s -> 0 <= i < Z.of_nat (length (ib s)) ->
  exists s', bs_insert s i = Some s' /\ WF s' /\ length (ib s') = length (ib s) /\
    (forall x, In x (members s') <-> x = i \/ In x (members s)) /\ (sasc (members s) -> sasc (members s')).
Proof.
  intros W H. unfold bs_insert. rewrite (zget_ok false) by auto. cbn [obind].
  pose proof (bool_list_in s i W ltac:(lia)) as BI.
  destruct (nth (Z.to_nat i) (ib s) false) eqn:B.
  - exists s. split; [auto|]. split; [auto|]. split; [auto|]. split; [|auto].
    intros x. split; [auto|]. intros [->|]; auto. now apply BI.
  - destruct (insert_ok s i W H) as (s1 & E & W1 & L1 & D). rewrite E. cbn [obind].
    destruct (is_sort_ok s1 W1) as (s2 & E2 & W2 & L2 & P & S & _).
    exists s2. split; [auto|]. split; [auto|]. split; [lia|]. split; [|auto].
    intros x. assert (Q : In x (members s2) <-> In x (members s1)).
    { split; intros I; [apply (Permutation_in _ (Permutation_sym P))|apply (Permutation_in _ P)]; auto. }
    rewrite Q. destruct D as [[I ->]|[NI ->]].
    + apply BI in I. discriminate.
    + rewrite in_app_iff. simpl. intuition.
Qed.

Lemma set_split {A} (l : list A) n x l' : set l n x = Some l' ->
  exists l1 y l2, l = l1 ++ y :: l2 /\ l' = l1 ++ x :: l2 /\ length l1 = n.
Proof.
  revert n l'; induction l as [|y l IH]; intros [|n] l' E; simpl in E; try discriminate.
  - injection E as <-. exists [], y, l. auto.
  - apply obind_some in E as (t & E & H). injection H as <-. destruct (IH n t E) as (l1 & z & l2 & -> & -> & L).
    exists (y :: l1), z, l2. simpl. auto.
Qed.

Lemma bs_erase_ok s i : WF s -> sasc (members s) -> 0 <= i < Z.of_nat (length (ib s)) ->
  Z.of_nat (length (ib s)) <= int_max ->
  exists s', bs_erase s i = Some s' /\ WF s' /\ length (ib s') = length (ib s) /\
    (forall x, In x (members s') <-> x <> i /\ In x (members s)) /\ sasc (members s').
Proof.
  intros W S H IM. unfold bs_erase. rewrite (zget_ok false) by auto. cbn [obind].
  pose proof (bool_list_in s i W ltac:(lia)) as BI. pose proof (wf_len s W) as LI. pose proof (wf_cur s W) as LC.
  destruct (nth (Z.to_nat i) (ib s) false) eqn:B.
  2:{ exists s. split; [auto|]. split; [auto|]. split; [auto|]. split; [|auto].
      intros x. split; [|tauto]. intros I. split; auto. intros ->. apply BI in I. discriminate. }
  assert (IN : In i (members s)) by now apply BI.
  destruct (zset_ok false (ib s) i false H) as (b' & E1 & L1 & G1). rewrite E1. cbn [obind].
  pose proof (members_length s W) as ML.
  destruct (index_loop_ok i (Datatypes.S (icur s - 0)) (ii s) 0 (icur s)) as (k & E2 & D); [lia|lia| |].
  { intros p q Hp Hpq Hq. rewrite <- !members_nth by (auto; lia). apply (asc_sorted _ (sasc_asc _ S)); lia. }
  unfold indexOf. rewrite E2. cbn [obind].
  destruct D as [(j & Hj & -> & Ej)|(_ & N)].
  2:{ exfalso. destruct (In_nth _ _ 0 IN) as (q & Hq & Eq). rewrite members_nth in Eq by (auto; lia).
      apply (N q); [lia|auto]. }
  unfold zset. destruct (Z.ltb_spec (Z.of_nat j) 0); [lia|]. rewrite Nat2Z.id.
  destruct (set_some (ii s) j int_max) as (a1 & E3); [lia|]. rewrite E3. cbn [obind].
  pose proof (set_length _ _ _ _ E3) as L3.
  destruct (sort_ok a1 0 (icur s)) as (a2 & E4 & L4 & P & _ & SB); [lia|]. rewrite E4. cbn [obind].
  eexists. split; [reflexivity|].
  set (s' := {| ib := b'; ii := a2; icur := (icur s - 1)%nat; iiter := iiter s |}).
  (* the first icur cells of a1 are the members with i replaced by INT_MAX *)
  rewrite !(slice_firstn 0) in P by lia.
  pose proof (set_split _ _ _ _ E3) as (l1 & y & l2 & EA & EB & EL).
  assert (Y : y = i).
  { rewrite EA in Ej. rewrite <- EL in Ej. rewrite nth_middle in Ej. auto. }
  subst y.
  set (m := (icur s - Datatypes.S j)%nat).
  assert (F0 : members s = l1 ++ i :: firstn m l2).
  { unfold members. rewrite EA, firstn_app, firstn_all2 by lia. f_equal.
    replace (icur s - length l1)%nat with (Datatypes.S m) by lia. reflexivity. }
  assert (F1 : firstn (icur s) a1 = l1 ++ int_max :: firstn m l2).
  { rewrite EB, firstn_app, firstn_all2 by lia. f_equal.
    replace (icur s - length l1)%nat with (Datatypes.S m) by lia. reflexivity. }
  pose proof (wf_nd s W) as ND. rewrite F0 in ND.
  assert (NIi : ~ In i (l1 ++ firstn m l2)) by now apply NoDup_remove_2.
  assert (ND1 : NoDup (l1 ++ firstn m l2)) by now apply NoDup_remove_1 in ND.
  assert (SUB : forall x, In x (l1 ++ firstn m l2) <-> x <> i /\ In x (members s)).
  { intros x. rewrite F0, !in_app_iff. simpl. rewrite in_app_iff in NIi. split.
    - intros I. split; [intros ->; tauto|tauto].
    - intros [NE I]. destruct I as [|[|]]; auto. congruence. }
  assert (RNG : forall x, In x (l1 ++ firstn m l2) -> x < int_max).
  { intros x I. apply SUB in I as [_ I]. pose proof (wf_rng s W x I). lia. }
  (* after sorting the last cell is INT_MAX *)
  assert (ASC : asc (firstn (icur s) a2)).
  { rewrite <- (slice_firstn 0) by lia. apply (asc_of_sorted a2 (icur s) 0). auto. }
  assert (C1 : icur s = Datatypes.S (icur s - 1)) by (destruct (members s); [destruct IN|simpl in ML; lia]).
  assert (SPLIT : firstn (icur s) a2 = firstn (icur s - 1) a2 ++ [nth (icur s - 1) a2 0]).
  { rewrite C1 at 1. rewrite <- !(slice_firstn 0) by lia. rewrite slice_snoc by lia. reflexivity. }
  rewrite F1 in P. rewrite <- Permutation_middle in P.
  set (rest := firstn (icur s - 1) a2) in *. set (la := nth (icur s - 1) a2 0) in *.
  rewrite SPLIT in P, ASC.
  assert (PA : forall (u : list Z) v, asc (u ++ [v]) -> asc u /\ forall x, In x u -> x <= v).
  { induction u as [|z u IH]; intros v A; simpl in *; [split; [constructor|intros ? []]|].
    inversion A as [|? ? Hz Au]; subst. destruct (IH v Au) as [A1 A2]. split.
    - constructor; auto. intros q Hq. apply Hz. apply in_app_iff. auto.
    - intros q [<-|Hq]; auto. apply Hz. apply in_app_iff. simpl. auto. }
  destruct (PA rest la ASC) as [ASC1 MAX].
  assert (LA : la = int_max).
  { assert (I1 : In int_max (rest ++ [la])) by (apply (Permutation_in _ P); now left).
    assert (I2 : In la (int_max :: l1 ++ firstn m l2)) by (apply (Permutation_in _ (Permutation_sym P)); apply in_app_iff; simpl; auto).
    apply in_app_iff in I1 as [I1|[<-|[]]]; auto. specialize (MAX _ I1).
    destruct I2 as [<-|I2]; auto. specialize (RNG _ I2). lia. }
  rewrite LA in P. rewrite <- Permutation_cons_append in P. apply Permutation_cons_inv in P.
  assert (MS : members s' = rest) by reflexivity.
  assert (IQ : forall x, In x (members s') <-> x <> i /\ In x (members s)).
  { intros x. rewrite MS, <- SUB. split; intros I; [apply (Permutation_in _ (Permutation_sym P))|apply (Permutation_in _ P)]; auto. }
  split; [|split; [auto|split; [auto|]]].
  - constructor; cbn [ib ii icur s'].
    + lia.
    + lia.
    + intros k. fold s'. rewrite IQ, G1, <- (wf_mem s W).
      destruct (Nat.eqb_spec k (Z.to_nat i)) as [->|NE].
      * rewrite Z2Nat.id by lia. split; [discriminate|tauto].
      * assert (Z.of_nat k <> i) by lia. tauto.
    + fold s'. rewrite MS. now apply (Permutation_NoDup P).
    + fold s'. intros x I. apply IQ in I as [_ I]. rewrite L1. now apply wf_rng.
  - rewrite MS. apply sasc_of_asc; auto. now apply (Permutation_NoDup P).
Qed.

Lemma brun_ok size : Z.of_nat size <= int_max -> forall l s dirty M, WF s -> length (ib s) = size ->
  (forall x, In x (members s) <-> M x) -> (dirty = false -> sasc (members s)) -> blegal size dirty l ->
  exists s', ofold bset_step l s = Some s' /\ WF s' /\ length (ib s') = size /\
    (forall x, In x (members s') <-> fold_left bspec_step l M x) /\ (bdirty dirty l = false -> sasc (members s')).
Proof.
  intros IM. induction l as [|o l IH]; intros s dirty M W L E D F; simpl.
  - exists s. auto.
  - destruct o as [i|i|i| |]; simpl in F |- *.
    + destruct F as [F1 F2]. destruct (bs_insert_ok s i W ltac:(lia)) as (s1 & -> & W1 & L1 & I1 & S1). cbn [obind].
      apply IH; auto; [lia|]. intros x. rewrite I1, E. tauto.
    + destruct F as [F1 F2]. destruct (insert_ok s i W ltac:(lia)) as (s1 & -> & W1 & L1 & I1). cbn [obind].
      apply IH; auto; [lia| |discriminate]. intros x. destruct I1 as [[I ->]|[NI ->]].
      * rewrite E. split; [auto|]. intros [->|Q]; auto. now apply E.
      * rewrite in_app_iff, E. simpl. intuition.
    + destruct F as (F1 & -> & F2).
      destruct (bs_erase_ok s i W (D eq_refl) ltac:(lia) ltac:(lia)) as (s1 & -> & W1 & L1 & I1 & S1). cbn [obind].
      apply IH; auto; [lia|]. intros x. rewrite I1, E. tauto.
    + destruct (is_sort_ok s W) as (s1 & -> & W1 & L1 & P & S1 & _). cbn [obind]. apply IH; auto; [lia|].
      intros x. rewrite <- E. split; intros I; [apply (Permutation_in _ (Permutation_sym P))|apply (Permutation_in _ P)]; auto.
    + destruct (clear_ok s W) as (s1 & -> & W1 & L1 & M1). cbn [obind]. apply IH; auto; [lia| |].
      * intros x. rewrite M1. simpl. tauto.
      * intros _. rewrite M1. constructor.
Qed.

(** For every legal sequence of operations on a set whose size is an [int]: no undefined behaviour; the membership test, the size
    and the enumeration are those of the mathematical set; and the enumeration is strictly increasing whenever no
    append was made since the last sorting. *)
Theorem bintset_is_sorted_set al size l : (forall n, length (al n) = n) -> Z.of_nat size <= int_max -> blegal size false l ->
  exists s e, bset_run al size l = Some s /\ enumerate s = Some e /\ NoDup e /\ (forall x, In x e <-> bspec_run l x) /\
    (bdirty false l = false -> forall i j, (i < j)%nat -> (j < length e)%nat -> nth i e 0 < nth j e 0) /\
    is_getSize s = length e /\
    (forall x, 0 <= x < Z.of_nat size -> exists b, is_get s x = Some b /\ (b = true <-> bspec_run l x)).
Proof.
  intros AL IM F. destruct (init_ok al size AL) as [W0 M0].
  destruct (brun_ok size IM l (is_init al size) false (fun _ => False) W0) as (s & E & W & L & I & S); auto.
  { simpl. apply repeat_length. }
  { intros x. rewrite M0. simpl. tauto. }
  { intros _. rewrite M0. constructor. }
  exists s, (members s). split; [exact E|]. split; [now apply enumerate_ok|]. split; [apply wf_nd; auto|].
  split; [exact I|]. split.
  { intros Q. specialize (S Q). clear - S. induction S as [|x l H S IH]; intros i j H1 H2; simpl in *; [lia|].
    destruct i as [|i], j as [|j]; simpl; try lia.
    - apply H. apply nth_In. lia.
    - apply IH; lia. }
  split; [unfold is_getSize; symmetry; now apply members_length|].
  intros x Hx. rewrite <- L in Hx. destruct (get_ok s x W Hx) as (b & Eb & Db). exists b. split; [auto|].
  rewrite Db. apply I.
Qed.

(** Without sorting after append, erase writes in front of the array. *)
Theorem bintset_erase_unsorted_refuted : bset_run (repeat 0) 6 [BAppend 5; BAppend 3; BErase 3] = None.
Proof. vm_compute. reflexivity. Qed.

Module Ex.
  Definition prog := [BInsert 4; BInsert 1; BAppend 3; BAppend 0; BSort; BErase 4; BErase 2; BInsert 5; BErase 0].
  Example prog_ok : blegal 6 false prog /\ bdirty false prog = false.
  Proof. simpl. repeat split; lia. Qed.
  Example prog_runs : (s <- bset_run (repeat 9) 6 prog ;; enumerate s) = Some [1; 3; 5].
  Proof. vm_compute. reflexivity. Qed.
End Ex.

Print Assumptions bintset_is_sorted_set.
Print Assumptions bintset_erase_unsorted_refuted.
