(** C28: sorting, binary search, set making and copying of IntUtil.cpp. *)
From Verif Require Import Base Arr IntUtil_model IntUtil_proof.
Local Open Scope Z_scope.

(** sort(ints, lo, hi-1): defined on every section of every array, permutes the section, leaves all other
    cells alone, and the section is ascending afterwards. *)
Theorem sort_correct a lo hi : (hi <= length a)%nat ->
  exists a', sort a lo hi = Some a' /\ length a' = length a /\
    Permutation (slice 0 a lo hi) (slice 0 a' lo hi) /\
    (forall k, (k < lo \/ hi <= k)%nat -> nth k a' 0 = nth k a 0) /\
    (forall i j, (lo <= i)%nat -> (i <= j)%nat -> (j < hi)%nat -> nth i a' 0 <= nth j a' 0).
Proof. apply sort_ok. Qed.

(** indexOf on an ascending section: an index in the section holding the value if there is one, -1 otherwise. *)
Theorem indexOf_correct a lo hi v : (hi <= length a)%nat ->
  (forall i j, (lo <= i)%nat -> (i <= j)%nat -> (j < hi)%nat -> nth i a 0 <= nth j a 0) ->
  exists r, indexOf a lo hi v = Some r /\
    ((exists i, (lo <= i < hi)%nat /\ r = Z.of_nat i /\ nth i a 0 = v) \/
     (r = -1 /\ forall i, (lo <= i < hi)%nat -> nth i a 0 <> v)).
Proof. intros. apply index_loop_ok; auto. Qed.

Theorem containsInt_correct a lo hi v : (hi <= length a)%nat ->
  (forall i j, (lo <= i)%nat -> (i <= j)%nat -> (j < hi)%nat -> nth i a 0 <= nth j a 0) ->
  exists b, containsInt a lo hi v = Some b /\ (b = true <-> exists i, (lo <= i < hi)%nat /\ nth i a 0 = v).
Proof.
  intros H S. destruct (indexOf_correct a lo hi v H S) as (r & E & D). unfold containsInt. rewrite E. cbn [obind].
  exists (Z.leb 0 r). split; [auto|]. rewrite Z.leb_le.
  destruct D as [(i & Hi & -> & Ev)|(-> & N)].
  - split; [eauto|lia].
  - split; [lia|]. intros (i & Hi & Ev). now elim (N i Hi).
Qed.

(** makeSet: the returned number of leading cells are strictly ascending and hold exactly the values of the array. *)
Theorem makeSet_correct a : exists a' n, makeSet a = Some (a', n) /\ length a' = length a /\ (n <= length a)%nat /\
  (forall i j, (i < j)%nat -> (j < n)%nat -> nth i a' 0 < nth j a' 0) /\ (forall x, In x (firstn n a') <-> In x a).
Proof.
  destruct (makeSet_ok a) as (a' & n & E & L & N & S & I). exists a', n.
  split; [auto|]. split; [auto|]. split; [auto|]. split; [|auto].
  intros i j H1 H2.
  assert (G : forall k, (k < n)%nat -> nth k a' 0 = nth k (firstn n a') 0).
  { intros k Hk. rewrite <- (firstn_skipn n a') at 1. rewrite app_nth1; auto. rewrite firstn_length. lia. }
  rewrite !G by lia. assert (Q : (j < length (firstn n a'))%nat) by (rewrite firstn_length; lia).
  clear - S H1 Q. revert i j H1 Q. induction S as [|x l H S IH]; intros i j H1 Q; simpl in *; [lia|].
  destruct i as [|i], j as [|j]; simpl; try lia.
  - apply H. apply nth_In. lia.
  - apply IH; lia.
Qed.

(** isSorted decides that all pairs are in order. *)
Theorem isSorted_correct l :
  isSorted l = true <-> (forall i j, (i <= j)%nat -> (j < length l)%nat -> nth i l 0 <= nth j l 0).
Proof.
  rewrite isSorted_asc. split.
  - intros A i j H1 H2. apply (asc_sorted l A); lia.
  - intros H. rewrite <- (slice_full 0 l). apply (asc_of_sorted l (length l) 0). intros i j Hi. apply H.
Qed.

(** copyExcluding: when the excluded value occurs, the result is defined and starts with the other values in order. *)
Theorem copyExcluding_correct al l ex : (forall n, length (al n) = n) -> In ex l ->
  exists r, copyExcluding al l ex = Some r /\
    firstn (length (filter (fun x => negb (Z.eqb x ex)) l)) r = filter (fun x => negb (Z.eqb x ex)) l.
Proof.
  intros AL I. unfold copyExcluding. destruct (length l) as [|n] eqn:L; [destruct l; [destruct I|discriminate]|].
  destruct (copy_loop_ok ex l (al n) 0) as (r & R & _ & _ & F).
  - rewrite AL. simpl. clear AL. apply in_split in I as (l1 & l2 & ->). rewrite filter_app, app_length. simpl.
    rewrite Z.eqb_refl. simpl. rewrite app_length in L. simpl in L.
    assert (Q : forall k, (length (filter (fun x => negb (Z.eqb x ex)) k) <= length k)%nat).
    { induction k as [|y k IH]; simpl; [lia|]. destruct (negb (Z.eqb y ex)); simpl; lia. }
    pose proof (Q l1). pose proof (Q l2). lia.
  - exists r. auto.
Qed.

(** If the value occurs exactly once (as in the landmark lists it is used on) the whole result is determined. *)
Theorem copyExcluding_once al l1 ex l2 : (forall n, length (al n) = n) -> ~ In ex l1 -> ~ In ex l2 ->
  copyExcluding al (l1 ++ ex :: l2) ex = Some (l1 ++ l2).
Proof.
  intros AL N1 N2. assert (I : In ex (l1 ++ ex :: l2)) by (apply in_or_app; right; now left).
  assert (FI : forall k, ~ In ex k -> filter (fun x => negb (Z.eqb x ex)) k = k).
  { induction k as [|y k IH]; simpl; intros N; auto. destruct (Z.eqb_spec y ex) as [->|]; [elim N; auto|].
    simpl. f_equal. apply IH. tauto. }
  unfold copyExcluding. rewrite app_length. simpl. rewrite Nat.add_succ_r.
  destruct (copy_loop_ok ex (l1 ++ ex :: l2) (al (length l1 + length l2)%nat) 0) as (r & R & Lr & _ & F).
  - rewrite filter_app. simpl. rewrite Z.eqb_refl. simpl. rewrite !FI, app_length, AL by auto. simpl. lia.
  - rewrite R. f_equal. rewrite filter_app in F. simpl in F. rewrite Z.eqb_refl in F. simpl in F. rewrite !FI in F by auto.
    rewrite AL in Lr. rewrite app_length, <- Lr, firstn_all in F. auto.
Qed.

(** When the value does not occur, the last value is written behind the end of the result (callers test first). *)
Theorem copyExcluding_absent_refuted al l ex : (forall n, length (al n) = n) -> ~ In ex l -> copyExcluding al l ex = None.
Proof.
  intros AL N. unfold copyExcluding. destruct (length l) as [|n] eqn:L; auto.
  apply copy_loop_none; [lia|]. rewrite AL.
  replace (filter (fun x => negb (Z.eqb x ex)) l) with l; [lia|].
  clear - N. induction l as [|y l IH]; simpl; auto. destruct (Z.eqb_spec y ex) as [->|]; [elim N; now left|].
  simpl. f_equal. apply IH. intros I. apply N. now right.
Qed.

Module Ex.
  Example sort_ex : sort [9; 5; 3; 5; -2; 8; 0] 1 6 = Some [9; -2; 3; 5; 5; 8; 0].
  Proof. vm_compute. reflexivity. Qed.
  Example index_ex : indexOf [9; -2; 3; 5; 5; 8; 0] 1 6 8 = Some 5 /\ indexOf [9; -2; 3; 5; 5; 8; 0] 1 6 4 = Some (-1) /\
    containsInt [9; -2; 3; 5; 5; 8; 0] 1 6 5 = Some true.
  Proof. repeat split; vm_compute; reflexivity. Qed.
  Example index_hyp : sorted_between [9; -2; 3; 5; 5; 8; 0] 1 6.
  Proof.
    pose proof (sort_correct [9; 5; 3; 5; -2; 8; 0] 1 6) as H. destruct H as (a' & E & _ & _ & _ & S); [simpl; lia|].
    vm_compute in E. injection E as <-. exact S.
  Qed.
  Example makeSet_ex : makeSet [4; 7; 4; 1; 7] = Some ([1; 4; 7; -1; -1], 3%nat) /\ makeSet [4; 2; 3] = Some ([2; 3; 4], 3%nat).
  Proof. split; vm_compute; reflexivity. Qed.
  Example copy_ex : copyExcluding (repeat 99) [4; 7; 1] 7 = Some [4; 1].
  Proof. vm_compute. reflexivity. Qed.
End Ex.

Print Assumptions sort_correct.
Print Assumptions indexOf_correct.
Print Assumptions containsInt_correct.
Print Assumptions makeSet_correct.
Print Assumptions isSorted_correct.
Print Assumptions copyExcluding_correct.
Print Assumptions copyExcluding_once.
Print Assumptions copyExcluding_absent_refuted.
