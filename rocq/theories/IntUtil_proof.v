(** Proofs about the array helpers of IntUtil_model. *)
From Verif Require Import Base Arr IntUtil_model.
Local Open Scope Z_scope.

Notation nthZ := (fun a i => nth i a 0).

(** Cells [lo .. hi-1] are in ascending order. *)
Definition sorted_between (a : list Z) (lo hi : nat) : Prop :=
  forall i j, (lo <= i)%nat -> (i <= j)%nat -> (j < hi)%nat -> nth i a 0 <= nth j a 0.

Lemma getZ (a : list Z) i : (i < length a)%nat -> get a i = Some (nth i a 0).
Proof. intros H. apply (get_nth 0). auto. Qed.

Lemma scan_up_ok a pv : forall fuel i p, (i <= p)%nat -> (p < length a)%nat -> pv <= nth p a 0 -> (p - i < fuel)%nat ->
  exists i', scan_up fuel a pv i = Some i' /\ (i <= i' <= p)%nat /\ pv <= nth i' a 0 /\
    (forall k, (i <= k < i')%nat -> nth k a 0 < pv).
Proof.
  induction fuel as [|f IH]; intros i p H1 H2 H3 H4; [lia|].
  cbn [scan_up]. rewrite (getZ a i) by lia. cbn [obind].
  destruct (Z.ltb_spec (nth i a 0) pv) as [LT|GE].
  - assert (i <> p) by (intros ->; lia).
    destruct (IH (S i) p) as (i' & E & B & G & A); [lia|lia|lia|lia|].
    exists i'. split; [auto|]. split; [lia|]. split; [auto|].
    intros k Hk. destruct (Nat.eq_dec k i) as [->|]; [lia|]. apply A. lia.
  - exists i. split; [auto|]. split; [lia|]. split; [auto|]. intros k Hk. lia.
Qed.

Lemma scan_down_ok a pv : forall j q, (q < j)%nat -> (j <= length a)%nat -> nth q a 0 <= pv ->
  exists j', scan_down a pv j = Some j' /\ (q <= j' < j)%nat /\ nth j' a 0 <= pv /\
    (forall k, (j' < k < j)%nat -> pv < nth k a 0).
Proof.
  induction j as [|j IH]; intros q H1 H2 H3; [lia|].
  cbn [scan_down]. rewrite (getZ a j) by lia. cbn [obind].
  destruct (Z.ltb_spec pv (nth j a 0)) as [LT|GE].
  - assert (j <> q) by (intros ->; lia).
    destruct (IH q) as (j' & E & B & G & A); [lia|lia|lia|].
    exists j'. split; [auto|]. split; [lia|]. split; [auto|].
    intros k Hk. destruct (Nat.eq_dec k j) as [->|]; [lia|]. apply A. lia.
  - exists j. split; [auto|]. split; [lia|]. split; [auto|]. intros k Hk. lia.
Qed.

Lemma part_loop_ok : forall fuel a pv lo hi i j,
  (j - i < fuel)%nat -> (hi <= length a)%nat -> (lo <= i)%nat -> (i <= j)%nat -> (j <= hi)%nat ->
  (forall k, (lo <= k < i)%nat -> nth k a 0 <= pv) ->
  (forall k, (j <= k < hi)%nat -> pv <= nth k a 0) ->
  (exists p, (i <= p < hi)%nat /\ pv <= nth p a 0 /\ (j = hi -> (S p < hi)%nat)) ->
  (exists q, (lo <= q < j)%nat /\ nth q a 0 <= pv) ->
  exists r a', part_loop fuel a pv i j = Some (r, a') /\ (lo <= r)%nat /\ (S r < hi)%nat /\ length a' = length a /\
    Permutation (slice 0 a lo hi) (slice 0 a' lo hi) /\
    (forall k, (k < lo \/ hi <= k)%nat -> nth k a' 0 = nth k a 0) /\
    (forall k, (lo <= k <= r)%nat -> nth k a' 0 <= pv) /\
    (forall k, (r < k < hi)%nat -> pv <= nth k a' 0).
Proof.
  induction fuel as [|f IH]; intros a pv lo hi i j F Hl H1 H2 H3 LE GE (p & P1 & P2 & P3) (q & Q1 & Q2); [lia|].
  cbn [part_loop].
  destruct (scan_up_ok a pv (S (length a)) i p) as (i' & E1 & B1 & G1 & A1); [lia|lia|lia|lia|].
  rewrite E1. cbn [obind].
  destruct (scan_down_ok a pv j q) as (j' & E2 & B2 & G2 & A2); [lia|lia|lia|].
  rewrite E2. cbn [obind].
  destruct (Nat.leb_spec j' i') as [STOP|GO].
  - exists j', a. split; [auto|]. split; [lia|]. split.
    { destruct (Nat.eq_dec j hi) as [->|]; [specialize (P3 eq_refl); lia|lia]. }
    split; [auto|]. split; [auto|]. split; [auto|]. split.
    + intros k Hk. destruct (Nat.lt_ge_cases k i); [apply LE; lia|].
      destruct (Nat.lt_ge_cases k i'); [specialize (A1 k); lia|]. replace k with j' by lia. auto.
    + intros k Hk. destruct (Nat.lt_ge_cases k j); [specialize (A2 k); lia|apply GE; lia].
  - rewrite (getZ a i') by lia. cbn [obind]. rewrite (getZ a j') by lia. cbn [obind].
    destruct (set_some a i' (nth j' a 0)) as (a1 & S1); [lia|]. rewrite S1. cbn [obind].
    pose proof (set_length _ _ _ _ S1).
    destruct (set_some a1 j' (nth i' a 0)) as (a2 & S2); [lia|]. rewrite S2. cbn [obind].
    destruct (swap_slice 0 a a1 a2 i' j' lo hi S1 S2) as (PM & L2 & G); [lia|lia|].
    destruct (IH a2 pv lo hi (S i') j') as (r & a' & R & K1 & K2 & K3 & K4 & K5 & K6 & K7); try lia.
    + intros k Hk. rewrite G. destruct (Nat.eqb_spec k i'); [lia|]. destruct (Nat.eqb_spec k j'); [lia|].
      destruct (Nat.lt_ge_cases k i); [apply LE; lia|specialize (A1 k); lia].
    + intros k Hk. rewrite G. destruct (Nat.eqb_spec k i'); [lia|]. destruct (Nat.eqb_spec k j'); [lia|].
      destruct (Nat.lt_ge_cases k j); [specialize (A2 k); lia|apply GE; lia].
    + exists j'. rewrite G. destruct (Nat.eqb_spec j' i'); [lia|]. rewrite Nat.eqb_refl.
      split; [lia|]. split; [lia|]. intros; lia.
    + exists i'. rewrite G, Nat.eqb_refl. split; [lia|lia].
    + exists r, a'. split; [auto|]. split; [auto|]. split; [auto|]. split; [lia|]. split.
      * etransitivity; eauto.
      * split; [|auto]. intros k Hk. rewrite K5 by auto. rewrite G.
        destruct (Nat.eqb_spec k i'); [lia|]. destruct (Nat.eqb_spec k j'); [lia|]. auto.
Qed.

Lemma partition_ok a lo hi : (S lo < hi)%nat -> (hi <= length a)%nat ->
  exists r a' pv, partition a lo hi = Some (r, a') /\ (lo <= r)%nat /\ (S r < hi)%nat /\ length a' = length a /\
    Permutation (slice 0 a lo hi) (slice 0 a' lo hi) /\
    (forall k, (k < lo \/ hi <= k)%nat -> nth k a' 0 = nth k a 0) /\
    (forall k, (lo <= k <= r)%nat -> nth k a' 0 <= pv) /\
    (forall k, (r < k < hi)%nat -> pv <= nth k a' 0).
Proof.
  intros H1 H2. unfold partition.
  assert (M : (lo <= (lo + (hi - 1)) / 2)%nat /\ (S ((lo + (hi - 1)) / 2) < hi)%nat).
  { pose proof (Nat.div_mod (lo + (hi - 1)) 2). pose proof (Nat.mod_upper_bound (lo + (hi - 1)) 2). lia. }
  set (mid := ((lo + (hi - 1)) / 2)%nat) in *. clearbody mid.
  rewrite (getZ a mid) by lia. cbn [obind].
  destruct (part_loop_ok (S hi) a (nth mid a 0) lo hi lo hi) as (r & a' & R); try lia.
  - exists mid. split; [lia|]. split; [lia|]. intros; lia.
  - exists mid. split; [lia|]. lia.
  - exists r, a', (nth mid a 0). exact R.
Qed.

Lemma slice_perm_nth a b lo hi (P : Z -> Prop) : Permutation (slice 0 a lo hi) (slice 0 b lo hi) ->
  (forall k, (lo <= k < hi)%nat -> P (nth k a 0)) -> forall k, (lo <= k < hi)%nat -> P (nth k b 0).
Proof.
  intros PM H k Hk. assert (I : In (nth k b 0) (slice 0 b lo hi)) by (apply slice_in; eauto).
  apply (Permutation_in _ (Permutation_sym PM)) in I. apply slice_in in I. destruct I as (i & Hi & <-). auto.
Qed.

Lemma isort_ok : forall fuel a lo hi, (hi - lo < fuel)%nat -> (hi <= length a)%nat ->
  exists a', isort fuel a lo hi = Some a' /\ length a' = length a /\
    Permutation (slice 0 a lo hi) (slice 0 a' lo hi) /\
    (forall k, (k < lo \/ hi <= k)%nat -> nth k a' 0 = nth k a 0) /\
    sorted_between a' lo hi.
Proof.
  induction fuel as [|f IH]; intros a lo hi F Hl; [lia|].
  cbn [isort]. destruct (Nat.ltb_spec (S lo) hi) as [LT|GE].
  - destruct (partition_ok a lo hi LT Hl) as (r & a1 & pv & E & R1 & R2 & L1 & P1 & U1 & A1 & B1).
    rewrite E. cbn [obind].
    destruct (IH a1 lo (S r)) as (a2 & E2 & L2 & P2 & U2 & S2); [lia|lia|]. rewrite E2. cbn [obind].
    destruct (IH a2 (S r) hi) as (a3 & E3 & L3 & P3 & U3 & S3); [lia|lia|]. rewrite E3.
    assert (LOW : forall k, (lo <= k < S r)%nat -> nth k a3 0 = nth k a2 0) by (intros; apply U3; lia).
    assert (HIGH : forall k, (S r <= k < hi)%nat -> nth k a2 0 = nth k a1 0) by (intros; apply U2; lia).
    exists a3. split; [auto|]. split; [lia|]. split.
    { etransitivity; [exact P1|].
      rewrite (slice_app 0 a1 lo (S r) hi), (slice_app 0 a3 lo (S r) hi) by lia.
      apply Permutation_app.
      - rewrite (slice_ext 0 a3 a2) by auto. auto.
      - rewrite <- P3. rewrite (slice_ext 0 a2 a1) by auto. auto. }
    split.
    { intros k Hk. rewrite U3 by lia. rewrite U2 by lia. apply U1. lia. }
    assert (A3 : forall k, (lo <= k < S r)%nat -> nth k a3 0 <= pv).
    { intros k Hk. rewrite LOW by auto. apply (slice_perm_nth a1 a2 lo (S r) (fun x => x <= pv)); auto.
      intros i Hi. apply A1. lia. }
    assert (B3 : forall k, (S r <= k < hi)%nat -> pv <= nth k a3 0).
    { apply (slice_perm_nth a2 a3 (S r) hi (fun x => pv <= x)); auto.
      intros i Hi. rewrite HIGH by auto. apply B1. lia. }
    intros i j Hi Hij Hj.
    destruct (Nat.lt_ge_cases j (S r)).
    + rewrite !LOW by lia. apply S2; lia.
    + destruct (Nat.lt_ge_cases i (S r)).
      * specialize (A3 i). specialize (B3 j). lia.
      * apply S3; lia.
  - exists a. split; [auto|]. split; [auto|]. split; [auto|]. split; [auto|].
    intros i j Hi Hij Hj. replace j with i by lia. lia.
Qed.

Lemma sort_ok a lo hi : (hi <= length a)%nat ->
  exists a', sort a lo hi = Some a' /\ length a' = length a /\
    Permutation (slice 0 a lo hi) (slice 0 a' lo hi) /\
    (forall k, (k < lo \/ hi <= k)%nat -> nth k a' 0 = nth k a 0) /\
    sorted_between a' lo hi.
Proof. intros. apply isort_ok; auto. Qed.

Lemma index_loop_ok v : forall fuel a lo hi, (hi - lo < fuel)%nat -> (hi <= length a)%nat -> sorted_between a lo hi ->
  exists r, index_loop fuel a lo hi v = Some r /\
    ((exists i, (lo <= i < hi)%nat /\ r = Z.of_nat i /\ nth i a 0 = v) \/
     (r = -1 /\ forall i, (lo <= i < hi)%nat -> nth i a 0 <> v)).
Proof.
  induction fuel as [|f IH]; intros a lo hi F Hl S; [lia|].
  cbn [index_loop]. destruct (Nat.ltb_spec lo hi) as [LT|GE].
  - assert (M : (lo <= lo + (hi - 1 - lo) / 2 < hi)%nat).
    { pose proof (Nat.div_le_upper_bound (hi - 1 - lo) 2 (hi - 1 - lo)). lia. }
    set (mid := (lo + (hi - 1 - lo) / 2)%nat) in *. clearbody mid.
    rewrite (getZ a mid) by lia. cbn [obind].
    destruct (Z.eqb_spec (nth mid a 0) v) as [EQ|NE].
    + exists (Z.of_nat mid). split; [auto|]. left. exists mid. auto.
    + destruct (Z.ltb_spec v (nth mid a 0)) as [L|G].
      * destruct (IH a lo mid) as (r & E & D); [lia|lia| |].
        { intros i j Hi Hij Hj. apply S; lia. }
        exists r. split; [auto|]. destruct D as [(i & Hi & Er & Ev)|(Er & D)].
        -- left. exists i. split; [lia|]. auto.
        -- right. split; [auto|]. intros i Hi. destruct (Nat.lt_ge_cases i mid); [apply D; lia|].
           specialize (S mid i). lia.
      * destruct (IH a (Datatypes.S mid) hi) as (r & E & D); [lia|lia| |].
        { intros i j Hi Hij Hj. apply S; lia. }
        exists r. split; [auto|]. destruct D as [(i & Hi & Er & Ev)|(Er & D)].
        -- left. exists i. split; [lia|]. auto.
        -- right. split; [auto|]. intros i Hi. destruct (Nat.lt_ge_cases mid i); [apply D; lia|].
           specialize (S i mid). lia.
  - exists (-1). split; [auto|]. right. split; [auto|]. intros; lia.
Qed.

(** Ascending lists. *)
Inductive asc : list Z -> Prop :=
| asc_nil : asc []
| asc_cons x l : (forall y, In y l -> x <= y) -> asc l -> asc (x :: l).
Inductive sasc : list Z -> Prop :=
| sasc_nil : sasc []
| sasc_cons x l : (forall y, In y l -> x < y) -> sasc l -> sasc (x :: l).

Lemma asc_of_sorted a n : forall lo, sorted_between a lo (lo + n) -> asc (slice 0 a lo (lo + n)).
Proof.
  induction n as [|n IH]; intros lo S.
  - rewrite slice_empty by lia. constructor.
  - rewrite slice_cons by lia. constructor.
    + intros y Hy. apply slice_in in Hy. destruct Hy as (i & Hi & <-). apply S; lia.
    + replace (lo + Datatypes.S n)%nat with (Datatypes.S lo + n)%nat by lia. apply IH.
      intros i j Hi Hij Hj. apply S; lia.
Qed.

Lemma asc_sorted l : asc l -> sorted_between l 0 (length l).
Proof.
  induction 1 as [|x l H A IH]; intros i j Hi Hij Hj; [simpl in Hj; lia|].
  destruct i as [|i], j as [|j]; simpl in *; try lia.
  - apply H. apply nth_In. lia.
  - apply IH; lia.
Qed.

Lemma sasc_asc l : sasc l -> asc l.
Proof. induction 1 as [|x l H S IH]; constructor; auto. intros y Hy. specialize (H y Hy). lia. Qed.

Lemma sasc_NoDup l : sasc l -> NoDup l.
Proof. induction 1 as [|x l H S IH]; constructor; auto. intros I. specialize (H x I). lia. Qed.

Lemma sasc_of_asc l : asc l -> NoDup l -> sasc l.
Proof.
  induction 1 as [|x l H A IH]; intros N; constructor; inversion N; subst; auto.
  intros y Hy. specialize (H y Hy). assert (x <> y) by (intros ->; auto). lia.
Qed.

(** Two strictly ascending lists with the same members are equal. *)
Lemma sasc_unique l : sasc l -> forall l', sasc l' -> (forall x, In x l <-> In x l') -> l = l'.
Proof.
  induction 1 as [|x l H S IH]; intros l' S' E.
  - destruct l' as [|y l']; auto. destruct (proj2 (E y)). now left.
  - destruct l' as [|y l'].
    + destruct (proj1 (E x)). now left.
    + inversion S' as [|? ? H' S'']; subst.
      assert (x = y).
      { destruct (proj1 (E x) (or_introl eq_refl)) as [|I]; [auto|].
        destruct (proj2 (E y) (or_introl eq_refl)) as [|I2]; [auto|].
        specialize (H y I2). specialize (H' x I). lia. }
      subst y. f_equal. apply IH; auto. intros z. split; intros I.
      * destruct (proj1 (E z) (or_intror I)) as [<-|]; auto. specialize (H x I). lia.
      * destruct (proj2 (E z) (or_intror I)) as [<-|]; auto. specialize (H' x I). lia.
Qed.

Lemma stdset_insert_in x s y : In y (stdset_insert x s) <-> y = x \/ In y s.
Proof.
  induction s as [|z s IH]; simpl; [intuition|].
  destruct (Z.ltb_spec x z); simpl; [intuition|].
  destruct (Z.eqb_spec x z); simpl; [subst; intuition|]. rewrite IH. intuition.
Qed.

Lemma stdset_insert_sasc x s : sasc s -> sasc (stdset_insert x s).
Proof.
  induction 1 as [|z s H S IH]; simpl.
  - constructor; [intros ? []|constructor].
  - destruct (Z.ltb_spec x z).
    + constructor; [|constructor; auto]. intros y [<-|I]; [auto|]. specialize (H y I). lia.
    + destruct (Z.eqb_spec x z).
      * constructor; auto.
      * constructor; auto. intros y I. apply stdset_insert_in in I as [->|I]; [lia|auto].
Qed.

Lemma stdset_fold l : forall s, sasc s ->
  sasc (fold_left (fun t x => stdset_insert x t) l s) /\
  forall y, In y (fold_left (fun t x => stdset_insert x t) l s) <-> In y l \/ In y s.
Proof.
  induction l as [|x l IH]; intros s S; simpl.
  - split; [auto|]. intuition.
  - destruct (IH (stdset_insert x s)) as [A B]; [now apply stdset_insert_sasc|]. split; [auto|].
    intros y. rewrite B, stdset_insert_in. intuition.
Qed.

Lemma NoDup_length_le (l l' : list Z) : NoDup l -> incl l l' -> (length l <= length l')%nat.
Proof. apply NoDup_incl_length. Qed.

Lemma hasEqual_asc l : asc l -> (hasEqualNeighbours l = false <-> NoDup l).
Proof.
  induction 1 as [|x l H A IH]; simpl.
  - split; auto. constructor.
  - destruct l as [|y r].
    + split; auto. intros _. constructor; [intros []|constructor].
    + destruct (Z.eqb_spec x y) as [->|NE].
      * split; [discriminate|]. intros N. inversion N as [|? ? N1 _]; subst. elim N1. now left.
      * rewrite IH. split; intros N.
        -- constructor; auto. intros [->|I]; [congruence|].
           inversion A as [|? ? HA _]; subst. specialize (HA x I). specialize (H y (or_introl eq_refl)). lia.
        -- now inversion N.
Qed.

Lemma isSorted_asc l : isSorted l = true <-> asc l.
Proof.
  induction l as [|x l IH]; simpl.
  - split; [constructor|auto].
  - destruct l as [|y r].
    + split; auto. intros _. constructor; [intros ? []|constructor].
    + destruct (Z.ltb_spec y x) as [LT|GE].
      * split; [discriminate|]. intros A. inversion A as [|? ? H _]; subst. specialize (H y (or_introl eq_refl)). lia.
      * rewrite IH. split; intros A.
        -- constructor; auto. intros z [<-|I]; [auto|]. inversion A as [|? ? HA _]; subst. specialize (HA z I). lia.
        -- now inversion A.
Qed.

Lemma makeSet_ok a : exists a' n, makeSet a = Some (a', n) /\ length a' = length a /\ (n <= length a)%nat /\
  sasc (firstn n a') /\ (forall x, In x (firstn n a') <-> In x a).
Proof.
  unfold makeSet. destruct (Nat.leb_spec (length a) 1) as [LE|GT].
  - exists a, (length a). split; [auto|]. split; [auto|]. split; [auto|]. rewrite firstn_all. split; [|tauto].
    destruct a as [|x [|y r]]; [constructor| |simpl in LE; lia]. constructor; [intros ? []|constructor].
  - destruct (sort_ok a 0 (length a)) as (s & E & L & P & _ & S); [lia|]. rewrite E. cbn [obind].
    assert (AS : asc s).
    { pose proof (asc_of_sorted s (length a) 0 S) as Q. simpl in Q. rewrite <- L, slice_full in Q. auto. }
    rewrite slice_full in P. rewrite <- L, slice_full in P.
    destruct (hasEqualNeighbours s) eqn:EN.
    + destruct (stdset_fold s [] sasc_nil) as [A B].
      set (temp := fold_left (fun t x => stdset_insert x t) s []) in *. clearbody temp.
      assert (LT : (length temp <= length s)%nat).
      { apply NoDup_length_le; [now apply sasc_NoDup|]. intros y Hy. apply B in Hy. destruct Hy as [|[]]; auto. }
      eexists. exists (length temp). split; [reflexivity|]. rewrite app_length, repeat_length.
      split; [lia|]. split; [lia|].
      rewrite firstn_app, Nat.sub_diag, firstn_O, app_nil_r, firstn_all. split; [auto|].
      intros x. rewrite B. simpl. split.
      * intros [I|[]]. now apply (Permutation_in _ (Permutation_sym P)).
      * intros I. left. now apply (Permutation_in _ P).
    + exists s, (length a). split; [auto|]. split; [auto|]. split; [auto|].
      rewrite <- L, firstn_all. split.
      * apply sasc_of_asc; auto. now apply hasEqual_asc.
      * intros x. split; intros I; [apply (Permutation_in _ (Permutation_sym P))|apply (Permutation_in _ P)]; auto.
Qed.

Lemma copy_loop_ok ex : forall l out o, (o + length (filter (fun x => negb (Z.eqb x ex)) l) <= length out)%nat ->
  exists r, copy_loop l ex out o = Some r /\ length r = length out /\
    firstn o r = firstn o out /\
    firstn (length (filter (fun x => negb (Z.eqb x ex)) l)) (skipn o r) = filter (fun x => negb (Z.eqb x ex)) l.
Proof.
  induction l as [|x l IH]; intros out o H; simpl in *.
  - exists out. auto.
  - destruct (Z.eqb_spec x ex) as [->|NE]; simpl in *; [apply IH; auto|].
    destruct (set_some out o x) as (o1 & E); [lia|]. rewrite E. cbn [obind].
    pose proof (set_length _ _ _ _ E) as L.
    destruct (IH o1 (S o)) as (r & R & Lr & F1 & F2); [lia|].
    exists r. split; [auto|]. split; [lia|].
    assert (Gr : nth_error r o = Some x).
    { pose proof (get_set_eq _ _ _ _ E) as G. unfold get in G.
      assert (Q : nth_error (firstn (S o) r) o = nth_error (firstn (S o) o1) o) by now rewrite F1.
      rewrite <- (firstn_skipn (S o) o1) in G. rewrite nth_error_app1 in G by (rewrite firstn_length; lia).
      rewrite <- (firstn_skipn (S o) r). rewrite nth_error_app1 by (rewrite firstn_length; lia). congruence. }
    split.
    + assert (Q : firstn o (firstn (S o) r) = firstn o (firstn (S o) o1)) by now rewrite F1.
      rewrite !firstn_firstn in Q. replace (min o (S o)) with o in Q by lia. rewrite Q.
      clear - E. revert o o1 E. induction out as [|y out IH]; intros [|o] o1 E; simpl in E; try discriminate; auto.
      apply obind_some in E as (t & E & H). injection H as <-. simpl. f_equal. auto.
    + destruct (nth_error_split _ _ Gr) as (l1 & l2 & -> & Ll).
      rewrite skipn_app, <- Ll, Nat.sub_diag, skipn_all. simpl. f_equal.
      rewrite <- Ll in F2. replace (S (length l1)) with (length (l1 ++ [x]))%nat in F2 by (rewrite app_length; simpl; lia).
      replace (l1 ++ x :: l2) with ((l1 ++ [x]) ++ l2) in F2 by now rewrite <- app_assoc.
      rewrite skipn_app, Nat.sub_diag, skipn_all in F2. exact F2.
Qed.

Lemma copy_loop_none ex : forall l out o, (o <= length out)%nat -> (length out < o + length (filter (fun x => negb (Z.eqb x ex)) l))%nat ->
  copy_loop l ex out o = None.
Proof.
  induction l as [|x l IH]; intros out o H1 H; simpl in *; [lia|].
  destruct (Z.eqb_spec x ex) as [->|NE]; simpl in *; [apply IH; auto|].
  destruct (set out o x) as [o1|] eqn:E; auto. cbn [obind].
  pose proof (set_length _ _ _ _ E) as L. pose proof (set_lt _ _ _ _ E). apply IH; lia.
Qed.
