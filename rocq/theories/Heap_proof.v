(** Proofs about the binary heap of Heap_model. *)
From Verif Require Import Base Arr Heap_model.
Local Open Scope Z_scope.

Definition cell (ks vs : list Z) (i : nat) : Z * Z := (nth i ks 0, nth i vs 0).
Definition pairs (ks vs : list Z) (n : nat) : list (Z * Z) := map (cell ks vs) (seq 1 (n - 1)).
(** The contents of a heap. *)
Definition elems (h : heap) : list (Z * Z) := pairs (hk h) (hv h) (hnext h).

Definition ordered (ks : list Z) (n : nat) : Prop :=
  forall i, (2 <= i < n)%nat -> nth (Nat.div2 i) ks 0 <= nth i ks 0.

Record HInv (h : heap) : Prop := {
  hi_next : (1 <= hnext h <= length (hk h))%nat;
  hi_len : length (hv h) = length (hk h);
  hi_zero : nth 0 (hk h) 0 = int_min;
  hi_min : forall i, (i < hnext h)%nat -> int_min <= nth i (hk h) 0;
  hi_ord : ordered (hk h) (hnext h) }.

Lemma div2_le i : (Nat.div2 i <= i)%nat.
Proof. apply Nat.div2_decr. lia. Qed.
Lemma div2_lt i : (1 <= i -> Nat.div2 i < i)%nat.
Proof. intros. apply Nat.lt_div2. lia. Qed.
Lemma div2_pos i : (2 <= i -> 1 <= Nat.div2 i)%nat.
Proof. destruct i as [|[|i]]; simpl; lia. Qed.
Lemma div2_child c i : (Nat.div2 i = c <-> i = 2 * c \/ i = 2 * c + 1)%nat.
Proof.
  rewrite Nat.div2_div. split.
  - intros <-. pose proof (Nat.div_mod i 2). pose proof (Nat.mod_upper_bound i 2). lia.
  - intros [-> | ->]; [rewrite Nat.mul_comm; now apply Nat.div_mul|].
    rewrite Nat.mul_comm, Nat.div_add_l; simpl; lia.
Qed.

Lemma swap_cells_some a i j : (i < length a -> j < length a ->
  exists a', swap_cells a i j = Some a' /\ length a' = length a /\
    forall k, nth k a' 0%Z = if Nat.eqb k i then nth j a 0%Z else if Nat.eqb k j then nth i a 0%Z else nth k a 0%Z)%nat.
Proof.
  intros Hi Hj. unfold swap_cells.
  rewrite (proj2 (get_nth 0 a i (nth i a 0)) (conj Hi eq_refl)). cbn [obind].
  rewrite (proj2 (get_nth 0 a j (nth j a 0)) (conj Hj eq_refl)). cbn [obind].
  destruct (set_some a i (nth j a 0) Hi) as (a1 & E1). rewrite E1. cbn [obind].
  pose proof (set_length _ _ _ _ E1) as L1.
  destruct (set_some a1 j (nth i a 0)) as (a2 & E2); [lia|]. exists a2. split; auto.
  rewrite (set_length _ _ _ _ E2). split; auto.
  intros k. rewrite (nth_set 0 _ _ _ _ E2), (nth_set 0 _ _ _ _ E1).
  destruct (Nat.eqb_spec k i), (Nat.eqb_spec k j); subst; auto.
Qed.

Lemma swap_pairs ks vs ks' vs' i j n : (1 <= i < n -> 1 <= j < n ->
  (forall k, nth k ks' 0%Z = if Nat.eqb k i then nth j ks 0%Z else if Nat.eqb k j then nth i ks 0%Z else nth k ks 0%Z) ->
  (forall k, nth k vs' 0%Z = if Nat.eqb k i then nth j vs 0%Z else if Nat.eqb k j then nth i vs 0%Z else nth k vs 0%Z) ->
  Permutation (pairs ks vs n) (pairs ks' vs' n))%nat.
Proof.
  intros Hi Hj HK HV. unfold pairs. apply (swap_perm _ _ i j); [lia|lia|].
  intros k. unfold cell. rewrite HK, HV. destruct (Nat.eqb k i); auto. destruct (Nat.eqb k j); auto.
Qed.

Lemma sift_up_ok fuel : forall ks vs cur n,
  (cur < fuel)%nat -> (1 <= cur < n)%nat -> (n <= length ks)%nat -> length vs = length ks ->
  nth 0 ks 0 = int_min -> (forall i, (i < n)%nat -> int_min <= nth i ks 0) ->
  (forall i, (2 <= i < n)%nat -> i <> cur -> nth (Nat.div2 i) ks 0 <= nth i ks 0) ->
  (forall i, (2 <= i < n)%nat -> Nat.div2 i = cur -> (2 <= cur)%nat -> nth (Nat.div2 cur) ks 0 <= nth i ks 0) ->
  exists ks' vs', sift_up fuel ks vs cur = Some (ks', vs') /\
    length ks' = length ks /\ length vs' = length vs /\
    Permutation (pairs ks vs n) (pairs ks' vs' n) /\
    nth 0 ks' 0 = int_min /\ (forall i, (i < n)%nat -> int_min <= nth i ks' 0) /\ ordered ks' n.
Proof.
  induction fuel as [|f IH]; intros ks vs cur n F Hc Hn Hl Z0 Hmin Ho Hch; [lia|].
  cbn [sift_up].
  assert (Lc : (cur < length ks)%nat) by lia.
  assert (Lp : (Nat.div2 cur < length ks)%nat) by (pose proof (div2_le cur); lia).
  rewrite (proj2 (get_nth 0 ks cur _) (conj Lc eq_refl)). cbn [obind].
  rewrite (proj2 (get_nth 0 ks (Nat.div2 cur) _) (conj Lp eq_refl)). cbn [obind].
  destruct (Z.ltb_spec (nth cur ks 0) (nth (Nat.div2 cur) ks 0)) as [LT|GE].
  - assert (C2 : (2 <= cur)%nat).
    { destruct cur as [|[|c]]; try lia. exfalso. simpl in LT. rewrite Z0 in LT. specialize (Hmin 1%nat). lia. }
    pose proof (div2_pos cur C2) as P1. pose proof (div2_lt cur ltac:(lia)) as P2.
    set (p := Nat.div2 cur) in *.
    destruct (swap_cells_some ks cur p Lc Lp) as (ks1 & E1 & L1 & G1).
    destruct (swap_cells_some vs cur p) as (vs1 & E2 & L2 & G2); [lia|lia|].
    rewrite E1. cbn [obind]. rewrite E2. cbn [obind].
    destruct (IH ks1 vs1 p n) as (ks' & vs' & R & K1 & K2 & PM & K3 & K4 & K5); try lia.
    + rewrite G1. destruct (Nat.eqb_spec 0 cur), (Nat.eqb_spec 0 p); try lia.
    + intros i Hi. rewrite G1. destruct (Nat.eqb_spec i cur), (Nat.eqb_spec i p); apply Hmin; lia.
    + intros i Hi Ne. rewrite !G1.
      destruct (Nat.eqb_spec i cur) as [->|N1].
      * fold p. rewrite Nat.eqb_refl. destruct (Nat.eqb_spec p cur); [lia|]. lia.
      * destruct (Nat.eqb_spec i p); [congruence|].
        destruct (Nat.eqb_spec (Nat.div2 i) cur) as [Ec|Nc].
        -- apply Hch; auto.
        -- destruct (Nat.eqb_spec (Nat.div2 i) p) as [Ep|Np].
           ++ specialize (Ho i Hi N1). rewrite Ep in Ho. lia.
           ++ apply Ho; auto.
    + intros i Hi Ei P3.
      pose proof (div2_lt p ltac:(lia)) as P4.
      assert (PP : nth (Nat.div2 p) ks 0 <= nth p ks 0) by (apply Ho; lia).
      rewrite !G1.
      destruct (Nat.eqb_spec (Nat.div2 p) cur); [lia|]. destruct (Nat.eqb_spec (Nat.div2 p) p); [lia|].
      destruct (Nat.eqb_spec i cur) as [->|N1]; [exact PP|].
      destruct (Nat.eqb_spec i p) as [->|N2]; [lia|].
      specialize (Ho i Hi N1). rewrite Ei in Ho. lia.
    + exists ks', vs'. split; [exact R|]. split; [lia|]. split; [lia|]. split; [|auto].
      etransitivity; [|exact PM]. apply (swap_pairs _ _ _ _ cur p); auto; lia.
  - exists ks, vs. split; [reflexivity|]. split; [auto|]. split; [auto|]. split; [auto|]. split; [auto|]. split; [auto|].
    intros i Hi. destruct (Nat.eq_dec i cur) as [->|N]; auto.
Qed.

Lemma sift_down_ok fuel : forall ks vs cur n,
  (n <= cur + fuel)%nat -> (1 <= fuel)%nat -> (1 <= cur)%nat -> (n <= length ks)%nat -> length vs = length ks ->
  nth 0 ks 0 = int_min -> (forall i, (i < n)%nat -> int_min <= nth i ks 0) ->
  (forall i, (2 <= i < n)%nat -> Nat.div2 i <> cur -> nth (Nat.div2 i) ks 0 <= nth i ks 0) ->
  (forall i, (2 <= i < n)%nat -> Nat.div2 i = cur -> (2 <= cur)%nat -> nth (Nat.div2 cur) ks 0 <= nth i ks 0) ->
  exists ks' vs', sift_down fuel ks vs n cur = Some (ks', vs') /\
    length ks' = length ks /\ length vs' = length vs /\
    Permutation (pairs ks vs n) (pairs ks' vs' n) /\
    nth 0 ks' 0 = int_min /\ (forall i, (i < n)%nat -> int_min <= nth i ks' 0) /\ ordered ks' n.
Proof.
  induction fuel as [|f IH]; intros ks vs cur n F F1 Hc Hn Hl Z0 Hmin Ho Hch; [lia|].
  cbn [sift_down].
  destruct (Nat.leb_spec n (cur * 2)) as [LE|GT].
  { exists ks, vs. split; [reflexivity|]. split; [auto|]. split; [auto|]. split; [auto|]. split; [auto|]. split; [auto|].
    intros i Hi. destruct (Nat.eq_dec (Nat.div2 i) cur) as [E|N]; auto. apply div2_child in E. lia. }
  assert (Ll : (cur * 2 < length ks)%nat) by lia.
  rewrite (proj2 (get_nth 0 ks (cur * 2)%nat _) (conj Ll eq_refl)). cbn [obind].
  match goal with |- context [obind (if Nat.ltb ?a ?b then ?x else ?y) ?k] =>
    assert (CH : exists ch, (if Nat.ltb a b then x else y) = Some ch /\ (ch < n)%nat /\ Nat.div2 ch = cur /\
      forall i, (2 <= i < n)%nat -> Nat.div2 i = cur -> nth ch ks 0 <= nth i ks 0) end.
  { assert (D1 : Nat.div2 (cur * 2) = cur) by (apply div2_child; lia).
    assert (D2 : Nat.div2 (cur * 2 + 1) = cur) by (apply div2_child; lia).
    destruct (Nat.ltb_spec (cur * 2 + 1) n) as [RT|NR].
    - assert (Lr : (cur * 2 + 1 < length ks)%nat) by lia.
      rewrite (proj2 (get_nth 0 ks (cur * 2 + 1)%nat _) (conj Lr eq_refl)). cbn [obind].
      destruct (Z.ltb_spec (nth (cur * 2 + 1) ks 0) (nth (cur * 2) ks 0)) as [LT|GE];
        (eexists; split; [reflexivity|]; split; [lia|]; split; [auto|]);
        intros i Hi Ei; apply div2_child in Ei; rewrite (Nat.mul_comm 2 cur) in Ei; destruct Ei; subst i; lia.
    - eexists. split; [reflexivity|]. split; [lia|]. split; [auto|].
      intros i Hi Ei. apply div2_child in Ei. rewrite (Nat.mul_comm 2 cur) in Ei. destruct Ei; subst i; lia. }
  destruct CH as (ch & -> & Hch1 & Hch2 & Hch3). cbn [obind].
  assert (Lch : (ch < length ks)%nat) by lia.
  assert (Gch : (cur < ch)%nat) by (apply div2_child in Hch2; lia).
  assert (Lc : (cur < length ks)%nat) by lia.
  rewrite (proj2 (get_nth 0 ks ch _) (conj Lch eq_refl)). cbn [obind].
  rewrite (proj2 (get_nth 0 ks cur _) (conj Lc eq_refl)). cbn [obind].
  destruct (Z.ltb_spec (nth ch ks 0) (nth cur ks 0)) as [LT|GE].
  - destruct (swap_cells_some ks cur ch Lc Lch) as (ks1 & E1 & L1 & G1).
    destruct (swap_cells_some vs cur ch) as (vs1 & E2 & L2 & G2); [lia|lia|].
    rewrite E1. cbn [obind]. rewrite E2. cbn [obind].
    destruct (IH ks1 vs1 ch n) as (ks' & vs' & R & K1 & K2 & PM & K3 & K4 & K5); try lia.
    + rewrite G1. destruct (Nat.eqb_spec 0 cur), (Nat.eqb_spec 0 ch); try lia.
    + intros i Hi. rewrite G1. destruct (Nat.eqb_spec i cur), (Nat.eqb_spec i ch); apply Hmin; lia.
    + intros i Hi Ne. rewrite !G1.
      destruct (Nat.eqb_spec (Nat.div2 i) ch) as [|_]; [lia|].
      destruct (Nat.eqb_spec i cur) as [->|N1].
      * destruct (Nat.eqb_spec (Nat.div2 cur) cur) as [Q|_]; [pose proof (div2_lt cur); lia|].
        apply Hch; [lia|auto|lia].
      * destruct (Nat.eqb_spec (Nat.div2 i) cur) as [Ec|Nc].
        -- destruct (Nat.eqb_spec i ch); [lia|]. apply Hch3; auto.
        -- destruct (Nat.eqb_spec i ch); [congruence|]. apply Ho; auto.
    + intros i Hi Ei P3.
      rewrite !G1, Hch2, Nat.eqb_refl.
      destruct (Nat.eqb_spec i cur) as [->|N1]; [pose proof (div2_lt cur); lia|].
      destruct (Nat.eqb_spec i ch) as [->|N2]; [lia|].
      rewrite <- Ei. apply Ho; auto. lia.
    + exists ks', vs'. split; [exact R|]. split; [lia|]. split; [lia|]. split; [|auto].
      etransitivity; [|exact PM]. apply (swap_pairs _ _ _ _ cur ch); auto; lia.
  - exists ks, vs. split; [reflexivity|]. split; [auto|]. split; [auto|]. split; [auto|]. split; [auto|]. split; [auto|].
    intros i Hi. destruct (Nat.eq_dec (Nat.div2 i) cur) as [E|N]; auto. rewrite E.
    specialize (Hch3 i Hi E). lia.
Qed.

Lemma ordered_top ks n : ordered ks n -> forall i, (1 <= i < n)%nat -> nth 1 ks 0 <= nth i ks 0.
Proof.
  intros O i. induction i as [i IH] using (well_founded_induction lt_wf). intros Hi.
  destruct (Nat.eq_dec i 1) as [->|N]; [lia|].
  pose proof (div2_lt i ltac:(lia)). pose proof (div2_pos i ltac:(lia)).
  specialize (IH (Nat.div2 i) ltac:(auto) ltac:(lia)). specialize (O i ltac:(lia)). lia.
Qed.

Lemma pairs_ext ks vs ks' vs' n :
  (forall i, (1 <= i < n)%nat -> nth i ks 0 = nth i ks' 0 /\ nth i vs 0 = nth i vs' 0) -> pairs ks vs n = pairs ks' vs' n.
Proof.
  intros H. unfold pairs. apply map_ext_in. intros i Hi. apply in_seq in Hi.
  unfold cell. destruct (H i) as [-> ->]; auto. lia.
Qed.

Lemma pairs_S ks vs n : (1 <= n)%nat -> pairs ks vs (S n) = pairs ks vs n ++ [cell ks vs n].
Proof.
  intros. unfold pairs. replace (S n - 1)%nat with (S (n - 1)) by lia.
  rewrite seq_S, map_app. simpl. do 3 f_equal. lia.
Qed.

Lemma pairs_head ks vs n : (2 <= n)%nat -> exists r, pairs ks vs n = cell ks vs 1 :: r.
Proof. intros. unfold pairs. destruct (n - 1)%nat eqn:E; [lia|]. simpl. eauto. Qed.

Lemma grow_nth al a i : length (al (length a * 2)%nat) = (length a * 2)%nat ->
  length (grow al a) = (length a * 2)%nat /\ ((i < length a)%nat -> nth i (grow al a) 0 = nth i a 0).
Proof.
  intros H. unfold grow. rewrite app_length, skipn_length, H. split; [lia|].
  intros. now rewrite app_nth1.
Qed.

Lemma heap_new_ok al size : (1 <= size)%nat -> length (al size) = size ->
  exists h, heap_new al size = Some h /\ HInv h /\ elems h = [].
Proof.
  intros S1 L. unfold heap_new.
  destruct (set_some (al size) 0 int_min) as (a & E); [lia|]. rewrite E. cbn [obind].
  eexists. split; [reflexivity|]. pose proof (set_length _ _ _ _ E) as L'.
  assert (Z0 : nth 0 a 0 = int_min) by now rewrite (nth_set 0 _ _ _ _ E).
  split; [|reflexivity]. constructor; cbn.
  - lia.
  - auto.
  - auto.
  - intros i Hi. replace i with 0%nat by lia. rewrite Z0. lia.
  - intros i Hi. lia.
Qed.

Lemma heap_clear_ok h : HInv h -> HInv (heap_clear h) /\ elems (heap_clear h) = [].
Proof.
  intros [A B C D E]. split; [|reflexivity]. constructor; cbn; auto; try lia.
  - intros i Hi. apply D. lia.
  - intros i Hi. lia.
Qed.

Lemma heap_add_ok al h k v : (forall n, length (al n) = n) -> HInv h -> int_min <= k ->
  exists h', heap_add al h k v = Some h' /\ HInv h' /\ Permutation (elems h') ((k, v) :: elems h).
Proof.
  intros AL [A B C D E] K. unfold heap_add.
  set (ks0 := if Nat.eqb (hnext h) (length (hk h)) then grow al (hk h) else hk h).
  set (vs0 := if Nat.eqb (hnext h) (length (hk h)) then grow al (hv h) else hv h).
  replace (if Nat.eqb (hnext h) (length (hk h)) then (grow al (hk h), grow al (hv h)) else (hk h, hv h)) with (ks0, vs0)
    by (unfold ks0, vs0; destruct (Nat.eqb (hnext h) (length (hk h))); auto).
  assert (P : (hnext h < length ks0)%nat /\ length vs0 = length ks0 /\
     forall i, (i < hnext h)%nat -> nth i ks0 0 = nth i (hk h) 0 /\ nth i vs0 0 = nth i (hv h) 0).
  { unfold ks0, vs0. destruct (Nat.eqb_spec (hnext h) (length (hk h))) as [Q|Q].
    - destruct (grow_nth al (hk h) 0 (AL _)) as [L1 _]. destruct (grow_nth al (hv h) 0 (AL _)) as [L2 _].
      split; [lia|]. split; [lia|]. intros i Hi. split; apply grow_nth; auto; lia.
    - split; [lia|]. split; [lia|]. auto. }
  destruct P as (P1 & P2 & P3). clearbody ks0 vs0.
  destruct (set_some ks0 (hnext h) k P1) as (ks1 & E1). rewrite E1. cbn [obind].
  destruct (set_some vs0 (hnext h) v) as (vs1 & E2); [lia|]. rewrite E2. cbn [obind].
  pose proof (set_length _ _ _ _ E1) as L1. pose proof (set_length _ _ _ _ E2) as L2.
  assert (G1 : forall i, nth i ks1 0 = if Nat.eqb i (hnext h) then k else nth i ks0 0) by (intros; apply (nth_set 0 _ _ _ _ E1)).
  assert (G2 : forall i, nth i vs1 0 = if Nat.eqb i (hnext h) then v else nth i vs0 0) by (intros; apply (nth_set 0 _ _ _ _ E2)).
  destruct (sift_up_ok (S (hnext h)) ks1 vs1 (hnext h) (S (hnext h))) as (ks2 & vs2 & R & K1 & K2 & PM & K3 & K4 & K5); try lia.
  - rewrite G1. destruct (Nat.eqb_spec 0 (hnext h)); [lia|]. rewrite (proj1 (P3 0%nat ltac:(lia))). auto.
  - intros i Hi. rewrite G1. destruct (Nat.eqb_spec i (hnext h)); [lia|]. rewrite (proj1 (P3 i ltac:(lia))). apply D. lia.
  - intros i Hi Ne. rewrite !G1. pose proof (div2_lt i ltac:(lia)).
    destruct (Nat.eqb_spec i (hnext h)); [lia|]. destruct (Nat.eqb_spec (Nat.div2 i) (hnext h)); [lia|].
    rewrite (proj1 (P3 i ltac:(lia))), (proj1 (P3 (Nat.div2 i) ltac:(lia))). apply E. lia.
  - intros i Hi Ei _. apply div2_child in Ei. lia.
  - rewrite R. cbn [obind]. eexists. split; [reflexivity|]. split.
    + constructor; cbn; auto; lia.
    + unfold elems. cbn [hk hv hnext]. rewrite <- PM, pairs_S by lia.
      rewrite <- Permutation_cons_append. unfold cell at 1. rewrite G1, G2, Nat.eqb_refl.
      apply perm_skip. erewrite pairs_ext; [reflexivity|].
      intros i Hi. rewrite G1, G2. destruct (Nat.eqb_spec i (hnext h)); [lia|]. apply P3. lia.
Qed.

Lemma heap_pop_ok h : HInv h -> elems h <> [] ->
  exists h' k v, heap_pop h = Some h' /\ HInv h' /\ heap_topKey h = Some k /\ heap_topVal h = Some v /\
    Permutation (elems h) ((k, v) :: elems h') /\ (forall x, In x (elems h) -> k <= fst x).
Proof.
  intros [A B C D E] NE. unfold heap_pop.
  assert (N2 : (2 <= hnext h)%nat).
  { destruct (hnext h) as [|[|n]] eqn:Q; try lia. unfold elems in NE. rewrite Q in NE. now elim NE. }
  destruct (hnext h) as [|m] eqn:Q; [lia|].
  assert (Lm : (m < length (hk h))%nat) by lia. assert (L1 : (1 < length (hk h))%nat) by lia.
  assert (Lm' : (m < length (hv h))%nat) by lia. assert (L1' : (1 < length (hv h))%nat) by lia.
  rewrite (proj2 (get_nth 0 (hk h) m _) (conj Lm eq_refl)). cbn [obind].
  destruct (set_some (hk h) 1 (nth m (hk h) 0) L1) as (ks1 & E1). rewrite E1. cbn [obind].
  rewrite (proj2 (get_nth 0 (hv h) m _) (conj Lm' eq_refl)). cbn [obind].
  destruct (set_some (hv h) 1 (nth m (hv h) 0) L1') as (vs1 & E2). rewrite E2. cbn [obind].
  assert (G1 : forall i, nth i ks1 0 = if Nat.eqb i 1 then nth m (hk h) 0 else nth i (hk h) 0) by (intros; apply (nth_set 0 _ _ _ _ E1)).
  assert (G2 : forall i, nth i vs1 0 = if Nat.eqb i 1 then nth m (hv h) 0 else nth i (hv h) 0) by (intros; apply (nth_set 0 _ _ _ _ E2)).
  pose proof (set_length _ _ _ _ E1) as LL1. pose proof (set_length _ _ _ _ E2) as LL2.
  destruct (sift_down_ok (S m) ks1 vs1 1 m) as (ks2 & vs2 & R & K1 & K2 & PM & K3 & K4 & K5); try lia.
  - rewrite G1. simpl. auto.
  - intros i Hi. rewrite G1. destruct (Nat.eqb i 1); apply D; lia.
  - intros i Hi Ne. rewrite !G1. destruct (Nat.eqb_spec i 1); [lia|].
    destruct (Nat.eqb_spec (Nat.div2 i) 1); [lia|]. apply E. lia.
  - rewrite R. cbn [obind].
    eexists. exists (nth 1 (hk h) 0), (nth 1 (hv h) 0). split; [reflexivity|]. split.
    + constructor; cbn; auto; lia.
    + split; [apply (get_nth 0); auto|]. split; [apply (get_nth 0); auto|]. split.
      * unfold elems. cbn [hk hv hnext]. rewrite <- PM, Q. clear - G1 G2 N2.
        destruct (Nat.eq_dec m 1) as [->|N].
        -- simpl. reflexivity.
        -- rewrite pairs_S by lia. rewrite <- Permutation_cons_append.
           unfold pairs at 1 2. replace (m - 1)%nat with (S (m - 2)) by lia. cbn [seq map].
           rewrite perm_swap. apply perm_skip.
           unfold cell at 3. rewrite G1, G2, Nat.eqb_refl. apply perm_skip.
           rewrite (map_ext_in (cell (hk h) (hv h)) (cell ks1 vs1)); auto.
           intros i Hi. apply in_seq in Hi. unfold cell. rewrite G1, G2.
           destruct (Nat.eqb_spec i 1); [lia|]. auto.
      * intros x Hx. unfold elems, pairs in Hx. rewrite Q in Hx. apply in_map_iff in Hx.
        destruct Hx as (i & <- & Hi). apply in_seq in Hi. unfold cell. cbn [fst].
        apply (ordered_top _ (S m)); auto. lia.
Qed.

Lemma elems_length h : length (elems h) = heap_size h.
Proof. unfold elems, pairs, heap_size. now rewrite map_length, seq_length. Qed.
