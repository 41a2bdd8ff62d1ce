(** Proofs about the flag-and-list set shared by noDelIntSet and bIntSet. *)
From Verif Require Import Base Arr IntUtil_model IntUtil_proof IntSet_model.
Local Open Scope Z_scope.

Definition members (s : iset) : list Z := firstn (icur s) (ii s).

Record WF (s : iset) : Prop := {
  wf_len : length (ii s) = length (ib s);
  wf_cur : (icur s <= length (ib s))%nat;
  wf_mem : forall i, nth i (ib s) false = true <-> In (Z.of_nat i) (members s);
  wf_nd : NoDup (members s);
  wf_rng : forall x, In x (members s) -> 0 <= x < Z.of_nat (length (ib s)) }.

Lemma members_length s : WF s -> length (members s) = icur s.
Proof. intros W. unfold members. rewrite firstn_length. pose proof (wf_len s W). pose proof (wf_cur s W). lia. Qed.

Lemma zget_ok {A} (d : A) (l : list A) i : 0 <= i < Z.of_nat (length l) -> zget l i = Some (nth (Z.to_nat i) l d).
Proof.
  intros H. unfold zget. destruct (Z.ltb_spec i 0); [lia|]. apply (get_nth d). split; [lia|auto].
Qed.

Lemma zset_ok {A} (d : A) (l : list A) i v : 0 <= i < Z.of_nat (length l) ->
  exists l', zset l i v = Some l' /\ length l' = length l /\
    forall k, nth k l' d = if Nat.eqb k (Z.to_nat i) then v else nth k l d.
Proof.
  intros H. unfold zset. destruct (Z.ltb_spec i 0); [lia|].
  destruct (set_some l (Z.to_nat i) v) as (l' & E); [lia|]. exists l'. split; [auto|].
  split; [now apply set_length in E|]. intros. now apply nth_set.
Qed.

Lemma bool_list_in s x : WF s -> 0 <= x -> (nth (Z.to_nat x) (ib s) false = true <-> In x (members s)).
Proof. intros W H. rewrite (wf_mem s W), Z2Nat.id by auto. tauto. Qed.

Lemma get_ok s x : WF s -> 0 <= x < Z.of_nat (length (ib s)) ->
  exists b, is_get s x = Some b /\ (b = true <-> In x (members s)).
Proof.
  intros W H. unfold is_get. rewrite (zget_ok false) by auto. eexists. split; [reflexivity|]. apply bool_list_in; auto. lia.
Qed.

Lemma firstn_set {A} (l : list A) n x l' : set l n x = Some l' -> firstn (S n) l' = firstn n l ++ [x].
Proof.
  revert n l'; induction l as [|y l IH]; intros [|n] l' E; simpl in E; try discriminate.
  - injection E as <-. reflexivity.
  - apply obind_some in E as (t & E & H). injection H as <-.
    change (firstn (S (S n)) (y :: t)) with (y :: firstn (S n) t). rewrite (IH n t) by auto. reflexivity.
Qed.

Lemma init_ok al size : (forall n, length (al n) = n) -> WF (is_init al size) /\ members (is_init al size) = [].
Proof.
  intros AL. split; [|reflexivity]. constructor; cbn.
  - rewrite AL. now rewrite repeat_length.
  - lia.
  - intros i. assert (E : nth i (repeat false size) false = false) by apply nth_repeat. rewrite E.
    split; [discriminate|intros []].
  - constructor.
  - intros x [].
Qed.

Lemma insert_ok s i : WF s -> 0 <= i < Z.of_nat (length (ib s)) ->
  exists s', is_insert s i = Some s' /\ WF s' /\ length (ib s') = length (ib s) /\
    ((In i (members s) /\ s' = s) \/ (~ In i (members s) /\ members s' = members s ++ [i])).
Proof.
  intros W H. unfold is_insert. rewrite (zget_ok false) by auto. cbn [obind].
  pose proof (bool_list_in s i W ltac:(lia)) as BI.
  destruct (nth (Z.to_nat i) (ib s) false) eqn:B.
  - exists s. split; [auto|]. split; [auto|]. split; [auto|]. left. split; [now apply BI|auto].
  - assert (NI : ~ In i (members s)) by (intros I; apply BI in I; discriminate).
    destruct (zset_ok false (ib s) i true H) as (b' & E1 & L1 & G1). rewrite E1. cbn [obind].
    assert (CUR : (S (icur s) <= length (ib s))%nat).
    { rewrite <- (members_length s W).
      assert (Q : NoDup (i :: members s)) by (constructor; auto; apply wf_nd; auto).
      set (univ := map Z.of_nat (seq 0 (length (ib s)))).
      assert (LU : length univ = length (ib s)) by (unfold univ; now rewrite map_length, seq_length).
      rewrite <- LU. apply (NoDup_incl_length Q). intros x [<-|I]; unfold univ; apply in_map_iff.
      - exists (Z.to_nat i). split; [lia|]. apply in_seq. lia.
      - pose proof (wf_rng s W x I). exists (Z.to_nat x). split; [lia|]. apply in_seq. lia. }
    pose proof (wf_len s W) as LI.
    destruct (set_some (ii s) (icur s) i) as (a & E2); [lia|]. rewrite E2. cbn [obind].
    pose proof (firstn_set _ _ _ _ E2) as FN. pose proof (set_length _ _ _ _ E2) as L2.
    eexists. split; [reflexivity|].
    assert (MM : members {| ib := b'; ii := a; icur := S (icur s); iiter := iiter s |} = members s ++ [i]) by exact FN.
    split; [|split; [auto|right; auto]].
    constructor; rewrite ?MM; cbn [ib ii icur].
    + lia.
    + lia.
    + intros k. rewrite G1, in_app_iff. simpl. rewrite <- (wf_mem s W k).
      destruct (Nat.eqb_spec k (Z.to_nat i)) as [->|NE].
      * rewrite Z2Nat.id by lia. tauto.
      * split; [tauto|]. intros [|[E|[]]]; [auto|]. lia.
    + apply nodup_app_iff. split; [apply wf_nd; auto|]. split; [constructor; [intros []|constructor]|].
      intros x I [<-|[]]. auto.
    + intros x I. rewrite L1. apply in_app_iff in I as [I|[<-|[]]]; [now apply wf_rng|auto].
Qed.

(** Iteration. *)
Definition with_iter (s : iset) (k : nat) : iset := {| ib := ib s; ii := ii s; icur := icur s; iiter := k |}.

Lemma skipn_nth (l : list Z) k : (k < length l)%nat -> skipn k l = nth k l 0 :: skipn (S k) l.
Proof.
  revert k; induction l as [|x l IH]; intros [|k] H; simpl in *; try lia; auto. apply IH. lia.
Qed.

Lemma members_nth s k : WF s -> (k < icur s)%nat -> nth k (members s) 0 = nth k (ii s) 0.
Proof.
  intros W H. unfold members. rewrite <- (firstn_skipn (icur s) (ii s)) at 2.
  rewrite app_nth1; auto. pose proof (members_length s W) as L. unfold members in L. lia.
Qed.

Lemma loop_ok {A} (body : A -> Z -> option A) s : WF s -> forall fuel k acc, (k < icur s)%nat -> (icur s - k < fuel)%nat ->
  is_loop fuel body acc (with_iter s k) (nth k (members s) 0) =
  (a <- ofold body (skipn k (members s)) acc ;; Some (a, with_iter s (icur s))).
Proof.
  intros W. induction fuel as [|f IH]; intros k acc Hk Hf; [lia|].
  pose proof (members_length s W) as L.
  rewrite (skipn_nth (members s) k) by lia. cbn [is_loop ofold].
  assert (R : 0 <= nth k (members s) 0) by (apply (wf_rng s W); apply nth_In; lia).
  destruct (Z.ltb_spec (nth k (members s) 0) 0); [lia|].
  destruct (body acc (nth k (members s) 0)) as [acc'|]; cbn [obind]; [|reflexivity].
  unfold is_getNext. cbn [iiter with_iter icur ii ib].
  destruct (Nat.ltb_spec (S k) (icur s)) as [LT|GE].
  - assert (G : get (ii s) (S k) = Some (nth (S k) (members s) 0)).
    { rewrite members_nth by auto. apply (get_nth 0). split; [pose proof (wf_len s W); pose proof (wf_cur s W); lia|auto]. }
    rewrite G. cbn [obind]. apply IH; lia.
  - cbn [obind]. destruct f as [|f]; [lia|]. cbn [is_loop]. simpl Z.ltb. cbv iota.
    rewrite (skipn_all2 (members s)) by lia. cbn [ofold obind].
    replace (S k) with (icur s) by lia. reflexivity.
Qed.

Lemma foreach_ok {A} (body : A -> Z -> option A) acc s : WF s ->
  exists s', (s' = s \/ s' = with_iter s (icur s)) /\
    is_foreach body acc s = (a <- ofold body (members s) acc ;; Some (a, s')).
Proof.
  intros W. unfold is_foreach, is_getFirst. pose proof (members_length s W) as L.
  destruct (Nat.eqb_spec (icur s) 0) as [E|NE].
  - exists s. split; [auto|]. cbn [obind]. rewrite E in *. destruct (members s); [|discriminate]. reflexivity.
  - assert (G : get (ii s) 0 = Some (nth 0 (members s) 0)).
    { rewrite members_nth by (auto; lia). apply (get_nth 0). split; [pose proof (wf_len s W); pose proof (wf_cur s W); lia|auto]. }
    rewrite G. cbn [obind]. exists (with_iter s (icur s)). split; [auto|].
    change {| ib := ib s; ii := ii s; icur := icur s; iiter := 0 |} with (with_iter s 0).
    rewrite (loop_ok body s W); [|lia|lia]. reflexivity.
Qed.

Lemma clear_flags : forall l (fl : list bool), (forall x, In x l -> 0 <= x < Z.of_nat (length fl)) ->
  exists fl', ofold (fun f i => zset f i false) l fl = Some fl' /\ length fl' = length fl /\
    forall k, nth k fl' false = true <-> nth k fl false = true /\ ~ In (Z.of_nat k) l.
Proof.
  induction l as [|x l IH]; intros fl H; simpl.
  - exists fl. split; [auto|]. split; [auto|]. intuition.
  - destruct (zset_ok false fl x false (H x (or_introl eq_refl))) as (f1 & E & L & G). rewrite E. cbn [obind].
    destruct (IH f1) as (f2 & E2 & L2 & G2).
    { intros y Hy. rewrite L. apply H. now right. }
    exists f2. split; [auto|]. split; [lia|]. intros k. rewrite G2, G.
    pose proof (H x (or_introl eq_refl)).
    destruct (Nat.eqb_spec k (Z.to_nat x)) as [->|NE].
    + rewrite Z2Nat.id by lia. split; [intros [Q _]; discriminate|tauto].
    + assert (x <> Z.of_nat k) by lia. tauto.
Qed.

Lemma clear_ok s : WF s -> exists s', is_clear s = Some s' /\ WF s' /\ length (ib s') = length (ib s) /\ members s' = [].
Proof.
  intros W. unfold is_clear. destruct (foreach_ok (fun fl i => zset fl i false) (ib s) s W) as (s1 & Hs & ->).
  destruct (clear_flags (members s) (ib s) (wf_rng s W)) as (fl & -> & L & G). cbn [obind].
  assert (EQ : ii s1 = ii s) by (destruct Hs; subst; auto).
  eexists. split; [reflexivity|]. split; [|auto].
  constructor; unfold members; cbn [ib ii icur].
  - rewrite EQ, L. apply wf_len; auto.
  - lia.
  - intros k. rewrite G, (wf_mem s W). cbn [firstn]. simpl. tauto.
  - constructor.
  - intros x [].
Qed.

Lemma ofold_insert_ok l : forall s, WF s -> (forall x, In x l -> 0 <= x < Z.of_nat (length (ib s))) ->
  exists s', ofold is_insert l s = Some s' /\ WF s' /\ length (ib s') = length (ib s) /\
    forall x, In x (members s') <-> In x (members s) \/ In x l.
Proof.
  induction l as [|i l IH]; intros s W H; simpl.
  - exists s. split; [auto|]. split; [auto|]. split; [auto|]. intuition.
  - destruct (insert_ok s i W (H i (or_introl eq_refl))) as (s1 & E & W1 & L1 & D). rewrite E. cbn [obind].
    destruct (IH s1 W1) as (s2 & E2 & W2 & L2 & I2).
    { intros x Hx. rewrite L1. apply H. now right. }
    exists s2. split; [auto|]. split; [auto|]. split; [lia|]. intros x. rewrite I2.
    destruct D as [[I ->]|[NI ->]].
    + split; [tauto|]. intros [Q|[->|Q]]; auto.
    + rewrite in_app_iff. simpl. tauto.
Qed.

(** Inserting the members selected by a test. *)
Lemma ofold_select (body : iset -> Z -> option iset) (sel : Z -> bool) :
  (forall r i, body r i = if sel i then is_insert r i else Some r) ->
  forall l s, ofold body l s = ofold is_insert (filter sel l) s.
Proof.
  intros B. induction l as [|i l IH]; intros s; simpl; auto.
  rewrite B. destruct (sel i); simpl; [|apply IH].
  destruct (is_insert s i); simpl; auto.
Qed.

(** The same, the test being defined on the listed elements only. *)
Lemma ofold_select_in (body : iset -> Z -> option iset) (sel : Z -> bool) l :
  (forall r i, In i l -> body r i = if sel i then is_insert r i else Some r) ->
  forall s, ofold body l s = ofold is_insert (filter sel l) s.
Proof.
  induction l as [|i l IH]; intros B s; simpl; auto.
  rewrite B by now left. assert (B' : forall r j, In j l -> body r j = if sel j then is_insert r j else Some r) by (intros; apply B; now right).
  destruct (sel i); simpl; [|now apply IH].
  destruct (is_insert s i); simpl; auto.
Qed.

Lemma clone_ok al s : (forall n, length (al n) = n) -> WF s ->
  exists s', is_clone al s = Some s' /\ WF s' /\ length (ib s') = length (ib s) /\ forall x, In x (members s') <-> In x (members s).
Proof.
  intros AL W. unfold is_clone. destruct (init_ok al (length (ib s)) AL) as [W0 M0].
  destruct (foreach_ok is_insert (is_init al (length (ib s))) s W) as (s1 & _ & ->).
  assert (L0 : length (ib (is_init al (length (ib s)))) = length (ib s)) by (simpl; apply repeat_length).
  destruct (ofold_insert_ok (members s) _ W0) as (r & -> & Wr & Lr & Ir).
  { intros x Hx. rewrite L0. now apply wf_rng. }
  cbn [obind]. exists r. split; [auto|]. split; [auto|]. split; [lia|]. intros x. rewrite Ir, M0. simpl. tauto.
Qed.

Lemma union_ok al a b : (forall n, length (al n) = n) -> WF a -> WF b ->
  exists r, is_union al a b = Some r /\ WF r /\ length (ib r) = Nat.max (length (ib a)) (length (ib b)) /\
    forall x, In x (members r) <-> In x (members a) \/ In x (members b).
Proof.
  intros AL Wa Wb. unfold is_union.
  assert (G : forall less more, WF less -> WF more -> (length (ib less) <= length (ib more))%nat ->
    exists r, (that <- is_clone al more ;; '(r, _) <- is_foreach is_insert that less ;; Some r) = Some r /\ WF r /\
      length (ib r) = length (ib more) /\ forall x, In x (members r) <-> In x (members more) \/ In x (members less)).
  { intros less more Wl Wm LE. destruct (clone_ok al more AL Wm) as (c & -> & Wc & Lc & Ic). cbn [obind].
    destruct (foreach_ok is_insert c less Wl) as (s1 & _ & ->).
    destruct (ofold_insert_ok (members less) c Wc) as (r & -> & Wr & Lr & Ir).
    { intros x Hx. pose proof (wf_rng less Wl x Hx). lia. }
    cbn [obind]. exists r. split; [auto|]. split; [auto|]. split; [lia|]. intros x. rewrite Ir, Ic. tauto. }
  destruct (Nat.ltb_spec (length (ib b)) (length (ib a))).
  - destruct (G b a) as (r & E & W & L & I); auto; [lia|]. exists r. split; [auto|]. split; [auto|]. split; [lia|auto].
  - destruct (G a b) as (r & E & W & L & I); auto. exists r. split; [auto|]. split; [auto|]. split; [lia|].
    intros x. rewrite I. tauto.
Qed.

Lemma union_into_ok res a b : WF res -> WF a -> WF b ->
  (length (ib a) <= length (ib res))%nat -> (length (ib b) <= length (ib res))%nat ->
  exists r, is_union_into res a b = Some r /\ WF r /\ length (ib r) = length (ib res) /\
    forall x, In x (members r) <-> In x (members a) \/ In x (members b).
Proof.
  intros Wr Wa Wb La Lb. unfold is_union_into.
  destruct (clear_ok res Wr) as (r0 & -> & W0 & L0 & M0). cbn [obind].
  destruct (foreach_ok is_insert r0 a Wa) as (sa & _ & ->).
  destruct (ofold_insert_ok (members a) r0 W0) as (r1 & -> & W1 & L1 & I1).
  { intros x Hx. pose proof (wf_rng a Wa x Hx). lia. }
  cbn [obind]. destruct (foreach_ok is_insert r1 b Wb) as (sb & _ & ->).
  destruct (ofold_insert_ok (members b) r1 W1) as (r2 & -> & W2 & L2 & I2).
  { intros x Hx. pose proof (wf_rng b Wb x Hx). lia. }
  cbn [obind]. exists r2. split; [auto|]. split; [auto|]. split; [lia|].
  intros x. rewrite I2, I1, M0. simpl. tauto.
Qed.

Definition minus_sel (b : iset) (i : Z) : bool :=
  Z.leb (Z.of_nat (length (ib b))) i || negb (nth (Z.to_nat i) (ib b) false).

Lemma minus_body_sel b r i : 0 <= i -> minus_body b r i = if minus_sel b i then is_insert r i else Some r.
Proof.
  intros H. unfold minus_body, minus_sel. destruct (Z.leb_spec (Z.of_nat (length (ib b))) i); simpl; auto.
  unfold is_get. rewrite (zget_ok false) by lia. cbn [obind]. destruct (nth (Z.to_nat i) (ib b) false); auto.
Qed.

Lemma minus_core b a r0 : WF a -> WF b -> WF r0 -> members r0 = [] -> (length (ib a) <= length (ib r0))%nat ->
  exists r, ofold (minus_body b) (members a) r0 = Some r /\ WF r /\ length (ib r) = length (ib r0) /\
    forall x, In x (members r) <-> In x (members a) /\ ~ In x (members b).
Proof.
  intros Wa Wb W0 M0 L.
  rewrite (ofold_select_in _ (minus_sel b)) by (intros; apply minus_body_sel; now apply (wf_rng a Wa)).
  destruct (ofold_insert_ok (filter (minus_sel b) (members a)) r0 W0) as (r & E & W & Lr & I).
  { intros x Hx. apply filter_In in Hx as [Hx _]. pose proof (wf_rng a Wa x Hx). lia. }
  exists r. split; [auto|]. split; [auto|]. split; [auto|]. intros x. rewrite I, M0, filter_In. simpl.
  split.
  - intros [[]|[Ia S]]. split; auto. intros Ib. pose proof (wf_rng b Wb x Ib) as R. unfold minus_sel in S.
    destruct (Z.leb_spec (Z.of_nat (length (ib b))) x); [lia|]. simpl in S.
    rewrite (proj2 (bool_list_in b x Wb ltac:(lia)) Ib) in S. discriminate.
  - intros [Ia Nb]. right. split; auto. unfold minus_sel. pose proof (wf_rng a Wa x Ia).
    destruct (nth (Z.to_nat x) (ib b) false) eqn:B; [|now rewrite orb_true_r].
    elim Nb. apply (bool_list_in b x Wb); [lia|auto].
Qed.

Lemma minus_ok al a b : (forall n, length (al n) = n) -> WF a -> WF b ->
  exists r, is_minus al a b = Some r /\ WF r /\ length (ib r) = Nat.max (length (ib a)) (length (ib b)) /\
    forall x, In x (members r) <-> In x (members a) /\ ~ In x (members b).
Proof.
  intros AL Wa Wb. unfold is_minus.
  set (num := if Nat.ltb (length (ib b)) (length (ib a)) then length (ib a) else length (ib b)).
  assert (N : num = Nat.max (length (ib a)) (length (ib b))) by (unfold num; destruct (Nat.ltb_spec (length (ib b)) (length (ib a))); lia).
  destruct (init_ok al num AL) as [W0 M0]. destruct (foreach_ok (minus_body b) (is_init al num) a Wa) as (s1 & _ & ->).
  assert (L0 : length (ib (is_init al num)) = num) by (simpl; apply repeat_length).
  destruct (minus_core b a _ Wa Wb W0 M0) as (r & -> & W & L & I); [lia|].
  cbn [obind]. exists r. split; [auto|]. split; [auto|]. split; [lia|auto].
Qed.

Lemma minus_into_ok res a b : WF res -> WF a -> WF b -> (length (ib a) <= length (ib res))%nat ->
  exists r, is_minus_into res a b = Some r /\ WF r /\ length (ib r) = length (ib res) /\
    forall x, In x (members r) <-> In x (members a) /\ ~ In x (members b).
Proof.
  intros Wr Wa Wb La. unfold is_minus_into.
  destruct (clear_ok res Wr) as (r0 & -> & W0 & L0 & M0). cbn [obind].
  destruct (foreach_ok (minus_body b) r0 a Wa) as (sa & _ & ->).
  destruct (minus_core b a r0 Wa Wb W0 M0) as (r & -> & W & L & I); [lia|].
  cbn [obind]. exists r. split; [auto|]. split; [auto|]. split; [lia|auto].
Qed.

Lemma inter_core more less r0 : WF less -> (forall x, In x (members less) -> x < Z.of_nat (length (ib more))) ->
  ofold (inter_body more) (members less) r0 = Some r0.
Proof.
  intros W H.
  assert (G : forall l r, (forall x, In x l -> x < Z.of_nat (length (ib more))) -> ofold (inter_body more) l r = Some r).
  { induction l as [|x l IH]; intros r Hl; simpl; auto. unfold inter_body at 1.
    destruct (Z.leb_spec (Z.of_nat (length (ib more))) x) as [LE|]; [specialize (Hl x (or_introl eq_refl)); lia|].
    simpl. apply IH. intros; apply Hl; now right. }
  apply G. auto.
Qed.

(** Sorting the stored elements changes their order only. *)
Lemma is_sort_ok s : WF s -> exists s', is_sort s = Some s' /\ WF s' /\ length (ib s') = length (ib s) /\
  Permutation (members s) (members s') /\ sasc (members s') /\ icur s' = icur s.
Proof.
  intros W. unfold is_sort. pose proof (wf_len s W) as L. pose proof (wf_cur s W) as C.
  destruct (sort_ok (ii s) 0 (icur s)) as (a & E & La & P & _ & S); [lia|]. rewrite E. cbn [obind].
  set (s' := {| ib := ib s; ii := a; icur := icur s; iiter := iiter s |}).
  assert (PM : Permutation (members s) (members s')).
  { unfold members, s'. cbn [ii icur]. rewrite !(slice_firstn 0) in P by lia. exact P. }
  exists s'. split; [auto|].
  assert (W' : WF s').
  { constructor; unfold s'; cbn [ib ii icur].
    - lia.
    - lia.
    - intros i. rewrite (wf_mem s W i). split; intros I; [apply (Permutation_in _ PM)|apply (Permutation_in _ (Permutation_sym PM))]; auto.
    - apply (Permutation_NoDup PM). apply wf_nd; auto.
    - intros x I. apply (Permutation_in _ (Permutation_sym PM)) in I. now apply wf_rng. }
  split; [auto|]. split; [auto|]. split; [auto|]. split; [|auto].
  apply sasc_of_asc; [|apply wf_nd; auto].
  unfold members, s'. cbn [ii icur]. rewrite <- (slice_firstn 0) by lia. apply (asc_of_sorted a (icur s) 0). auto.
Qed.

(** What a client sees by iterating with getFirst/getNext. *)
Definition enumerate (s : iset) : option (list Z) :=
  '(r, _) <- is_foreach (fun acc x => Some (acc ++ [x])) [] s ;; Some r.

Lemma enumerate_ok s : WF s -> enumerate s = Some (members s).
Proof.
  intros W. unfold enumerate. destruct (foreach_ok (fun acc x => Some (acc ++ [x])) [] s W) as (s' & _ & ->).
  assert (G : forall l acc, ofold (fun (acc : list Z) x => Some (acc ++ [x])) l acc = Some (acc ++ l)).
  { induction l as [|x l IH]; intros acc; simpl; [now rewrite app_nil_r|]. rewrite IH, <- app_assoc. reflexivity. }
  rewrite G. reflexivity.
Qed.
