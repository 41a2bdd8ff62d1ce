(** Facts about arrays modelled as lists: slices and permutations by swaps. *)
From Verif Require Import Base.

Section Arr.
  Context {A : Type}.
  Variable d : A.

  (** The cells [lo .. hi-1]. *)
  Definition slice (l : list A) (lo hi : nat) : list A := map (fun i => nth i l d) (seq lo (hi - lo)).

  Lemma get_nth (l : list A) i x : get l i = Some x <-> i < length l /\ nth i l d = x.
  Proof.
    unfold get. split.
    - intros H. split; [apply nth_error_Some; congruence|now apply nth_error_nth].
    - intros [H <-]. now apply nth_error_nth'.
  Qed.

  Lemma nth_set (l : list A) i v l' : set l i v = Some l' -> forall k, nth k l' d = if Nat.eqb k i then v else nth k l d.
  Proof.
    revert i l'; induction l as [|a l IH]; intros [|i] l' H k; simpl in H; try discriminate.
    - injection H as <-. destruct k; reflexivity.
    - apply obind_some in H as (t & E & H). injection H as <-. destruct k; simpl; auto.
  Qed.

  Lemma slice_length l lo hi : length (slice l lo hi) = hi - lo.
  Proof. unfold slice. now rewrite map_length, seq_length. Qed.

  Lemma slice_in l lo hi x : In x (slice l lo hi) <-> exists i, lo <= i < hi /\ nth i l d = x.
  Proof.
    unfold slice. rewrite in_map_iff. split; intros (i & H1 & H2); exists i.
    - apply in_seq in H2. split; [lia|auto].
    - split; auto. apply in_seq. lia.
  Qed.

  Lemma slice_ext l l' lo hi : (forall i, lo <= i < hi -> nth i l d = nth i l' d) -> slice l lo hi = slice l' lo hi.
  Proof. intros H. apply map_ext_in. intros i Hi. apply in_seq in Hi. apply H. lia. Qed.

  Lemma slice_app l a b c : a <= b -> b <= c -> slice l a c = slice l a b ++ slice l b c.
  Proof.
    intros H1 H2. unfold slice. rewrite <- map_app. f_equal.
    replace (c - a) with ((b - a) + (c - b)) by lia. rewrite seq_app. do 2 f_equal. lia.
  Qed.

  Lemma slice_snoc l a b : a <= b -> slice l a (S b) = slice l a b ++ [nth b l d].
  Proof.
    intros H. rewrite (slice_app l a b (S b)) by lia. f_equal. unfold slice.
    replace (S b - b) with 1 by lia. reflexivity.
  Qed.

  Lemma slice_cons l a b : a < b -> slice l a b = nth a l d :: slice l (S a) b.
  Proof.
    intros H. unfold slice. replace (b - a) with (S (b - S a)) by lia. reflexivity.
  Qed.

  Lemma slice_full l : slice l 0 (length l) = l.
  Proof.
    unfold slice. rewrite Nat.sub_0_r. induction l as [|a l IH]; simpl; auto. f_equal.
    rewrite <- seq_shift, map_map. exact IH.
  Qed.

  Lemma slice_empty l a b : b <= a -> slice l a b = [].
  Proof. intros H. unfold slice. replace (b - a) with 0 by lia. reflexivity. Qed.

  Lemma slice_firstn l n : n <= length l -> slice l 0 n = firstn n l.
  Proof.
    intros H. rewrite <- (slice_full (firstn n l)). rewrite firstn_length_le by auto.
    apply slice_ext. intros i Hi.
    rewrite <- (firstn_skipn n l) at 1. rewrite app_nth1; auto. rewrite firstn_length_le; lia.
  Qed.

  (** Exchanging two cells permutes every window containing them. *)
  Lemma swap_perm (f g : nat -> A) i j lo n :
    lo <= i < lo + n -> lo <= j < lo + n ->
    (forall k, g k = if Nat.eqb k i then f j else if Nat.eqb k j then f i else f k) ->
    Permutation (map f (seq lo n)) (map g (seq lo n)).
  Proof.
    intros Hi Hj HG.
    set (sg := fun k => if Nat.eqb k i then j else if Nat.eqb k j then i else k).
    assert (E : map g (seq lo n) = map f (map sg (seq lo n))).
    { rewrite map_map. apply map_ext. intros k. rewrite HG. unfold sg.
      destruct (Nat.eqb k i); auto. destruct (Nat.eqb k j); auto. }
    rewrite E. apply Permutation_map. apply NoDup_Permutation.
    - apply seq_NoDup.
    - apply FinFun.Injective_map_NoDup; [|apply seq_NoDup].
      intros a b. unfold sg.
      destruct (Nat.eqb_spec a i), (Nat.eqb_spec b i), (Nat.eqb_spec a j), (Nat.eqb_spec b j); lia.
    - intros k. rewrite in_map_iff. split.
      + intros Hk. apply in_seq in Hk. exists (sg k). unfold sg. split.
        * destruct (Nat.eqb_spec k i), (Nat.eqb_spec k j); subst; try (rewrite Nat.eqb_refl);
          repeat match goal with |- context [Nat.eqb ?a ?b] => destruct (Nat.eqb_spec a b); subst end; try lia.
        * apply in_seq. destruct (Nat.eqb_spec k i), (Nat.eqb_spec k j); lia.
      + intros (q & <- & Hq). apply in_seq in Hq. apply in_seq. unfold sg.
        destruct (Nat.eqb_spec q i), (Nat.eqb_spec q j); lia.
  Qed.

  (** [l[i]] and [l[j]] exchanged by two writes. *)
  Lemma swap_slice (l l1 l2 : list A) i j lo hi :
    set l i (nth j l d) = Some l1 -> set l1 j (nth i l d) = Some l2 ->
    lo <= i < hi -> lo <= j < hi ->
    Permutation (slice l lo hi) (slice l2 lo hi) /\ length l2 = length l /\
    (forall k, nth k l2 d = if Nat.eqb k i then nth j l d else if Nat.eqb k j then nth i l d else nth k l d).
  Proof.
    intros H1 H2 Hi Hj.
    assert (G : forall k, nth k l2 d = if Nat.eqb k i then nth j l d else if Nat.eqb k j then nth i l d else nth k l d).
    { intros k. rewrite (nth_set _ _ _ _ H2), (nth_set _ _ _ _ H1).
      destruct (Nat.eqb_spec k i), (Nat.eqb_spec k j); subst; auto. }
    split; [|split; auto].
    - unfold slice. apply (swap_perm _ _ i j); [lia|lia|exact G].
    - now rewrite (set_length _ _ _ _ H2), (set_length _ _ _ _ H1).
  Qed.
End Arr.
