(** The combinations enumerated by [combination] are all increasing sequences; [binom] counts them. *)
From Coq Require Import Sorted.
From Verif Require Import Base Strips_model Strips_spec.

(** ** binom *)
Lemma choose_0 n : choose n 0 = 1. Proof. destruct n; reflexivity. Qed.
Lemma choose_gt n : forall k, n < k -> choose n k = 0.
Proof. induction n as [|n IH]; intros [|k] L; try lia; cbn; auto. rewrite !IH by lia. reflexivity. Qed.
Lemma choose_n n : choose n n = 1.
Proof. induction n as [|n IH]; auto. cbn [choose]. rewrite IH, choose_gt by lia. reflexivity. Qed.
Lemma choose_1 n : choose n 1 = n.
Proof. induction n as [|n IH]; auto. change (choose (S n) 1) with (choose n 0 + choose n 1). rewrite choose_0, IH. lia. Qed.
Lemma choose_mul n : forall k, k <= n -> S k * choose n (S k) = (n - k) * choose n k.
Proof.
  induction n as [|n IH]; intros [|k] L; try lia.
  - reflexivity.
  - rewrite choose_0, choose_1. lia.
  - change (choose (S n) (S (S k))) with (choose n (S k) + choose n (S (S k))). change (choose (S n) (S k)) with (choose n k + choose n (S k)). assert (A := IH k ltac:(lia)). destruct (Nat.eq_dec k n) as [->|N].
    + rewrite !choose_gt by lia. replace (S n - S n) with 0 by lia. lia.
    + assert (B := IH (S k) ltac:(lia)). replace (S n - S k) with (S (n - S k)) by lia. replace (n - k) with (S (n - S k)) in A by lia. nia.
Qed.
Lemma binom_fold n k : k <= n -> fold_left (fun b i => b * (n - i + 1) / i) (seq 1 k) 1 = choose n k.
Proof.
  induction k as [|k IH]; intros L; [now rewrite choose_0|]. rewrite seq_S, fold_left_app, IH by lia. cbn [fold_left]. replace (n - (1 + k) + 1) with (n - k) by lia.
  assert (X := choose_mul n k ltac:(lia)). rewrite (Nat.mul_comm (choose n k)), <- X. replace (1 + k) with (S k) by lia. rewrite Nat.mul_comm. now apply Nat.div_mul.
Qed.
(** The function bin computes the binomial coefficient. *)
Theorem binom_choose n k : binom n k = if n <? k then None else Some (choose n k).
Proof.
  unfold binom. destruct (Nat.ltb_spec n k); auto. destruct (Nat.eqb_spec k 0) as [->|]; [now rewrite choose_0|]. destruct (Nat.eqb_spec k n) as [->|]; [cbn; now rewrite choose_n|]. cbn [orb]. now rewrite binom_fold.
Qed.
Lemma choose_pos n : forall k, k <= n -> 1 <= choose n k.
Proof. induction n as [|n IH]; intros [|k] L; try lia; cbn; try lia. specialize (IH k ltac:(lia)). lia. Qed.

(** ** The enumeration *)
Definition lo (r : list nat) : nat := match r with [] => 0 | y :: _ => S y end.
(** Reversed: decreasing sequences with elements below [n], in the order of the rounds *)
Fixpoint decs (n k : nat) : list (list nat) :=
  match k with
  | 0 => [[]]
  | S k' => flat_map (fun r => map (fun x => x :: r) (seq (lo r) (n - lo r))) (decs (n - 1) k')
  end.

Fixpoint decr (n : nat) (r : list nat) : Prop := match r with [] => True | x :: r' => x < n /\ decr x r' end.
Lemma decr_mono r : forall n n', n <= n' -> decr n r -> decr n' r.
Proof. destruct r; cbn; auto. intros a b L [A B]; split; auto; lia. Qed.
Lemma decr_lo n r : decr n r -> lo r <= n. Proof. destruct r; cbn; lia. Qed.
Lemma decs_in k : forall n r, In r (decs n k) <-> length r = k /\ decr n r.
Proof.
  induction k as [|k IH]; intros n r; cbn [decs].
  - split; [intros [<-|[]]; cbn; auto|]. intros [L _]. destruct r; [now left|discriminate].
  - rewrite in_flat_map. split.
    + intros (r' & I & J). apply IH in I as [L D]. apply in_map_iff in J as (x & <- & J). apply in_seq in J. cbn. split; [lia|]. split; [lia|]. destruct r' as [|y r']; [cbn; auto|]. cbn in *. split; [lia|tauto].
    + intros [L D]. destruct r as [|x r]; [discriminate|]. cbn in L, D. exists r. split; [apply IH; split; [lia|]; eapply decr_mono; [|apply D]; lia|]. apply in_map_iff. exists x. split; auto. apply in_seq. apply proj2 in D as D2. assert (X := decr_lo _ _ D2). lia.
Qed.

Inductive chain (n : nat) : list (list nat) -> Prop :=
| ch_nil : chain n []
| ch_one r : chain n [r]
| ch_cons r r' l : bump n r = Some r' -> chain n (r' :: l) -> chain n (r :: r' :: l).

Lemma bump_cons n x r : bump n (x :: r) = if S x <? n then Some (S x :: r) else r' <- bump (n - 1) r ;; match r' with [] => None | y :: _ => Some (S y :: r') end.
Proof. reflexivity. Qed.
Lemma chain_app n l1 : forall x y l2, chain n (l1 ++ [x]) -> chain n (y :: l2) -> bump n x = Some y -> chain n ((l1 ++ [x]) ++ y :: l2).
Proof.
  induction l1 as [|z l1 IH]; intros x y l2 C1 C2 B; cbn; [constructor; auto|]. destruct l1 as [|z' l1]; cbn in *; inversion C1; subst; (constructor; [assumption|]); [constructor; auto|exact (IH x y l2 H3 C2 B)].
Qed.
Definition block (n : nat) (r : list nat) := map (fun x => x :: r) (seq (lo r) (n - lo r)).
Lemma block_chain n r : forall k a, a + k <= n -> chain n (map (fun x => x :: r) (seq a k)).
Proof.
  induction k as [|k IH]; intros a L; cbn [seq map]; [constructor|]. destruct k as [|k]; [constructor|]. specialize (IH (S a) ltac:(lia)). cbn [seq map] in *. constructor; auto. cbn [bump]. destruct (Nat.ltb_spec (S a) n); [auto|lia].
Qed.
Lemma blocks_chain n : forall l, chain (n - 1) l -> (forall r, In r l -> decr (n - 1) r) -> 1 <= n -> chain n (flat_map (block n) l).
Proof.
  induction l as [|r l IH]; intros C D N; [constructor|]. cbn [flat_map]. assert (Lr : lo r <= n - 1) by (apply decr_lo, D; now left). assert (E : block n r = map (fun x => x :: r) (seq (lo r) (n - 1 - lo r)) ++ [(n - 1) :: r]).
  { unfold block. replace (n - lo r) with (S (n - 1 - lo r)) by lia. rewrite seq_S, map_app. cbn [map]. do 3 f_equal. lia. }
  destruct l as [|r' l]; [rewrite app_nil_r; apply block_chain; lia|]. inversion C as [| |? ? ? B C']; subst. specialize (IH C' ltac:(intros; apply D; now right) N).
  assert (Lr' : lo r' <= n - 1) by (apply decr_lo, D; right; now left). cbn [flat_map] in IH |- *. unfold block at 1 in IH. unfold block at 2. replace (n - lo r') with (S (n - 1 - lo r')) in * by lia. cbn [seq map app] in *. rewrite E. apply chain_app; auto.
  - rewrite <- E. apply block_chain. lia.
  - rewrite bump_cons. destruct (Nat.ltb_spec (S (n - 1)) n); [lia|]. rewrite B. cbn [obind]. destruct r' as [|y r']; [|reflexivity]. exfalso. destruct r as [|x r]; [discriminate|]. rewrite bump_cons in B. destruct (S x <? n - 1); [discriminate|]. apply obind_some in B as (z & _ & B). destruct z; discriminate.
Qed.
Lemma decs_chain k : forall n, chain n (decs n k).
Proof.
  induction k as [|k IH]; intros n; cbn [decs]; [constructor|]. destruct (Nat.eq_dec n 0) as [->|N].
  - replace (flat_map _ _) with (@nil (list nat)); [constructor|]. cbn [Nat.sub]. induction (decs 0 k); auto.
  - apply (blocks_chain n); auto; [|lia]. intros r I. now apply decs_in in I.
Qed.
Lemma decs_first k : forall n, k <= n -> hd_error (decs n k) = Some (rev (seq 0 k)).
Proof.
  induction k as [|k IH]; intros n L; [reflexivity|]. cbn [decs]. specialize (IH (n - 1) ltac:(lia)). destruct (decs (n - 1) k) as [|r l]; [discriminate|]. injection IH as ->. cbn [flat_map]. rewrite seq_S, rev_app_distr. cbn [rev app].
  assert (E : lo (rev (seq 0 k)) = k). { destruct k as [|k]; [reflexivity|]. rewrite seq_S, rev_app_distr. cbn. lia. }
  rewrite E. replace (n - k) with (S (n - k - 1)) by lia. reflexivity.
Qed.

Lemma flat_filter {A B} (p : A -> bool) (f : A -> list B) l : (forall a, In a l -> p a = false -> f a = []) -> flat_map f l = flat_map f (filter p l).
Proof. induction l as [|a l IH]; intros H; auto. cbn. destruct (p a) eqn:E; cbn; [f_equal; apply IH; intros; apply H; auto; now right|]. rewrite (H a) by (auto; now left). apply IH. intros b I. apply H. now right. Qed.
Lemma flat_ext {A B} (f g : A -> list B) l : (forall a, In a l -> f a = g a) -> flat_map f l = flat_map g l.
Proof. induction l as [|a l IH]; intros H; auto. cbn. rewrite (H a) by now left. f_equal. apply IH. intros b I. apply H. now right. Qed.
Lemma filter_flat {A B} (p : B -> bool) (f : A -> list B) l : filter p (flat_map f l) = flat_map (fun a => filter p (f a)) l.
Proof. induction l as [|a l IH]; auto. cbn. now rewrite filter_app, IH. Qed.
Lemma filter_seq a k b : filter (fun x => S x <=? b) (seq a k) = seq a (min k (b - a)).
Proof.
  revert a. induction k as [|k IH]; intros a; auto. cbn [seq filter]. rewrite IH. destruct (Nat.leb_spec (S a) b).
  - replace (b - a) with (S (b - S a)) by lia. reflexivity.
  - replace (b - a) with 0 by lia. replace (b - S a) with 0 by lia. now rewrite Nat.min_0_r.
Qed.
Lemma decs_filter k : forall n, filter (fun r => lo r <=? n) (decs (S n) k) = decs n k.
Proof.
  induction k as [|k IH]; intros n; [reflexivity|]. cbn [decs]. rewrite filter_flat. replace (S n - 1) with n by lia.
  assert (F : forall r, filter (fun r => lo r <=? n) (map (fun x => x :: r) (seq (lo r) (S n - lo r))) = map (fun x => x :: r) (seq (lo r) (n - lo r))).
  { intros r. replace (filter _ _) with (map (fun x => x :: r) (filter (fun x => S x <=? n) (seq (lo r) (S n - lo r)))).
    - rewrite filter_seq. do 2 f_equal. lia.
    - generalize (seq (lo r) (S n - lo r)) as l. induction l as [|x l IHl]; auto. cbn [filter map]. change (lo (x :: r)) with (S x). destruct (S x <=? n); cbn [map]; now rewrite IHl. }
  rewrite (flat_ext _ _ _ (fun r _ => F r)). destruct n as [|n].
  - cbn [Nat.sub]. induction (decs 0 k) as [|r l IHl]; auto.
  - rewrite (flat_filter (fun r => lo r <=? n)). + rewrite IH. replace (S n - 1) with n by lia. reflexivity.
    + intros r I E. apply decs_in in I as [_ D]. apply decr_lo in D. apply Nat.leb_gt in E. replace (S n - lo r) with 0 by lia. reflexivity.
Qed.
Lemma len_flat {A B} (f : A -> list B) l : length (flat_map f l) = list_sum (map (fun a => length (f a)) l).
Proof. induction l as [|a l IH]; auto. cbn [flat_map map]. rewrite app_length, IH. reflexivity. Qed.
Lemma decs_length n : forall k, length (decs n k) = choose n k.
Proof.
  induction n as [|n IH]; intros [|k]; auto.
  - cbn [decs choose Nat.sub]. induction (decs 0 k); auto.
  - cbn [choose]. rewrite <- !IH. cbn [decs]. replace (S n - 1) with n by lia.
    assert (E : flat_map (fun r => map (fun x => x :: r) (seq (lo r) (n - lo r))) (decs (n - 1) k) = flat_map (fun r => map (fun x => x :: r) (seq (lo r) (n - lo r))) (decs n k)).
    { symmetry. destruct n as [|n]; [reflexivity|]. rewrite (flat_filter (fun r => lo r <=? n)); [rewrite decs_filter; now replace (S n - 1) with n by lia|].
      intros r I E. apply decs_in in I as [_ D]. apply decr_lo in D. apply Nat.leb_gt in E. replace (S n - lo r) with 0 by lia. reflexivity. }
    rewrite E, !len_flat. assert (D : forall r, In r (decs n k) -> lo r <= n) by (intros r I; apply decs_in in I as [_ D]; now apply decr_lo).
    clear E. induction (decs n k) as [|r l IHl]; auto. cbn [map length]. unfold list_sum in *. cbn [fold_right]. rewrite IHl by (intros; apply D; now right). rewrite !map_length, !seq_length. specialize (D r (or_introl eq_refl)). lia.
Qed.

Lemma chain_bumps n i : forall l x y, chain n (x :: l) -> nth_error (x :: l) i = Some y -> bumps n i x = Some y.
Proof.
  induction i as [|i IH]; intros l x y C E; [injection E as ->; reflexivity|]. cbn in E. destruct l as [|x' l]; [destruct i; discriminate|]. inversion C; subst. cbn [bumps]. rewrite H1. cbn [obind]. now apply (IH l).
Qed.
Lemma combination_decs n k i : k <= n -> i < choose n k -> exists r, nth_error (decs n k) i = Some r /\ combination n k i = Some (rev r).
Proof.
  intros L Li. rewrite <- decs_length in Li. destruct (nth_error (decs n k) i) as [r|] eqn:E; [|apply nth_error_None in E; lia]. exists r. split; auto. unfold combination. assert (F := decs_first k n L). assert (C := decs_chain k n). destruct (decs n k) as [|x l]; [discriminate|]. injection F as ->.
  now rewrite (chain_bumps n i l _ r C E).
Qed.

Lemma decr_inc r : forall n, decr n r <-> increasing (rev r) /\ forall x, In x r -> x < n.
Proof.
  assert (INC : forall l x, increasing (l ++ [x]) <-> increasing l /\ forall y, In y l -> y < x).
  { intros l x. split.
    - intros H. split.
      + intros i j a b L A B. apply (H i j a b L); rewrite nth_error_app1; auto; apply nth_error_Some; congruence.
      + intros y I. apply In_nth_error in I as (i & E). apply (H i (length l) y x); [apply nth_error_Some; congruence|rewrite nth_error_app1; auto; apply nth_error_Some; congruence|]. rewrite nth_error_app2, Nat.sub_diag by lia. reflexivity.
    - intros [H K] i j a b L A B. assert (Lj : j < length (l ++ [x])) by (apply nth_error_Some; congruence). rewrite app_length in Lj. cbn in Lj. rewrite nth_error_app1 in A by lia. destruct (Nat.eq_dec j (length l)) as [->|N].
      + rewrite nth_error_app2, Nat.sub_diag in B by lia. injection B as <-. apply K. eapply nth_error_In; eauto.
      + rewrite nth_error_app1 in B by lia. exact (H i j a b L A B). }
  induction r as [|x r IH]; intros n; cbn [decr rev].
  - split; [|auto]. intros _. split; [|intros x []]. intros i j a b _ A. destruct i; discriminate.
  - rewrite INC, IH. split.
    + intros (L & A & B). split; [split; auto; intros y I; apply B; now apply in_rev|]. intros y [<-|I]; auto. specialize (B y I). lia.
    + intros ((A & B) & D). split; [apply D; now left|]. split; auto. intros y I. apply B. now apply in_rev in I.
Qed.

(** The numbers below the binomial coefficient give all increasing sequences of length [k] of numbers below [n], each one once, and nothing else. *)
Theorem combination_sound n k i : k <= n -> i < choose n k -> exists l, combination n k i = Some l /\ length l = k /\ increasing l /\ forall x, In x l -> x < n.
Proof.
  intros L Li. destruct (combination_decs n k i L Li) as (r & E & C). exists (rev r). split; auto. apply nth_error_In, decs_in in E as [Lr D]. apply decr_inc in D as [A B]. split; [now rewrite rev_length|]. split; auto. intros x I. apply B. now apply in_rev.
Qed.
Theorem combination_complete n k l : length l = k -> increasing l -> (forall x, In x l -> x < n) -> exists i, i < choose n k /\ combination n k i = Some l.
Proof.
  intros Ll I B. assert (D : decr n (rev l)) by (apply decr_inc; rewrite rev_involutive; split; auto; intros x J; apply B; now apply in_rev). assert (J : In (rev l) (decs n k)) by (apply decs_in; rewrite rev_length; auto). destruct (In_nth_error _ _ J) as (i & E).
  assert (Li : i < choose n k) by (rewrite <- decs_length; apply nth_error_Some; congruence). exists i. split; auto. assert (Lk : k <= n). { destruct (Nat.le_gt_cases k n); auto. rewrite choose_gt in Li by auto. lia. }
  destruct (combination_decs n k i Lk Li) as (r & E' & C). rewrite E in E'. injection E' as <-. now rewrite rev_involutive in C.
Qed.
Lemma decs_nodup k : forall n, NoDup (decs n k).
Proof.
  induction k as [|k IH]; intros n; cbn [decs]; [constructor; [intros []|constructor]|]. generalize (IH (n - 1)). generalize (decs (n - 1) k) as l. induction l as [|r l IHl]; intros N; [constructor|]. inversion N as [|? ? NI N']; subst. cbn [flat_map].
  apply nodup_app_iff. split; [|split; auto].
  - apply FinFun.Injective_map_NoDup; [intros x y [=]; auto|apply seq_NoDup].
  - intros x I J. apply in_map_iff in I as (a & <- & _). apply in_flat_map in J as (r' & I' & J). apply in_map_iff in J as (b & [= _ ->] & _). contradiction.
Qed.
Theorem combination_once n k i j : k <= n -> i < choose n k -> j < choose n k -> combination n k i = combination n k j -> i = j.
Proof.
  intros L Li Lj E. destruct (combination_decs n k i L Li) as (r & E1 & C1). destruct (combination_decs n k j L Lj) as (r' & E2 & C2). rewrite C1, C2 in E. injection E as E. apply (f_equal (@rev nat)) in E. rewrite !rev_involutive in E. subst r'.
  assert (N := proj1 (NoDup_nth_error (decs n k)) (decs_nodup k n)). apply N; [rewrite decs_length; auto|congruence].
Qed.
