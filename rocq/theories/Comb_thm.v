(** Theorems about the combinatorial helper functions of the SAS translation (C51, C86). Proofs are in Comb_proof. *)
From Coq Require Import Sorted.
From Verif Require Import Base Comb_model Comb_spec Comb_proof.

(** C51: for i < C(n, k) the i-th combination is a combination, they are in lexicographic order (hence different), and each combination
    is among them. *)
Theorem combinations_enumerated : forall n k, k <= n ->
  (forall i, i < binom n k -> exists l, combination n k i = Some l /\ combination_of n k l) /\
  (forall i j l m, i < j < binom n k -> combination n k i = Some l -> combination n k j = Some m -> lex l m) /\
  (forall l, combination_of n k l -> exists i, i < binom n k /\ combination n k i = Some l).
Proof.
  intros n k L. split; [|split].
  - intros i Hi. rewrite combination_nth by auto. destruct (nth_error (combs n k 0) i) as [l|] eqn:E.
    + exists l. split; auto. apply nth_error_In, combs_in in E as (A & B & C). split; auto. split; auto. eapply Forall_impl; [|exact C]. cbn. lia.
    + apply nth_error_None in E. rewrite combs_length in E. lia.
  - intros i j l m H A B. rewrite combination_nth in A, B by lia. apply (chain_lex _ _ (combs_chain n k 0 n eq_refl) i j l m (proj1 H) A B).
  - intros l (A & B & C). assert (I : In l (combs n k 0)). { apply combs_in. split; auto. split; auto. eapply Forall_impl; [|exact C]. cbn. lia. }
    apply In_nth_error in I as (i & E). assert (X : i < binom n k) by (rewrite <- (combs_length n k 0); apply nth_error_Some; congruence).
    exists i. split; auto. now rewrite combination_nth.
Qed.

Corollary combination_unique : forall n k i j l, k <= n -> i < binom n k -> j < binom n k -> combination n k i = Some l -> combination n k j = Some l -> i = j.
Proof.
  intros n k i j l L Hi Hj A B. destruct (combinations_enumerated n k L) as (_ & O & _). destruct (lt_eq_lt_dec i j) as [[H|H]|H]; auto; exfalso; eapply (lex_irrefl l).
  - eapply (O i j); eauto.
  - eapply (O j i); eauto.
Qed.

(** The array is left ([array[-1]] is read) for i = C(n, k). *)
Theorem combination_past_end : forall n k, 0 < k -> k <= n -> combination n k (binom n k) = None.
Proof. exact combination_end. Qed.

Local Open Scope Z_scope.

(** C86: the value of [bin], if no product overflows. *)
Theorem bin_exact : forall n k v, (k <= n)%nat -> bin (Z.of_nat n) (Z.of_nat k) = Some v -> v = Z.min (Z.of_nat (binom n k)) int_max.
Proof.
  intros n k v L. unfold bin. destruct (Z.ltb_spec (Z.of_nat n) 0); [lia|]. destruct (Z.ltb_spec (Z.of_nat k) 0); [lia|]. destruct (Z.ltb_spec (Z.of_nat n) (Z.of_nat k)); [lia|]. cbn [orb].
  destruct (Z.eqb_spec (Z.of_nat k) 0) as [E|E].
  - replace k with 0%nat by lia. rewrite binom_0. cbn. intros X. injection X as <-. reflexivity.
  - destruct (Z.eqb_spec (Z.of_nat k) (Z.of_nat n)) as [E2|E2]; cbn [orb].
    + replace k with n by lia. rewrite binom_diag. intros X. injection X as <-. reflexivity.
    + rewrite Nat2Z.id. destruct (bin_loop (Z.of_nat n) k) as [b|] eqn:B; [|discriminate]. cbn [obind]. apply bin_loop_some in B as ->; auto.
      destruct (Z.ltb_spec int_max (Z.of_nat (binom n k))); intros X; match type of X with Some ?a = Some v => assert (v = a) by congruence; subst v end; lia.
Qed.

Theorem bin_invalid : forall n k, n < 0 \/ k < 0 \/ n < k -> bin n k = Some (-1).
Proof. intros n k H. unfold bin. destruct (Z.ltb_spec n 0), (Z.ltb_spec k 0), (Z.ltb_spec n k); cbn; auto; lia. Qed.

Theorem bin_defined : forall n k, (k <= n)%nat -> (forall i, (i < k)%nat -> Z.of_nat (S i * binom n (S i)) <= long_max) -> exists v, bin (Z.of_nat n) (Z.of_nat k) = Some v.
Proof.
  intros n k L B. unfold bin. destruct (_ || _); [eauto|]. destruct (_ || _); [eauto|]. rewrite Nat2Z.id. destruct (bin_loop_ok n k L B) as (b & ->). cbn [obind]. eauto.
Qed.

(** Without the assumption on the products it is refuted: the check against INT_MAX comes after the loop. *)
Theorem bin_overflow_refuted : exists n k, (0 <= k <= n) /\ n <= 100 /\ bin n k = None.
Proof. exists 100, 50. split; [lia|]. split; [lia|]. vm_compute. reflexivity. Qed.

Lemma power_loop n p : forall r a, ofold (fun i (_ : nat) => let q := i * n in if (- int_max - 1 <=? q) && (q <=? int_max) then Some q else None) (seq a p) 1 = Some r -> r = n ^ Z.of_nat p.
Proof.
  induction p as [|p IH]; intros r a H; [cbn in H; now injection H as <-|]. rewrite seq_S, ofold_app in H. destruct (ofold _ (seq a p) 1) as [c|] eqn:E; [|discriminate]. cbn [obind ofold] in H.
  destruct (_ && _); [|discriminate]. cbn [obind] in H. assert (r = c * n) by congruence. subst r. rewrite (IH c a E). rewrite Nat2Z.inj_succ, Z.pow_succ_r by lia. lia.
Qed.
Theorem power_exact : forall n p v, 0 <= p -> 0 < n \/ 0 < p -> power n p = Some v -> v = n ^ p.
Proof.
  intros n p v Hp H. unfold power. destruct (Z.eqb_spec n 0) as [->|N].
  - intros X. injection X as <-. rewrite Z.pow_0_l; lia.
  - destruct (Z.eqb_spec p 0) as [->|M]; [intros X; now injection X as <-|]. intros X. apply power_loop in X as ->. now rewrite Z2Nat.id.
Qed.

Module Ex.
Example combs_4_2 : map (combination 4 2) (seq 0 (binom 4 2)) = [Some [0; 1]; Some [0; 2]; Some [0; 3]; Some [1; 2]; Some [1; 3]; Some [2; 3]]%nat.
Proof. reflexivity. Qed.
Example bin_30 : bin 30 15 = Some 155117520 /\ bin 60 28 = Some int_max /\ bin 5 2 = Some 10 /\ power 3 4 = Some 81.
Proof. repeat split; vm_compute; reflexivity. Qed.
Example products i : (i < 3)%nat -> Z.of_nat (S i * binom 10 (S i)) <= long_max.
Proof. intros H. destruct i as [|[|[|i]]]; [vm_compute; congruence..|lia]. Qed.
End Ex.

Print Assumptions combinations_enumerated.
Print Assumptions combination_unique.
Print Assumptions combination_past_end.
Print Assumptions bin_exact.
Print Assumptions bin_invalid.
Print Assumptions bin_defined.
Print Assumptions bin_overflow_refuted.
Print Assumptions power_exact.
