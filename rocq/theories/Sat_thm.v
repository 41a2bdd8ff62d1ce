(** Properties C41, C42 (the cardinality encodings are exact) and C67 (refuted: a negative bound). *)
From Coq Require Import ZArith.
From Verif Require Import Base Sat_model Sat_spec Sat_proof.

Local Open Scope Z_scope.

(** C41. The clauses for 'at most one of these literals' express exactly that: every model makes at most one of the literals true, and every
    assignment making at most one of them true becomes a model by choosing only the new variables nv + 1, ..., nv'. The same literal may occur twice
    and then counts twice. The number of bits computed with floating-point numbers has to suffice. *)
Theorem at_most_one_exact bits nv is F nv' :
  (forall n, (256 <= n)%nat -> (n <= 2 ^ bits n)%nat) ->
  0 <= nv -> (forall l, In l is -> 1 <= Z.abs l <= nv) ->
  atMostOne bits nv is = (F, nv') ->
  expresses nv nv' F (fun v => (count_true v is <= 1)%nat) /\ nv <= nv' /\ (forall c l, In c F -> In l c -> 1 <= Z.abs l <= nv').
Proof. intros BO NV OK E. destruct (amo_encodes bits nv is F nv' BO NV OK E) as [L V _ X]. split; auto. Qed.

(** Without the contract on the number of bits: models still satisfy the condition if the encoding is the pairwise one. *)
Theorem at_most_one_pairwise_exact is : (forall l, In l is -> l <> 0) ->
  forall v, satisfies v (atMostOneBinomial is) <-> (count_true v is <= 1)%nat.
Proof. intros H v. now apply binomial_sat. Qed.

(** C42. Likewise for 'at most K', K >= 0. *)
Theorem at_most_k_exact K nv is F nv' :
  0 <= K -> 0 <= nv -> (forall l, In l is -> 1 <= Z.abs l <= nv) ->
  atMostK K nv is = (F, nv') ->
  expresses nv nv' F (fun v => Z.of_nat (count_true v is) <= K) /\ nv <= nv' /\ (forall c l, In c F -> In l c -> 1 <= Z.abs l <= nv').
Proof.
  intros KP NV OK E. assert (Q := amk_encodes K nv NV KP is OK). rewrite E in Q. cbn [fst] in Q.
  assert (EN : nv' = amk_base K nv (S (length is)) - 1) by (unfold atMostK in E; congruence). rewrite <- EN in Q. destruct Q as [L V _ X]. split; auto.
Qed.

(** C67 (refuted): with the bound -1 (a cost bound below the cost unit, sat_planner.cpp 761 after a plan of cost 0, line 510) nothing may be true, nor may
    anything be false: no assignment has at most -1 true literals. The clauses can be satisfied nevertheless, whatever the literals' values are. *)
Theorem at_most_minus_one_refuted nv is : 0 <= nv -> (forall l, In l is -> 1 <= Z.abs l <= nv) ->
  forall v, ~ (Z.of_nat (count_true v is) <= -1) /\
  exists v', (forall x, x <= nv -> v' x = v x) /\ satisfies v' (fst (atMostK (-1) nv is)) /\ count_true v' is = count_true v is.
Proof.
  intros NV OK v. split; [lia|].
  set (w := fun x => if x <=? nv then v x else x =? nv + 1).
  assert (AG : forall x, x <= nv -> w x = v x). { intros x Hx. unfold w. destruct (Z.leb_spec x nv); auto. lia. }
  exists w. split; auto. split; [|apply (count_agree nv); auto; intros x Hx; apply AG; lia].
  unfold atMostK. cbn [fst]. apply sat_app. split.
  - apply sat_flat. intros [i x] Ix. cbn [fst snd]. unfold amk_step. change (Z.to_nat (-1 + 1)) with 0%nat. cbn [seq flat_map app]. apply sat_one.
    eexists. split; [left; reflexivity|]. unfold amk_base. change (1 + Z.max 0 (-1 + 1)) with 1. rewrite lit_npos by lia. unfold w.
    destruct (Z.leb_spec (nv + 1 + Z.of_nat (S i) * 1 + -1 + 1) nv); [lia|]. destruct (Z.eqb_spec (nv + 1 + Z.of_nat (S i) * 1 + -1 + 1) (nv + 1)); [lia|reflexivity].
  - apply sat_one. eexists. split; [left; reflexivity|]. unfold amk_base. rewrite lit_pos by lia. unfold w.
    destruct (Z.leb_spec (nv + 1 + Z.of_nat 0 * (1 + Z.max 0 (-1 + 1))) nv); [lia|]. apply Z.eqb_eq. lia.
Qed.

Module Ex.
  (** 300 variables: the logarithmic encoding with 9 bits. *)
  Definition bits (n : nat) : nat := Nat.log2_up n.
  Definition is300 : list Z := map Z.of_nat (seq 1 300).
  Example bits_suffice : forall n, (256 <= n)%nat -> (n <= 2 ^ bits n)%nat.
  Proof. intros n H. apply Nat.log2_log2_up_spec. lia. Qed.
  Example in_range : forall l, In l is300 -> 1 <= Z.abs l <= 300.
  Proof. intros l H. apply in_map_iff in H as (n & <- & Hn). apply in_seq in Hn. lia. Qed.
  Example new_vars : snd (atMostOne bits 300 is300) = 309 /\ length (fst (atMostOne bits 300 is300)) = 2700%nat.
  Proof. vm_compute. split; reflexivity. Qed.
  Example exact300 : expresses 300 309 (fst (atMostOne bits 300 is300)) (fun v => (count_true v is300 <= 1)%nat).
  Proof.
    refine (proj1 (at_most_one_exact bits 300 is300 _ 309 bits_suffice ltac:(lia) in_range _)).
    assert (S9 := proj1 new_vars). destruct (atMostOne bits 300 is300). cbn [fst snd] in *. congruence.
  Qed.
  Example exact2 : expresses 4 (snd (atMostK 2 4 [1; -2; 3; 4])) (fst (atMostK 2 4 [1; -2; 3; 4])) (fun v => Z.of_nat (count_true v [1; -2; 3; 4]) <= 2).
  Proof.
    refine (proj1 (at_most_k_exact 2 4 [1; -2; 3; 4] _ _ ltac:(lia) ltac:(lia) _ _)); [|reflexivity].
    intros l H. cbn [In] in H. repeat (destruct H as [<-|H]; [lia|]). destruct H.
  Qed.
  Example two_of_four : snd (atMostK 2 4 [1; -2; 3; 4]) = 24 /\ length (fst (atMostK 2 4 [1; -2; 3; 4])) = 29%nat.
  Proof. vm_compute. split; reflexivity. Qed.
End Ex.

Print Assumptions at_most_one_exact.
Print Assumptions at_most_one_pairwise_exact.
Print Assumptions at_most_k_exact.
Print Assumptions at_most_minus_one_refuted.
