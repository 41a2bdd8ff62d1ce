(** Theorems about the minimal implied costs and distances (C17, C84, C85). Proofs are in Mix_proof. *)
From Coq Require Import Sorted.
From Verif Require Import Base Htn_problem Htn_model Htn_spec Htn_sem Tab_model Tab_thm Mix_model Mix_spec Mix_proof Htn_check.
Local Open Scope Z_scope.

Lemma st_rows P : wf_problem P -> exists rows num, st_table P = Some (rows, num) /\
  forall t, (t < length (p_prim P))%nat -> exists row, get rows t = Some row /\ (length row <= length (p_methods P))%nat /\
    forall z, In z row <-> exists m md, z = Z.of_nat m /\ nth_error (p_methods P) m = Some md /\ In t (m_subs md).
Proof.
  intros WP. destruct (st_to_method_exact P WP) as (rows & num & E & H). exists rows, num. split; auto. intros t Ht.
  destruct (H t Ht) as (row & G & _ & S1 & I). exists row. split; auto. split; auto.
  assert (ND : NoDup row). { clear -S1. induction S1 as [|z l S1 IH F]; constructor; auto. intros Hz. rewrite Forall_forall in F. specialize (F z Hz). lia. }
  rewrite <- (seq_length (length (p_methods P)) 0), <- (map_length Z.of_nat). apply NoDup_incl_length; auto. intros z Hz. apply I in Hz as (m & md & -> & E' & _).
  apply in_map, in_seq. split; [lia|]. cbn. apply nth_error_Some. congruence.
Qed.

Lemma result_inv P fuel x : wf_problem P -> actions_first P -> (minimal_implied P fuel = MDone x \/ exists q, minimal_implied P fuel = MMore x q) ->
  exists st, (forall t, (t < length (p_prim P))%nat -> exists row, get st t = Some row /\ (length row <= length (p_methods P))%nat /\
    forall z, In z row <-> exists m md, z = Z.of_nat m /\ nth_error (p_methods P) m = Some md /\ In t (m_subs md)) /\
  exists q, inv P x q /\ (minimal_implied P fuel = MDone x -> q = []).
Proof.
  intros WP AF H. destruct (st_rows P WP) as (rows & num & E & R). exists rows. split; auto. unfold minimal_implied in *. rewrite E in *.
  destruct (mix_queue_ok P AF rows R) as (q0 & Eq & _). rewrite Eq in *. assert (I := loop_inv P WP AF rows R fuel _ _ (inv_init P WP AF rows R q0 Eq)).
  destruct H as [H|(q & H)]; rewrite H in *; [exists []; auto|exists q; split; auto; discriminate].
Qed.

(** C17: the values of a task are at most the cost and the size of each of its refinements, when the computation ends and at any
    time before. *)
Theorem minimal_implied_lower : forall P fuel x t c d,
  wf_problem P -> actions_first P -> (minimal_implied P fuel = MDone x \/ exists q, minimal_implied P fuel = MMore x q) ->
  refinement P t c d -> nth t (x_cT x) 0 <= Z.of_nat c /\ nth t (x_dT x) 0 <= Z.of_nat d.
Proof.
  intros P fuel x t c d WP AF H R. destruct (result_inv P fuel x WP AF H) as (st & _ & q & I & _). exact (proj1 (lower P WP x q I) t c d R).
Qed.

(** C17 for task networks: the sums over the tasks of a network are at most the cost of every primitive network it is refined to, and
    the number of its actions and of the decompositions. *)
Theorem minimal_implied_network : forall P fuel x tn n tn' L L',
  wf_problem P -> actions_first P -> minimal_implied P fuel = MDone x -> wf_tn tn -> refines_in P tn n tn' -> lists tn L -> lists tn' L' ->
  (forall y, t_in tn' y -> primitive P (t_lab tn' y)) ->
  fold_right Z.add 0 (map (fun y => nth (t_lab tn y) (x_cT x) 0) L) <= Z.of_nat (plan_cost P (map (t_lab tn') L')) /\
  fold_right Z.add 0 (map (fun y => nth (t_lab tn y) (x_dT x) 0) L) <= Z.of_nat (length L' + n).
Proof.
  intros P fuel x tn n tn' L L' WP AF H W R HL HL' PR. destruct (result_inv P fuel x WP AF (or_introl H)) as (st & _ & q & I & _).
  assert (X := network_lower P WP x q tn n tn' I W R L L' HL HL' PR). unfold net_sum, sumv in X.
  assert (FR : forall v l, fold_right (fun t s => at0 v t + s) 0 (map (t_lab tn) l) = fold_right Z.add 0 (map (fun y => nth (t_lab tn y) v 0) l)).
  { intros v l. induction l as [|y l IH]; cbn; auto. now rewrite IH. }
  rewrite !FR in X. exact X.
Qed.

Lemma refines_counted P tn tn' : refines P tn tn' -> exists n, refines_in P tn n tn'.
Proof. induction 1 as [|tn x m tn' tn'' D _ (n & IH)]; [exists 0%nat; constructor|exists (S n); econstructor; eauto]. Qed.

(** The value of the initial task is a lower bound of the cost of all plans. *)
Theorem minimal_implied_plans : forall P fuel x plan,
  wf_problem P -> actions_first P -> minimal_implied P fuel = MDone x -> solution P plan ->
  nth (p_init P) (x_cT x) 0 <= Z.of_nat (plan_cost P plan).
Proof.
  intros P fuel x plan WP AF H (tn' & L & R & PR & (ND & IL & _) & -> & _ & _). apply refines_counted in R as (n & R).
  assert (W : wf_tn (initial_network P)).
  { split; cbn; intros; try tauto. congruence. }
  assert (HL : lists (initial_network P) [[]]). { split; [constructor; [intros []|constructor]|]. intros y. cbn. intuition congruence. }
  destruct (minimal_implied_network P fuel x _ n tn' [[]] L WP AF H W R HL (conj ND IL) PR) as [A _]. cbn in A. unfold plan_cost in *. lia.
Qed.

(** C84: the computation ends on every input: regularly or by an overflow of an int. *)
Theorem minimal_implied_ends : forall P, wf_problem P -> actions_first P ->
  exists fuel, minimal_implied P fuel = MUndef \/ exists x, minimal_implied P fuel = MDone x.
Proof.
  intros P WP AF. destruct (st_rows P WP) as (rows & num & E & R). unfold minimal_implied. rewrite E.
  destruct (mix_queue_ok P AF rows R) as (q0 & Eq & _). rewrite Eq. assert (I := inv_init P WP AF rows R q0 Eq).
  set (k := Z.to_nat (2 * (Z.of_nat (length (p_prim P)) + Z.of_nat (length (p_methods P))) * cap P - weight P (mix_init P))).
  exists (length q0 + k * S (length (p_methods P)))%nat.
  destruct (mix_loop P rows _ _ _) as [x| |x' q'] eqn:EL; eauto. exfalso.
  refine (loop_ends P WP AF rows R k _ _ I _ _ (Nat.le_refl _) x' q' EL). unfold k. lia.
Qed.

(** It ends regularly if the tasks have refinements that are not too long. *)
Theorem minimal_implied_defined : forall P c d, wf_problem P -> actions_first P -> short_refinements P int_max c d ->
  exists fuel x, minimal_implied P fuel = MDone x.
Proof.
  intros P c d WP AF B. destruct (minimal_implied_ends P WP AF) as (fuel & [H|H]); [|eauto]. exfalso.
  destruct (st_rows P WP) as (rows & num & E & R). unfold minimal_implied in H. rewrite E in H.
  destruct (mix_queue_ok P AF rows R) as (q0 & Eq & _). rewrite Eq in H.
  exact (loop_defined P WP AF rows R c d B fuel _ _ (inv_init P WP AF rows R q0 Eq) H).
Qed.

(** C85: for hierarchies without recursion the values are the least cost and the least size of a refinement. *)
Theorem minimal_implied_exact : forall P fuel x t,
  wf_problem P -> actions_first P -> acyclic_hierarchy P -> (forall t, (t < length (p_prim P))%nat -> primitive P t \/ has_method P t) ->
  minimal_implied P fuel = MDone x -> (t < length (p_prim P))%nat ->
  (exists c d, nth t (x_cT x) 0 = Z.of_nat c /\ refinement P t c d /\ forall c' d', refinement P t c' d' -> (c <= c')%nat) /\
  (exists c d, nth t (x_dT x) 0 = Z.of_nat d /\ refinement P t c d /\ forall c' d', refinement P t c' d' -> (d <= d')%nat).
Proof.
  intros P fuel x t WP AF AC ALL H Ht. destruct (result_inv P fuel x WP AF (or_introl H)) as (st & R & q & I & Q). specialize (Q H). subst q.
  assert (ALL' : forall t, (t < length (p_prim P))%nat -> (t < length (p_cost P))%nat \/ has_method P t). { intros u Hu. destruct (ALL u Hu) as [A|A]; auto. left. now apply (wf_prim _ WP). }
  destruct (inv_exact P WP AF x I AC ALL' t Ht) as (_ & (d & R1) & (c & R2)).
  assert (LW := proj1 (lower P WP x [] I)). assert (N1 := c_nT _ _ _ _ _ (i_c _ _ _ I) t). assert (N2 := c_nT _ _ _ _ _ (i_d _ _ _ I) t). unfold at0 in *.
  split; do 2 eexists; (split; [symmetry; apply Z2Nat.id; eassumption|]); (split; [eassumption|]); intros c' d' R'; destruct (LW _ _ _ R'); lia.
Qed.

Module Ex.
(* tasks: 0, 1 actions of cost 3 and 1; 2 -> [0; 1] | [1; 1; 1; 1; 1]; 3 -> [2; 3] | [1] *)
Definition P : problem :=
  {| p_nfacts := 0; p_prim := [true; true; false; false]; p_prec := [[]; []]; p_add := [[]; []]; p_del := [[]; []]; p_cost := [3; 1]%nat;
     p_methods := [ {| m_task := 2; m_subs := [0; 1]; m_ord := [] |}; {| m_task := 2; m_subs := [1; 1; 1; 1; 1]; m_ord := [] |};
                    {| m_task := 3; m_subs := [2; 2]; m_ord := [(0, 1)] |} ]%nat;
     p_init := 3; p_s0 := []; p_goal := [] |}.

Example P_wf : wf_problem P.
Proof. apply problem_check_ok. reflexivity. Qed.
Example P_first : actions_first P.
Proof. intros t Ht. cbn in Ht. destruct t as [|[|t]]; [reflexivity|reflexivity|lia]. Qed.
(** Task 2 has cost 4 (the first method) and size 3, task 3 twice that and one decomposition more. *)
Example P_done : exists x, minimal_implied P 100 = MDone x /\ x_cT x = [3; 1; 4; 8] /\ x_dT x = [1; 1; 3; 7].
Proof. eexists. split; [vm_compute; reflexivity|split; reflexivity]. Qed.
Example P_acyclic : acyclic_hierarchy P.
Proof. exists (fun t => t). intros m t Hm Ht. repeat (destruct Hm as [<-|Hm]; [repeat (destruct Ht as [<-|Ht]; [cbn; lia|]); destruct Ht|]). destruct Hm. Qed.
Example P_methods t : (t < length (p_prim P))%nat -> primitive P t \/ has_method P t.
Proof.
  intros Ht. cbn in Ht. destruct t as [|[|[|[|t]]]]; [left; reflexivity|left; reflexivity|right|right|lia].
  - exists {| m_task := 2; m_subs := [0; 1]; m_ord := [] |}%nat. cbn. auto.
  - exists {| m_task := 3; m_subs := [2; 2]; m_ord := [(0, 1)] |}%nat. cbn. auto.
Qed.
Example P_refinement : refinement P 2 5 6.
Proof.
  apply (rf_abs P {| m_task := 2; m_subs := [1; 1; 1; 1; 1]; m_ord := [] |}%nat); [cbn; auto|].
  assert (R : refinement P 1 1 1) by (apply (rf_prim P 1); reflexivity).
  repeat apply (rfs_cons P 1 _ 1 1 _ _ R). apply rfs_nil.
Qed.
Example P_short : short_refinements P int_max (fun t => nth t [3; 1; 5; 10] 0)%nat (fun t => nth t [1; 1; 6; 13] 0)%nat.
Proof.
  assert (R0 : refinement P 0 3 1) by (apply (rf_prim P 0); reflexivity). assert (R1 : refinement P 1 1 1) by (apply (rf_prim P 1); reflexivity).
  assert (R3 : refinement P 3 10 13).
  { apply (rf_abs P {| m_task := 3; m_subs := [2; 2]; m_ord := [(0, 1)] |}%nat); [cbn; auto|]. repeat apply (rfs_cons P 2 _ 5 6 _ _ P_refinement). apply rfs_nil. }
  split.
  - intros t [Ht|(m & Hm & <-)].
    + cbn in Ht. destruct t as [|[|t]]; [|idtac|lia]; split; eexists; eassumption.
    + repeat (destruct Hm as [<-|Hm]; [split; eexists; first [exact P_refinement|exact R3]|]). destruct Hm.
  - intros m Hm. unfold int_max. repeat (destruct Hm as [<-|Hm]; [cbn; lia|]). destruct Hm.
Qed.

(** A task that only recurs: 1 -> [1; 0] *)
Definition D : problem :=
  {| p_nfacts := 0; p_prim := [true; false]; p_prec := [[]]; p_add := [[]]; p_del := [[]]; p_cost := [1]%nat;
     p_methods := [ {| m_task := 1; m_subs := [1; 0]; m_ord := [] |} ]%nat; p_init := 1; p_s0 := []; p_goal := [] |}.
Example D_wf : wf_problem D.
Proof. apply problem_check_ok. reflexivity. Qed.
Example D_first : actions_first D.
Proof. intros t Ht. cbn in Ht. destruct t as [|t]; [reflexivity|lia]. Qed.

(** A task that may recur without any other subtask: 1 -> [1] | [0] *)
Definition R : problem :=
  {| p_nfacts := 0; p_prim := [true; false]; p_prec := [[]]; p_add := [[]]; p_del := [[]]; p_cost := [1]%nat;
     p_methods := [ {| m_task := 1; m_subs := [1]; m_ord := [] |}; {| m_task := 1; m_subs := [0]; m_ord := [] |} ]%nat; p_init := 1; p_s0 := []; p_goal := [] |}.
Example R_wf : wf_problem R.
Proof. apply problem_check_ok. reflexivity. Qed.
Example R_first : actions_first R.
Proof. intros t Ht. cbn in Ht. destruct t as [|t]; [reflexivity|lia]. Qed.
End Ex.

(** C84 without the assumption on the refinements is refuted: with a task that cannot be refined to actions the values grow until an
    int overflows. *)
Theorem minimal_implied_overflow_refuted : exists P, wf_problem P /\ actions_first P /\ exists fuel, minimal_implied P fuel = MUndef.
Proof.
  exists Ex.D. split; [apply Ex.D_wf|]. split; [apply Ex.D_first|]. destruct (minimal_implied_ends _ Ex.D_wf Ex.D_first) as (fuel & [H|(x & H)]); [eauto|]. exfalso.
  destruct (result_inv _ fuel x Ex.D_wf Ex.D_first (or_introl H)) as (st & _ & q & I & Q). specialize (Q H). subst q.
  assert (Em : nth_error (p_methods Ex.D) 0 = Some {| m_task := 1; m_subs := [1; 0]; m_ord := [] |}%nat) by reflexivity.
  assert (A0 := c_act _ _ _ _ _ (i_d _ _ _ I) 0%nat ltac:(cbn; lia)). unfold dv in A0.
  destruct (i_m _ _ _ I _ _ Em) as [[]|[[_ SM]|(_ & _ & Z0)]].
  - destruct (i_t _ _ _ I 1%nat) as [[]|[_ ST]]; [eexists; split; [left; reflexivity|reflexivity]|].
    change (minv (x_dM x) (task_to_methods Ex.D 1) int_max) with (Z.min (at0 (x_dM x) 0) int_max) in ST.
    change (sumv (x_dT x) (m_subs {| m_task := 1; m_subs := [1; 0]; m_ord := [] |}%nat)) with (at0 (x_dT x) 1 + (at0 (x_dT x) 0 + 0)) in SM.
    assert (B := c_bM _ _ _ _ _ (i_d _ _ _ I) 0%nat). lia.
  - destruct (Z0 0%nat) as [_ E]; [cbn; auto|lia].
Qed.

(** C85 without its assumption is refuted: with a recursive task the values can be 0 although each refinement has costs and is longer. *)
Theorem minimal_implied_recursion_refuted : exists P x t, wf_problem P /\ actions_first P /\
  (forall t, (t < length (p_prim P))%nat -> primitive P t \/ has_method P t) /\ minimal_implied P 10 = MDone x /\
  nth t (x_cT x) 0 = 0 /\ nth t (x_dT x) 0 = 0 /\ (exists c d, refinement P t c d) /\ forall c d, refinement P t c d -> (c = 1 /\ 2 <= d)%nat.
Proof.
  exists Ex.R. eexists. exists 1%nat. split; [apply Ex.R_wf|]. split; [apply Ex.R_first|].
  split; [intros t Ht; cbn in Ht; destruct t as [|[|t]]; [left; reflexivity|right; eexists; split; [left; reflexivity|reflexivity]|lia]|].
  split; [vm_compute; reflexivity|]. split; [reflexivity|]. split; [reflexivity|].
  assert (R0 : refinement Ex.R 0 1 1) by (apply (rf_prim Ex.R 0); reflexivity).
  split. { exists 1%nat, 2%nat. apply (rf_abs Ex.R {| m_task := 1; m_subs := [0]; m_ord := [] |}%nat); [cbn; auto|]. apply (rfs_cons Ex.R 0 [] 1 1 0 0 R0). apply rfs_nil. }
  assert (X : forall d t c, refinement Ex.R t c d -> (t < 2)%nat -> c = 1%nat /\ (1 <= d)%nat /\ (t = 1%nat -> (2 <= d)%nat)).
  { induction d as [d IH] using lt_wf_ind. intros t c H Ht. inversion H as [a PR|m c' d' Hm HR]; subst.
    - unfold primitive in PR. destruct t as [|[|t]]; [cbn; lia|discriminate|lia].
    - assert (IN : forall u, refinements Ex.R [u] c d' -> (u < 2)%nat -> c = 1%nat /\ (1 <= d')%nat).
      { intros u HU Lu. inversion HU as [|u' us c1 d1 cs ds H1 H2]; subst. inversion H2; subst. rewrite !Nat.add_0_r in *. destruct (IH d1 ltac:(lia) u c1 H1 Lu) as (A & B & _). split; lia. }
      destruct Hm as [<-|[<-|[]]]; cbn [m_subs m_task] in *; destruct (IN _ HR ltac:(lia)); repeat split; lia. }
  intros c d H. destruct (X d 1%nat c H ltac:(lia)) as (A & _ & B). split; auto.
Qed.

Print Assumptions minimal_implied_lower.
Print Assumptions minimal_implied_network.
Print Assumptions minimal_implied_plans.
Print Assumptions minimal_implied_ends.
Print Assumptions minimal_implied_defined.
Print Assumptions minimal_implied_exact.
Print Assumptions minimal_implied_overflow_refuted.
Print Assumptions minimal_implied_recursion_refuted.
