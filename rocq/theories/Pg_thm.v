(** Theorems about the reachability analysis of planningGraph.cpp (C36, C89-C91). Proofs are in Pg_proof. *)
From Verif Require Import Base Htn_problem Htn_spec Htn_check Heap_model Heap_proof Relax_model Relax_thm Tab_model Tab_proof Tab_thm Rc_proof Pg_model Pg_spec Pg_proof.
Local Open Scope Z_scope.

(** The state and the set of allowed tasks given by the bit vectors. *)
Definition holds (l : list bool) (i : nat) : Prop := nth_error l i = Some true.

Lemma bat_holds l i : bat l i = true <-> holds l i.
Proof.
  unfold bat, holds. split.
  - intros H. destruct (nth_error l i) as [b|] eqn:E.
    + rewrite (nth_error_nth _ _ _ E) in H. congruence.
    + apply nth_error_None in E. rewrite nth_overflow in H by auto. discriminate.
  - intros H. now rewrite (nth_error_nth _ _ _ H).
Qed.

Lemma bat_false l i : (i < length l)%nat -> bat l i = false <-> ~ holds l i.
Proof. intros H. rewrite <- bat_holds. destruct (bat l i); split; congruence. Qed.

(** What the code relies on: vectors of the right lengths, a well-formed problem with actions before abstract tasks, exact tables, costs below INT_MAX. *)
Record pg_input (al : nat -> list Z) (P : problem) (T : pg_tables) (q0 : heap) (s R : list bool) : Prop := {
  pi_al : alloc_ok al;
  pi_wp : wf_problem P;
  pi_wt : pg_wf P T;
  pi_q : HInv q0;
  pi_s : length s = p_nfacts P;
  pi_R : length R = length (p_prim P);
  pi_cost : forall c, In c (p_cost P) -> Z.of_nat c < INT_MAX }.

Lemma fact_reach_ext P (s s' R R' : nat -> Prop) : (forall f, s f -> s' f) -> (forall a, R a -> R' a) ->
  (forall f, fact_reach P s R f -> fact_reach P s' R' f) /\ (forall a, act_reach P s R a -> act_reach P s' R' a).
Proof.
  intros H1 H2. apply (reach_ind P s R (fun f _ => fact_reach P s' R' f) (fun a _ => act_reach P s' R' a)).
  - intros f Hf. apply fr_state. auto.
  - intros a f _ IH Hf. eapply fr_add; eauto.
  - intros a La Ra _ IH. constructor; auto.
Qed.
Lemma task_reach_ext P (R R' A A' : nat -> Prop) : (forall a, R a -> R' a) -> (forall a, A a -> A' a) ->
  (forall t, task_reach P R A t -> task_reach P R' A' t) /\ (forall m, method_reach P R A m -> method_reach P R' A' m).
Proof.
  intros H1 H2. apply (task_method_ind P R A (fun t _ => task_reach P R' A' t) (fun m _ => method_reach P R' A' m)).
  - intros a Ha. apply tr_action. auto.
  - intros m md _ IH E. eapply tr_method; eauto.
  - intros m md E HR _ IH. eapply mr_intro; eauto.
Qed.

(** Everything known about a result. *)
Lemma calc_cases al P T q0 s R M : pg_input al P T q0 s R -> 0 <= M -> (forall c, In c (p_cost P) -> Z.of_nat c <= M) ->
  match calcReachability al P T q0 s R with
  | Some r => exists D last x u,
      PI P s R (NoDup (start_facts P T s R)) (fun _ => True) (fun _ => D) D [] last x /\
      r = {| r_prop := g_prop x; r_op := g_op x; r_tasks := u_tasks u; r_meths := u_meths u; r_useful := g_useful x |} /\
      NoDup (u_tasks u) /\ NoDup (u_meths u) /\
      (forall t, In t (u_tasks u) <-> task_reach P (fun a => bat R a = true) (fun a => In a (g_tasks x)) t) /\
      (forall m, In m (u_meths u) <-> method_reach P (fun a => bat R a = true) (fun a => In a (g_tasks x)) m) /\
      (forall a, (a < length (p_cost P))%nat -> zat (g_op x) a <= M * 2 ^ Z.of_nat (pg_fuel P T))
  | None => INT_MAX < M * 2 ^ Z.of_nat (pg_fuel P T)
  end.
Proof.
  intros [AL WP WT HQ Ls LR CL] HM CM. pose proof (phase1_ok al P T s R AL WP WT Ls LR CL q0 M HQ HM CM) as P1.
  unfold calcReachability. destruct (pg_start al P T q0 s R) as [x0|]; cbn [obind] in *; [|exact P1].
  destruct (pg_loop (pg_fuel P T) al P T s R x0) as [x|]; cbn [obind]; [|exact P1].
  destruct P1 as (D & last & I & OM).
  assert (NE : forall md, In md (p_methods P) -> m_subs md <> []) by (intros md H; apply (wfm_nonempty _ _ (wf_methods _ WP md H))).
  destruct (phase2_ok P T s R WP WT Ls LR (g_tasks x)) as (u & E & N1 & N2 & S1 & S2 & _ & C).
  - apply (i_nd _ _ _ _ _ _ _ _ _ _ I).
  - intros t Ht. apply (i_task _ _ _ _ _ _ _ _ _ _ I) in Ht as [Ht _]. pose proof (w_tasks _ _ WT). lia.
  - specialize (C NE) as [C1 C2].
    destruct (ofold _ (g_tasks x) []) as [st|]; cbn [obind] in *; [|discriminate]. rewrite E. cbn [obind].
    exists D, last, x, u. split; [exact I|]. repeat (split; auto).
Qed.

(** *** C36: nothing that is reachable is missed *)
Theorem pg_complete al P T q0 s R r : pg_input al P T q0 s R -> calcReachability al P T q0 s R = Some r -> (forall v, In v (r_op r) -> v < INT_MAX) ->
  (forall f, fact_reach P (holds s) (holds R) f -> factReachable r f = Some true) /\
  (forall a, act_reach P (holds s) (holds R) a -> taskReachable r a = true) /\
  (forall t, task_reach P (holds R) (act_reach P (holds s) (holds R)) t -> taskReachable r t = true) /\
  (forall m, method_reach P (holds R) (act_reach P (holds s) (holds R)) m -> methodReachable r m = true).
Proof.
  intros IN E OM. pose proof (calc_cases al P T q0 s R INT_MAX IN ltac:(unfold INT_MAX; lia) ltac:(intros c Hc; pose proof (pi_cost _ _ _ _ _ _ IN c Hc); lia)) as C.
  rewrite E in C. destruct C as (D & last & x & u & I & -> & _ & _ & TE & ME & _). cbn [r_op] in OM.
  assert (OM' : forall a, (a < length (p_cost P))%nat -> zat (g_op x) a < INT_MAX).
  { intros a Ha. apply OM. apply nth_In. rewrite (i_lo _ _ _ _ _ _ _ _ _ _ I). auto. }
  destruct (phase1_complete P s R (pi_wp _ _ _ _ _ _ IN) (pi_s _ _ _ _ _ _ IN) (pi_R _ _ _ _ _ _ IN) _ _ _ _ I OM') as [F A].
  destruct (fact_reach_ext P (holds s) (fun f => bat s f = true) (holds R) (fun f => bat R f = true)) as [EF EA]; [intros; now apply bat_holds|intros; now apply bat_holds|].
  assert (TA : forall a, act_reach P (holds s) (holds R) a -> In a (g_tasks x)) by (intros a Ha; apply A, EA, Ha).
  destruct (task_reach_ext P (holds R) (fun f => bat R f = true) (act_reach P (holds s) (holds R)) (fun a => In a (g_tasks x))) as [ET EM]; [intros; now apply bat_holds|exact TA|].
  split; [|split; [|split]].
  - intros f Hf. apply EF, F in Hf as [L1 L2]. unfold factReachable. cbn [r_prop]. rewrite get_zat by (rewrite (i_lp _ _ _ _ _ _ _ _ _ _ I); auto). cbn [obind].
    f_equal. apply Bool.negb_true_iff, Z.eqb_neq. unfold UNREACHABLE, INT_MAX in *. lia.
  - intros a Ha. apply memb_In. cbn [r_tasks]. apply TE, tr_action, TA, Ha.
  - intros t Ht. apply memb_In. cbn [r_tasks]. apply TE, ET, Ht.
  - intros m Hm. apply memb_In. cbn [r_meths]. apply ME, EM, Hm.
Qed.

(** The analysis is defined and the values stay below INT_MAX if the costs are small. *)
Theorem pg_defined al P T q0 s R M : pg_input al P T q0 s R -> 0 <= M -> (forall c, In c (p_cost P) -> Z.of_nat c <= M) ->
  M * 2 ^ Z.of_nat (pg_fuel P T) < INT_MAX -> exists r, calcReachability al P T q0 s R = Some r /\ forall v, In v (r_op r) -> v < INT_MAX.
Proof.
  intros IN HM CM B. pose proof (calc_cases al P T q0 s R M IN HM CM) as C. destruct (calcReachability al P T q0 s R) as [r|]; [|lia].
  exists r. split; auto. destruct C as (D & last & x & u & I & -> & _ & _ & _ & _ & OM). cbn [r_op]. intros v Hv.
  apply (In_nth _ _ 0) in Hv as (a & La & <-). rewrite (i_lo _ _ _ _ _ _ _ _ _ _ I) in La. specialize (OM a La). unfold zat in OM. lia.
Qed.

(** *** C89: exactness *)
(** No fact is made true at the beginning in two ways: by the state or an add effect of an allowed action without preconditions. *)
Record no_conflict (P : problem) (s R : list bool) : Prop := {
  nc_state : forall a f, nth_error (p_prec P) a = Some [] -> holds R a -> adds P a f -> ~ holds s f;
  nc_two : forall a b f, nth_error (p_prec P) a = Some [] -> nth_error (p_prec P) b = Some [] -> holds R a -> holds R b -> adds P a f -> adds P b f -> a = b;
  nc_one : forall a l, nth_error (p_prec P) a = Some [] -> holds R a -> nth_error (p_add P) a = Some l -> NoDup l }.

Lemma flat_map_nodup {A B} (g : A -> list B) l : NoDup l -> (forall a, In a l -> NoDup (g a)) -> (forall a b x, In a l -> In b l -> In x (g a) -> In x (g b) -> a = b) -> NoDup (flat_map g l).
Proof.
  induction l as [|a l IH]; intros N H1 H2; cbn [flat_map]; [constructor|]. inversion N as [|? ? N1 N2]; subst. apply nodup_app_iff. split; [|split].
  - apply H1. now left.
  - apply IH; auto. { intros b Hb. apply H1. now right. } intros b c x Hb Hc. apply H2; now right.
  - intros x Hx Hf. apply in_flat_map in Hf as (b & Hb & Hx'). apply N1. replace a with b; auto. eapply H2; eauto; [now right|now left].
Qed.

Lemma start_nodup P T s R : wf_problem P -> pg_wf P T -> no_conflict P s R -> NoDup (start_facts P T s R).
Proof.
  intros WP WT [N1 N2 N3]. unfold start_facts.
  assert (PL : forall a, In a (t_precless T) -> nth_error (p_prec P) a = Some []) by (intros a Ha; now apply (w_precless _ _ WT)).
  assert (PA : forall a f, In f (if bat R a then Pg_proof.add P a else []) -> holds R a /\ adds P a f).
  { intros a f H. destruct (bat R a) eqn:Q; [|easy]. split; [now apply bat_holds|now apply adds_add]. }
  apply nodup_app_iff. split; [|split].
  - apply NoDup_filter, seq_NoDup.
  - apply flat_map_nodup; [apply (w_precless_nd _ _ WT)| |].
    + intros a Ha. destruct (bat R a) eqn:Q; [|constructor]. apply (N3 a); [auto|now apply bat_holds|]. apply nth_error_nth'. rewrite (wf_add _ WP), <- (wf_prec _ WP).
      apply nth_error_Some. rewrite (PL a Ha). discriminate.
    + intros a b f Ha Hb Hf Hg. apply PA in Hf as [Q1 Q2]. apply PA in Hg as [Q3 Q4]. eauto.
  - intros f Hf Hg. apply filter_In in Hf as [_ Hf]. apply bat_holds in Hf. apply in_flat_map in Hg as (a & Ha & Hg). apply PA in Hg as [Q1 Q2]. exact (N1 a f (PL a Ha) Q1 Q2 Hf).
Qed.

(** Without such conflicts exactly the reachable facts, tasks and methods are computed. *)
Theorem pg_exact al P T q0 s R r : pg_input al P T q0 s R -> no_conflict P s R -> calcReachability al P T q0 s R = Some r -> (forall v, In v (r_op r) -> v < INT_MAX) ->
  (forall f, (f < p_nfacts P)%nat -> factReachable r f = Some true <-> fact_reach P (holds s) (holds R) f) /\
  (forall t, taskReachable r t = true <-> task_reach P (holds R) (act_reach P (holds s) (holds R)) t) /\
  (forall m, methodReachable r m = true <-> method_reach P (holds R) (act_reach P (holds s) (holds R)) m).
Proof.
  intros IN NC E OM. destruct (pg_complete al P T q0 s R r IN E OM) as (C1 & _ & C2 & C3).
  pose proof (calc_cases al P T q0 s R INT_MAX IN ltac:(unfold INT_MAX; lia) ltac:(intros c Hc; pose proof (pi_cost _ _ _ _ _ _ IN c Hc); lia)) as C.
  rewrite E in C. destruct C as (D & last & x & u & I & -> & _ & _ & TE & ME & _).
  pose proof (start_nodup P T s R (pi_wp _ _ _ _ _ _ IN) (pi_wt _ _ _ _ _ _ IN) NC) as ND.
  destruct (fact_reach_ext P (fun f => bat s f = true) (holds s) (fun f => bat R f = true) (holds R)) as [EF EA]; [intros; now apply bat_holds|intros; now apply bat_holds|].
  assert (TA : forall a, In a (g_tasks x) -> act_reach P (holds s) (holds R) a) by (intros a Ha; apply EA, (e_task _ _ _ _ _ _ _ _ _ _ I ND), Ha).
  destruct (task_reach_ext P (fun f => bat R f = true) (holds R) (fun a => In a (g_tasks x)) (act_reach P (holds s) (holds R))) as [ET EM]; [intros; now apply bat_holds|exact TA|].
  split; [|split].
  - intros f Lf. split; [|apply C1]. unfold factReachable. cbn [r_prop]. rewrite get_zat by (rewrite (i_lp _ _ _ _ _ _ _ _ _ _ I); auto). cbn [obind].
    intros Q. injection Q as Q. apply Bool.negb_true_iff, Z.eqb_neq in Q. apply EF, (e_prop _ _ _ _ _ _ _ _ _ _ I ND f Lf).
    pose proof (i_pp _ _ _ _ _ _ _ _ _ _ I f Lf). unfold UNREACHABLE, INT_MAX in *. lia.
  - intros t. split; [|apply C2]. intros H. apply memb_In in H. cbn [r_tasks] in H. apply ET, TE, H.
  - intros m. split; [|apply C3]. intros H. apply memb_In in H. cbn [r_meths] in H. apply EM, ME, H.
Qed.

(** *** C90: the tasks and methods follow from the actions, the useful facts from goal and actions, also with conflicts *)
Theorem pg_relative al P T q0 s R r : pg_input al P T q0 s R -> calcReachability al P T q0 s R = Some r -> exists A,
  NoDup A /\ (forall a, In a A -> (a < length (p_cost P))%nat /\ holds R a) /\
  NoDup (r_tasks r) /\ NoDup (r_meths r) /\ NoDup (r_useful r) /\
  (forall t, taskReachable r t = true <-> task_reach P (holds R) (fun a => In a A) t) /\
  (forall m, methodReachable r m = true <-> method_reach P (holds R) (fun a => In a A) m) /\
  (forall f, In f (r_useful r) <-> (f < p_nfacts P)%nat /\ ~ holds s f /\ (In f (p_goal P) \/ exists a, In a A /\ precs P a f)).
Proof.
  intros IN E. pose proof (calc_cases al P T q0 s R INT_MAX IN ltac:(unfold INT_MAX; lia) ltac:(intros c Hc; pose proof (pi_cost _ _ _ _ _ _ IN c Hc); lia)) as C.
  rewrite E in C. destruct C as (D & last & x & u & I & -> & N1 & N2 & TE & ME & _). exists (g_tasks x). unfold taskReachable, methodReachable. cbn [r_tasks r_meths r_useful].
  destruct (task_reach_ext P (fun f => bat R f = true) (holds R) (fun a => In a (g_tasks x)) (fun a => In a (g_tasks x))) as [ET EM]; [intros; now apply bat_holds|auto|].
  destruct (task_reach_ext P (holds R) (fun f => bat R f = true) (fun a => In a (g_tasks x)) (fun a => In a (g_tasks x))) as [ET' EM']; [intros; now apply bat_holds|auto|].
  split; [apply (i_nd _ _ _ _ _ _ _ _ _ _ I)|]. split.
  { intros a Ha. destruct (i_task _ _ _ _ _ _ _ _ _ _ I a Ha). split; auto. now apply bat_holds. }
  split; auto. split; auto. split; [apply (i_und _ _ _ _ _ _ _ _ _ _ I)|]. split; [|split].
  - intros t. rewrite memb_In, TE. split; auto.
  - intros m. rewrite memb_In, ME. split; auto.
  - intros f. rewrite (i_use _ _ _ _ _ _ _ _ _ _ I).
    assert (LF : In f (p_goal P) \/ (exists a, In a (g_tasks x) /\ In f (Pg_proof.pre P a)) -> (f < p_nfacts P)%nat).
    { intros [H|(a & _ & H)]; [now apply (wf_goal _ (pi_wp _ _ _ _ _ _ IN))|]. eapply pre_lt; [exact (pi_wp _ _ _ _ _ _ IN)|exact H]. }
    split.
    + intros [Q1 Q2]. specialize (LF Q2). split; auto. split; [apply bat_false; auto; rewrite (pi_s _ _ _ _ _ _ IN); auto|].
      destruct Q2 as [Q2|(a & Q2 & Q3)]; auto. right. exists a. split; auto. now apply precs_pre.
    + intros (L & Q1 & Q2). split; [apply bat_false in Q1; auto; rewrite (pi_s _ _ _ _ _ _ IN); auto|].
      destruct Q2 as [Q2|(a & Q2 & Q3)]; auto. right. exists a. split; auto. now apply precs_pre.
Qed.

(** *** C91: pruning is safe *)
Lemma plan_reach P s R plan : (forall a, In a plan -> (a < length (p_cost P))%nat /\ R a) -> forall s' : state, (forall f, s' f -> fact_reach P s R f) -> executable P s' plan ->
  (forall a, In a plan -> act_reach P s R a) /\ (forall f, after P s' plan f -> fact_reach P s R f).
Proof.
  induction plan as [|a plan IH]; intros H s' Hs E.
  - split; [easy|exact Hs].
  - destruct E as [Ap E]. assert (AR : act_reach P s R a). { destruct (H a (or_introl eq_refl)). constructor; auto. }
    destruct (IH (fun b Hb => H b (or_intror Hb)) (result P s' a)) as [I1 I2]; auto.
    + intros f [Q|[Q _]]; [eapply fr_add; eauto|auto].
    + split; [|exact I2]. intros b [<-|Hb]; auto.
Qed.

(** The allowed tasks are closed under decomposition. *)
Definition closed_tasks (P : problem) (R : nat -> Prop) : Prop := forall m, In m (p_methods P) -> R (m_task m) -> forall t, In t (m_subs m) -> R t.

Lemma refine_allowed P R tn tn' : closed_tasks P R -> refines P tn tn' -> (forall x, t_in tn x -> R (t_lab tn x)) -> forall x, t_in tn' x -> R (t_lab tn' x).
Proof.
  intros CR. induction 1 as [tn|tn x m tn1 tn2 D _ IH]; auto. intros H. apply IH. intros y Hy. apply (d_in' _ _ _ _ _ D) in Hy as [[Hy N]|(j & Lj & ->)].
  - rewrite (d_lab_old _ _ _ _ _ D y Hy N). auto.
  - destruct (nth_error (m_subs m) j) as [t|] eqn:E; [|apply nth_error_None in E; lia]. rewrite (d_lab_new _ _ _ _ _ D j t E).
    apply (CR m); [apply (d_method _ _ _ _ _ D)| |eapply nth_error_In; eauto]. rewrite <- (d_lab _ _ _ _ _ D). apply H, (d_in _ _ _ _ _ D).
Qed.

Lemma refine_reach P (R A : nat -> Prop) tn tn' : closed_tasks P R -> refines P tn tn' -> (forall x, t_in tn x -> R (t_lab tn x)) -> (forall x, t_in tn' x -> task_reach P R A (t_lab tn' x)) ->
  forall x, t_in tn x -> task_reach P R A (t_lab tn x).
Proof.
  intros CR. induction 1 as [tn|tn x m tn1 tn2 D RF IH]; auto. intros HR HA.
  assert (R1 : forall y, t_in tn1 y -> R (t_lab tn1 y)) by (eapply refine_allowed; [exact CR| |exact HR]; eapply ref_step; [exact D|constructor]).
  specialize (IH R1 HA). intros y Hy. destruct (list_eq_dec Nat.eq_dec y x) as [->|N].
  - rewrite (d_lab _ _ _ _ _ D). destruct (In_nth_error _ _ (d_method _ _ _ _ _ D)) as (i & Ei). eapply tr_method; [|exact Ei]. eapply mr_intro; [exact Ei| |].
    + rewrite <- (d_lab _ _ _ _ _ D). auto.
    + intros t Ht. destruct (In_nth_error _ _ Ht) as (j & Ej). rewrite <- (d_lab_new _ _ _ _ _ D j t Ej). apply IH. apply (d_in' _ _ _ _ _ D). right. exists j. split; auto.
      apply nth_error_Some. congruence.
  - rewrite <- (d_lab_old _ _ _ _ _ D y Hy N). apply IH. apply (d_in' _ _ _ _ _ D). auto.
Qed.

(** If some task of a network or a goal fact is not found reachable, then no plan solves the network. *)
Theorem pg_prunes_safely al P T q0 s R r tn plan : pg_input al P T q0 s R -> calcReachability al P T q0 s R = Some r -> (forall v, In v (r_op r) -> v < INT_MAX) ->
  closed_tasks P (holds R) -> (forall x, t_in tn x -> holds R (t_lab tn x)) -> solves P (holds s) tn plan ->
  (forall x, t_in tn x -> taskReachable r (t_lab tn x) = true) /\ (forall f, In f (p_goal P) -> factReachable r f = Some true).
Proof.
  intros IN E OM CR HR (tn' & L & RF & PR & (_ & IL & _) & -> & EX & GO).
  destruct (pg_complete al P T q0 s R r IN E OM) as (C1 & _ & C2 & _).
  destruct (plan_reach P (holds s) (holds R) (map (t_lab tn') L)) with (s' := holds s) as [A1 A2]; auto.
  - intros a Ha. apply in_map_iff in Ha as (x & <- & Hx). apply IL in Hx. split; [apply (wf_prim _ (pi_wp _ _ _ _ _ _ IN)), PR, Hx|]. eapply refine_allowed; eauto.
  - intros f Hf. now apply fr_state.
  - split.
    + intros x Hx. apply C2. eapply refine_reach; eauto. intros y Hy. apply tr_action, A1, in_map. now apply IL.
    + intros f Hf. apply C1, A2, GO, Hf.
Qed.

(** *** The tables of class Model are as required (C18, C88) *)
Definition tables_of (P : problem) : option pg_tables :=
  T <- st_table P ;;
  ds <- omap (fun md => distinct_table (m_subs md)) (p_methods P) ;;
  Some {| t_p2a := inverse_mapping (p_nfacts P) (p_prec P); t_precless := precless (p_prec P); t_stm := map (map Z.to_nat) (fst T); t_nst := map (@length (Z * Z)) ds |}.

Lemma sorted_nodup (l : list Z) : ascending l -> NoDup l.
Proof. induction 1 as [|x l S IH F]; constructor; auto. intros I. rewrite Forall_forall in F. specialize (F x I). lia. Qed.

Lemma distinct_length subs D : distinct_table subs = Some D -> length D = length (nodup Nat.eq_dec subs).
Proof.
  intros E. destruct (distinct_subtasks_exact subs) as (D' & E' & S & I). replace D' with D in * by congruence. apply sorted_nodup in S.
  assert (P1 : Permutation (map fst D) (map Z.of_nat (nodup Nat.eq_dec subs))).
  { apply NoDup_Permutation; auto.
    - apply FinFun.Injective_map_NoDup; [intros a b; apply Nat2Z.inj|apply NoDup_nodup].
    - intros z. rewrite !in_map_iff. split.
      + intros ((z' & c) & <- & H). apply I in H as (t & -> & Ht & _). exists t. split; auto. now apply nodup_In.
      + intros (t & <- & Ht). apply nodup_In in Ht. exists (Z.of_nat t, Z.of_nat (count_occ Nat.eq_dec subs t)). split; auto. apply I. eauto. }
  apply Permutation_length in P1. now rewrite !map_length in P1.
Qed.

Theorem tables_of_wf P : wf_problem P -> (length (p_cost P) <= length (p_prim P))%nat -> (forall l, In l (p_prec P) -> NoDup l) -> exists T, tables_of P = Some T /\ pg_wf P T.
Proof.
  intros WP LA PN. destruct (st_to_method_exact P WP) as (rows & num & E & H). unfold tables_of. rewrite E. cbn [obind fst].
  destruct (Rc_proof.omap_some (fun md => distinct_table (m_subs md)) (p_methods P)) as (ds & ED).
  { intros md _. destruct (distinct_subtasks_exact (m_subs md)) as (D & Q & _). eauto. }
  rewrite ED. cbn [obind]. eexists. split; [reflexivity|].
  constructor; cbn [t_p2a t_precless t_stm t_nst]; auto.
  - unfold inverse_mapping. now rewrite map_length, seq_length.
  - intros f l Hl. unfold inverse_mapping in Hl. assert (Lf : (f < p_nfacts P)%nat). { assert (Q : nth_error (map (fun f0 => filter (fun i => memb f0 (nth i (p_prec P) [])) (seq 0 (length (p_prec P)))) (seq 0 (p_nfacts P))) f <> None) by congruence. apply nth_error_Some in Q. now rewrite map_length, seq_length in Q. }
    apply (nth_error_nth _ _ []) in Hl. rewrite (nth_indep _ [] (filter (fun i => memb 0%nat (nth i (p_prec P) [])) (seq 0 (length (p_prec P))))) in Hl by (now rewrite map_length, seq_length).
    rewrite (map_nth (fun f0 => filter (fun i => memb f0 (nth i (p_prec P) [])) (seq 0 (length (p_prec P)))) (seq 0 (p_nfacts P)) 0%nat f), seq_nth in Hl by auto. cbn [Nat.add] in Hl. subst l. split.
    + apply NoDup_filter, seq_NoDup.
    + intros a. rewrite filter_In, in_seq, memb_In, precs_pre. unfold Pg_proof.pre. split; [intuition|]. intros Ha. split; auto. split; [lia|].
      destruct (Nat.lt_ge_cases a (length (p_prec P))); [auto|]. rewrite nth_overflow in Ha by auto. easy.
  - apply NoDup_filter, seq_NoDup.
  - intros a. unfold precless. rewrite filter_In, in_seq, Nat.eqb_eq, length_zero_iff_nil. split.
    + intros [[_ L] <-]. now apply nth_error_nth'.
    + intros Q. split; [split; [lia|]; apply nth_error_Some; congruence|now apply nth_error_nth].
  - rewrite map_length. destruct (Nat.le_gt_cases (length (p_prim P)) (length rows)); auto. destruct (H (length rows) ltac:(auto)) as (row & G & _). apply get_lt in G. lia.
  - intros t l Lt Hl. destruct (H t Lt) as (row & G & _ & S & I). unfold get in G. rewrite nth_error_map, G in Hl. cbn in Hl. injection Hl as <-.
    apply sorted_nodup in S. split.
    + assert (NN : forall z, In z row -> exists m, z = Z.of_nat m). { intros z Hz. apply I in Hz as (m & _ & -> & _). eauto. }
      clear - S NN. induction row as [|z row IH]; cbn [map]; [constructor|]. inversion S as [|? ? S1 S2]; subst. constructor.
      * intros Hz. apply in_map_iff in Hz as (z' & Q & Hz'). apply S1. destruct (NN z (or_introl eq_refl)) as (m & ->). destruct (NN z' (or_intror Hz')) as (m' & ->).
        rewrite !Nat2Z.id in Q. subst. auto.
      * apply IH; auto. intros z' Hz'. apply NN. now right.
    + intros m. rewrite in_map_iff. split.
      * intros (z & <- & Hz). apply I in Hz as (m & md & -> & Em & Ht). rewrite Nat2Z.id. eauto.
      * intros (md & Em & Ht). exists (Z.of_nat m). rewrite Nat2Z.id. split; auto. apply I. eauto.
  - intros m md Em. apply Rc_proof.omap_nth in ED as (_ & F & _). destruct (F m md Em) as (D & ED' & Q). rewrite nth_error_map. cbn beta in *.
    first [rewrite ED' | rewrite Q]. cbn. f_equal. apply distinct_length. first [exact Q|exact ED'].
Qed.

(** *** Examples *)
Module Ex.
  Notation al := Relax_thm.Ex.al.
  Notation q0 := Relax_thm.Ex.q0.
  (** Facts 0-4; actions 0: -> 1; 1: 0,1 -> 2; 2: 3 -> 4; 3: 2 -> 0 (not allowed). Tasks 4-6 are abstract: 4 -> 5 6 | 2, 5 -> 0 1, 6 -> 1 5 1. *)
  Definition P1 : problem :=
    {| p_nfacts := 5%nat; p_prim := [true; true; true; true; false; false; false];
       p_prec := [[]; [0; 1]; [3]; [2]]%nat; p_add := [[1]; [2]; [4]; [0]]%nat; p_del := [[]; [0]; []; []]%nat; p_cost := [2; 3; 1; 1]%nat;
       p_methods := [ {| m_task := 4%nat; m_subs := [5; 6]%nat; m_ord := [(0, 1)]%nat |}; {| m_task := 4%nat; m_subs := [2]%nat; m_ord := [] |};
                      {| m_task := 5%nat; m_subs := [0; 1]%nat; m_ord := [] |}; {| m_task := 6%nat; m_subs := [1; 5; 1]%nat; m_ord := [] |} ];
       p_init := 4%nat; p_s0 := [0]%nat; p_goal := [2; 4]%nat |}.
  Definition s1 : list bool := [true; false; false; false; false].
  Definition R1 : list bool := [true; true; true; false; true; true; true].
  Definition T1 : pg_tables :=
    {| t_p2a := [[1]; [1]; [3]; [2]; []]%nat; t_precless := [0]%nat; t_stm := [[2]; [2; 3]; [1]; []; []; [0; 3]; [0]]%nat; t_nst := [2; 1; 2; 2]%nat |}.

  Lemma wf1 : wf_problem P1.
  Proof. apply problem_check_ok. vm_compute. reflexivity. Qed.
  Lemma nd1 : forall l, In l (p_prec P1) -> NoDup l.
  Proof. intros l H. repeat (destruct H as [<-|H]; [repeat constructor; cbn; intuition lia|]). destruct H. Qed.
  Lemma input1 : pg_input al P1 T1 q0 s1 R1.
  Proof.
    constructor; auto using Relax_thm.Ex.al_ok, Relax_thm.Ex.q0_ok, wf1.
    - destruct (tables_of_wf P1 wf1 ltac:(vm_compute; lia) nd1) as (T & E & W). vm_compute in E. injection E as <-. exact W.
    - intros c H. repeat (destruct H as [<-|H]; [unfold INT_MAX; lia|]). destruct H.
  Qed.
  Example pg_ex : calcReachability al P1 T1 q0 s1 R1 =
    Some {| r_prop := [0; 2; 5; UNREACHABLE; UNREACHABLE]; r_op := [2; 5; 1; 6]; r_tasks := [0; 1; 5; 6; 4]%nat; r_meths := [2; 3; 0]%nat; r_useful := [2; 4; 1]%nat |}.
  Proof. vm_compute. reflexivity. Qed.
  Lemma nc1 : no_conflict P1 s1 R1.
  Proof.
    assert (PL : forall a, nth_error (p_prec P1) a = Some [] -> a = 0%nat) by (intros [|[|[|[|[|a]]]]]; cbn; auto; discriminate).
    constructor.
    - intros a f Ha _ (l & E & I). apply PL in Ha. subst. injection E as <-. destruct I as [<-|[]]. cbv. discriminate.
    - intros a b f Ha Hb. apply PL in Ha, Hb. congruence.
    - intros a l Ha _ E. apply PL in Ha. subst. injection E as <-. repeat constructor. easy.
  Qed.
  (** Hence task 4 is reachable with the first method only. *)
  Example pg_exact_ex : task_reach P1 (holds R1) (act_reach P1 (holds s1) (holds R1)) 4 /\ ~ method_reach P1 (holds R1) (act_reach P1 (holds s1) (holds R1)) 1 /\
    ~ fact_reach P1 (holds s1) (holds R1) 4.
  Proof.
    destruct (pg_exact al P1 T1 q0 s1 R1 _ input1 nc1 pg_ex) as (A & B & C).
    - intros v H. repeat (destruct H as [<-|H]; [unfold INT_MAX; lia|]). destruct H.
    - split; [now apply B|]. split.
      + intros H. apply C in H. discriminate.
      + intros H. apply A in H; [discriminate|cbn; lia].
  Qed.
  Lemma closed1 : closed_tasks P1 (holds R1).
  Proof.
    intros m H _ t Ht. repeat (destruct H as [<-|H]; [repeat (destruct Ht as [<-|Ht]; [reflexivity|]); destruct Ht|]). destruct H.
  Qed.
  (** Fact 4 is a goal: no plan solves a network with task 4. *)
  Example pg_prunes_ex tn plan : (forall x, t_in tn x -> t_lab tn x = 4%nat) -> ~ solves P1 (holds s1) tn plan.
  Proof.
    intros H S. destruct (pg_prunes_safely al P1 T1 q0 s1 R1 _ tn plan input1 pg_ex) as [_ G]; auto using closed1.
    - intros v Hv. repeat (destruct Hv as [<-|Hv]; [unfold INT_MAX; lia|]). destruct Hv.
    - intros x Hx. rewrite (H x Hx). reflexivity.
    - specialize (G 4%nat ltac:(cbn; auto)). discriminate.
  Qed.
  Example pg_defined_ex : exists r, calcReachability al P1 T1 q0 s1 R1 = Some r /\ forall v, In v (r_op r) -> v < INT_MAX.
  Proof.
    apply (pg_defined al P1 T1 q0 s1 R1 3 input1); [lia| |vm_compute; reflexivity].
    intros c H. repeat (destruct H as [<-|H]; [lia|]). destruct H.
  Qed.

  (** Two actions without preconditions add fact 0; action 2 needs the facts 0 and 1. *)
  Definition P2 : problem :=
    {| p_nfacts := 3%nat; p_prim := [true; true; true; false];
       p_prec := [[]; []; [0; 1]]%nat; p_add := [[0]; [0]; [2]]%nat; p_del := [[]; []; []]; p_cost := [1; 1; 1]%nat;
       p_methods := [ {| m_task := 3%nat; m_subs := [2]%nat; m_ord := [] |} ];
       p_init := 3%nat; p_s0 := []; p_goal := [2]%nat |}.
  Definition T2 : pg_tables := {| t_p2a := [[2]; [2]; []]%nat; t_precless := [0; 1]%nat; t_stm := [[]; []; [0]; []]%nat; t_nst := [1]%nat |}.
  Lemma wf2 : wf_problem P2.
  Proof. apply problem_check_ok. vm_compute. reflexivity. Qed.
  Lemma input2 : pg_input al P2 T2 q0 [false; false; false] [true; true; true; true].
  Proof.
    constructor; auto using Relax_thm.Ex.al_ok, Relax_thm.Ex.q0_ok, wf2.
    - destruct (tables_of_wf P2 wf2 ltac:(vm_compute; lia)) as (T & E & W).
      + intros l H. repeat (destruct H as [<-|H]; [repeat constructor; cbn; intuition lia|]). destruct H.
      + vm_compute in E. injection E as <-. exact W.
    - intros c H. repeat (destruct H as [<-|H]; [unfold INT_MAX; lia|]). destruct H.
  Qed.
End Ex.

(** *** C92: with such conflicts, unreachable facts, tasks and methods may be taken for reachable *)
Theorem pg_exact_refuted : exists al P T q0 s R r, pg_input al P T q0 s R /\ calcReachability al P T q0 s R = Some r /\
  factReachable r 2 = Some true /\ ~ fact_reach P (holds s) (holds R) 2 /\ taskReachable r 2 = true /\ ~ act_reach P (holds s) (holds R) 2 /\
  methodReachable r 0 = true /\ ~ method_reach P (holds R) (act_reach P (holds s) (holds R)) 0.
Proof.
  exists Relax_thm.Ex.al, Ex.P2, Ex.T2, Relax_thm.Ex.q0, [false; false; false], [true; true; true; true].
  destruct (calcReachability Relax_thm.Ex.al Ex.P2 Ex.T2 Relax_thm.Ex.q0 [false; false; false] [true; true; true; true]) as [r|] eqn:E; [|vm_compute in E; discriminate].
  exists r. split; [exact Ex.input2|]. split; auto. vm_compute in E. injection E as <-.
  set (s := [false; false; false]). set (R := [true; true; true; true]).
  assert (NS : forall f, ~ holds s f) by (intros [|[|[|[|f]]]]; cbv; discriminate).
  assert (N : (forall f, fact_reach Ex.P2 (holds s) (holds R) f -> f = 0%nat) /\ (forall a, act_reach Ex.P2 (holds s) (holds R) a -> a <> 2%nat)).
  { apply (reach_ind Ex.P2 (holds s) (holds R) (fun f _ => f = 0%nat) (fun a _ => a <> 2%nat)).
    - intros f H. elim (NS f H).
    - intros a f _ Na (l & E & I). destruct a as [|[|[|a]]]; cbn in E; [| |easy|destruct a; discriminate]; injection E as <-; destruct I as [<-|[]]; auto.
    - intros a _ _ _ IH ->. specialize (IH 1%nat). discriminate IH. exists [0; 1]%nat. split; cbn; auto. }
  destruct N as [NF NA]. assert (NA2 : ~ act_reach Ex.P2 (holds s) (holds R) 2) by (intros H; now apply NA in H).
  split; [reflexivity|]. split; [intros H; apply NF in H; discriminate|]. split; [reflexivity|]. split; auto. split; [reflexivity|].
  intros H. inversion H as [m md Em _ Hs]; subst. injection Em as <-. specialize (Hs 2%nat (or_introl eq_refl)). inversion Hs as [a Ha|m' md' _ Em' Q]; subst; auto.
  destruct m' as [|[|m']]; cbn in Em'; try discriminate. injection Em' as <-. discriminate.
Qed.

Print Assumptions pg_complete.
Print Assumptions pg_defined.
Print Assumptions pg_exact.
Print Assumptions pg_relative.
Print Assumptions pg_prunes_safely.
Print Assumptions tables_of_wf.
Print Assumptions pg_exact_refuted.
