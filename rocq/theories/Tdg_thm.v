(** Theorems about the constraints of the ILP heuristic against disconnected cycles, hhDOfree.cpp with cTdgFull (C193-C196). Proofs are in Tdg_proof. *)
From Coq Require Import QArith Qround Lqa.
From Verif Require Import Base Htn_problem Htn_spec Htn_sem Htn_check Heap_model IntUtil_model To_spec To_sem Tab_model Tab_thm Pg_model Pg_spec Pg_proof Pg_thm Rc_spec Rc_proof Lm_spec Scc_spec Scc_model Reach_proof ReachHeap_proof Reach_thm Dof_spec Dof_model Dof_count Dof_proof Dof_net Dof_main Dof_sol Dof_relax Dof_thm Tdg_spec Tdg_model Tdg_proof.
Import Rc_spec.
Local Open Scope Z_scope.

(** The tables of the components are those of Model::calcSCCs and Model::constructSCCGraph. *)
Definition scc_tables (P : problem) (SC : sccs) (Pr : list (list nat)) : Prop := exists dfsI lowlink Su,
  Reach_thm.connected P /\ length dfsI = length (p_prim P) /\ length lowlink = length (p_prim P) /\ calcSCCs (task_graph P) (p_init P) dfsI lowlink = Some SC /\ scc_graph (task_graph P) SC = Some (Su, Pr).
Lemma tables_ok P SC Pr : wf_problem P -> scc_tables P SC Pr -> sccs_ok (task_graph P) SC /\ exists Su, rows_ok SC Su Pr (cedge (task_graph P) SC).
Proof.
  intros WP (d & l & Su & CN & Ld & Ll & E1 & E2). assert (Li : (p_init P < length (p_prim P))%nat) by (apply nth_error_Some; rewrite (wf_init _ WP); discriminate). assert (WF := task_graph_wf P WP).
  destruct (calcSCCs_ok (task_graph P) (p_init P) d l) as (C & E & OK); rewrite ?task_graph_len; auto. { intros v Lv. apply occurs_reach; auto. }
  assert (C = SC) by congruence. subst C. split; auto. destruct (scc_graph_ok _ WF SC OK) as (Sc & Pr' & EG & RO). assert (Pr' = Pr) by congruence. subst. eauto.
Qed.
(** A task that occurs in one of its own decompositions. *)
Definition recursive (P : problem) (t : nat) : Prop := exists t', Scc_spec.edge (task_graph P) t t' /\ reach (task_graph P) t' t.

(** C193: an integral assignment uses no cycle of tasks that is disconnected from the network: each used task comes from a task of the network by a chain of used methods. *)
Theorem tdg_connected : forall al P T q0 s R r tn L C V o cs lms SC Pr J J' x,
  dof_input al P T q0 s R r tn L C -> scc_tables P SC Pr -> dof_ilp P V o r s C cs lms = Some J -> tdg_ilp P SC Pr r C J = Some J' -> feasible true J' x ->
  forall t, used r x t -> linked P tn (fun m => methodReachable r m = true /\ Qle 1 (x (MV m))) t.
Proof.
  intros al P T q0 s R r tn L C V o cs lms SC Pr J J' x DI ST EJ EJ' F t [Rt Wt]. destruct (feasible_zfeasible J' x F) as [FZ EQ].
  destruct (tables_ok P SC Pr (pi_wp _ _ _ _ _ _ (di_pg _ _ _ _ _ _ _ _ _ _ DI)) ST) as (OK & Su & RO).
  assert (H : linked P tn (used_m r (fun v => Qfloor (x v))) t) by (eapply all_linked; eauto; now apply le_floor).
  induction H as [y Hy|m md t' [Rm Wm] Em _ IH It]; [now constructor|]. econstructor; [|exact Em| |exact It]; [split; auto; now apply le_floor|]. apply IH.
  - destruct (method_parts _ _ _ _ _ _ _ _ _ _ DI m Rm) as (md' & Em' & Rt' & _). assert (md' = md) by congruence. now subst.
  - assert (H : taskReachable r (m_task md) = true /\ 1 <= Qfloor (x (UA (m_task md)))); [|destruct H; apply le_floor; auto]. eapply (method_task _ _ _ _ _ _ _ _ _ _ DI SC Pr OK Su RO V o cs lms J J' (fun v => Qfloor (x v))); eauto. split; auto.
Qed.

Lemma recursive_in P SC t k : sccs_ok (task_graph P) SC -> nth_error (s_of SC) t = Some (Some k) -> In k (s_cyclic SC) -> recursive P t.
Proof.
  intros OK Hk CY. apply (so_cyclic _ _ OK) in CY as (_ & v & w & Hv & ED & RC). destruct (proj1 (c_same _ _ _ _ (so_comp _ _ OK) t v k k Hk Hv) eq_refl) as [R1 R2].
  assert (TR : forall a b c, reach (task_graph P) a b -> reach (task_graph P) b c -> reach (task_graph P) a c) by (induction 1; intros; auto; econstructor; eauto).
  inversion R1 as [|t0 t' v0 ED' R']; subst; [exists w; auto|]. exists t'. split; auto. eapply TR; eauto.
Qed.

(** C194: the heuristic is admissible with these constraints as well, for solutions in which each recursive task occurs at most 100 times. *)
Theorem tdg_admissible : forall al P T q0 s R r tn L C V o cs lms SC Pr ms plan ip out h,
  dof_input al P T q0 s R r tn L C -> scc_tables P SC Pr -> solves_by P (holds s) tn ms plan ->
  (o_pg o <> PgNone -> forall a, (count_occ Nat.eq_dec plan a <= 100)%nat) ->
  (forall t, recursive P t -> (count_occ Nat.eq_dec (map (t_lab tn) L) t + produced P ms t <= 100)%nat) -> Z.of_nat (length plan) <= INT_MAX -> Z.of_nat (length ms) <= INT_MAX ->
  (forall c, In c cs -> hit ms plan c) -> (forall e, In e lms -> met P (holds s) tn ms plan e) -> (o_net o = true -> vars_ok P V /\ sas_ok P V) ->
  tdg_model P V o SC Pr r s C (Some cs) lms = Some out -> dof_value ip out h ->
  exists v, h = Some v /\ v <= Z.of_nat (match o_setting o with Optimal => plan_cost P plan | Satisficing => length plan + length ms end).
Proof.
  intros al P T q0 s R r tn L C V o cs lms SC Pr ms plan ip out h DI ST SO H100 HR LP LM HC HL HV E HD. unfold tdg_model in E. apply obind_some in E as (out0 & E0 & E).
  destruct out0 as [| |J]; [injection E as <-; eapply dof_admissible; eauto|injection E as <-; eapply dof_admissible; eauto|]. apply obind_some in E as (J' & EJ' & E). injection E as <-.
  destruct (tables_ok P SC Pr (pi_wp _ _ _ _ _ _ (di_pg _ _ _ _ _ _ _ _ _ _ DI)) ST) as (OK & Su & RO).
  assert (EJ : dof_ilp P V o r s C cs lms = Some J).
  { unfold dof_model in E0. apply obind_some in E0 as (gs & _ & E0). destruct (negb (forallb (fun b => b) gs)); [discriminate|]. destruct (negb (forallb _ C)); [discriminate|]. destruct C; [discriminate|]. apply obind_some in E0 as (J0 & EJ & E0). injection E0 as <-. exact EJ. }
  destruct (z2_feasible _ _ _ _ _ _ _ _ _ _ DI SC Pr OK Su RO ms plan SO V o cs lms J J' H100 (fun t k Hk CY => HR t (recursive_in P SC t k OK Hk CY)) LP LM HC HL HV EJ EJ') as [F OB].
  apply (zfeasible_feasible ip) in F. cbn [dof_value] in HD.
  assert (OB2 : zval (z P tn L ms plan) (i_obj J) = Z.of_nat (measure P ms plan o)).
  { unfold dof_ilp in EJ. apply obind_some in EJ as (vs & E1 & EJ). apply obind_some in EJ as (ob & E2 & EJ). apply obind_some in EJ as (pc & E3 & EJ). apply obind_some in EJ as (hc & E4 & EJ).
    apply obind_some in EJ as (lc & E5 & EJ). apply obind_some in EJ as (nc & E6 & EJ). injection EJ as <-. cbn [i_obj]. eapply z_obj; eauto. }
  inversion HD as [N|x Fx M]; subst; [now elim (N _ F)|]. eexists. split; [reflexivity|]. change (match o_setting o with Optimal => plan_cost P plan | Satisficing => (length plan + length ms)%nat end) with (measure P ms plan o).
  apply round_le; [|lia]. rewrite <- OB2, <- OB. eapply Qle_trans; [apply (M _ F)|]. apply Qle_lteq. right. apply value_zval. intros v. reflexivity.
Qed.

(** C195: the constraints are built without access outside an array, from declared variables only. *)
Theorem tdg_defined : forall al P T q0 s R r tn L C V o cuts lms SC Pr,
  dof_input al P T q0 s R r tn L C -> scc_tables P SC Pr -> (o_net o = true -> vars_ok P V) -> (forall f, In (EF f) lms -> (f < p_nfacts P)%nat) ->
  exists out, tdg_model P V o SC Pr r s C cuts lms = Some out /\ forall J, out = Solve J -> forall c k v, In c (i_cons J) -> In (k, v) (l_terms c) -> In v (map fst (i_vars J)).
Proof.
  intros al P T q0 s R r tn L C V o cuts lms SC Pr DI ST HV HL. destruct (dof_defined _ _ _ _ _ _ _ _ _ _ V o cuts lms DI HV HL) as (out & E & HJ). unfold tdg_model. rewrite E. cbn [obind].
  destruct out as [| |J]; [eexists; split; [reflexivity|discriminate]|eexists; split; [reflexivity|discriminate]|]. destruct (HJ J eq_refl) as (_ & _ & HC).
  destruct (tables_ok P SC Pr (pi_wp _ _ _ _ _ _ (di_pg _ _ _ _ _ _ _ _ _ _ DI)) ST) as (OK & Su & RO).
  destruct (tdg_ilp_eq _ _ _ _ _ _ _ _ _ _ DI SC Pr OK Su RO J) as (J' & l & E' & El & E1 & _ & E3). rewrite E'. cbn [obind]. eexists. split; [reflexivity|]. intros J2 Q. injection Q as <-. intros c k v Hc Hv. rewrite E1, map_app. apply in_or_app.
  rewrite E3 in Hc. apply in_app_iff in Hc as [Hc|Hc]; [left; eapply HC; eauto|]. apply in_flat_map in Hc as ([vs cs'] & Il & Hc). pose proof Il as Il0. apply (omap_in _ _ _ El) in Il as (kk & Hk & Ek).
  assert (NV : forall v, In v (map fst vs) -> In v (map fst (flat_map fst l))) by (intros y Hy; apply in_map_iff in Hy as (b & <- & Hb); apply in_map; apply in_flat_map; exists (vs, cs'); auto).
  assert (EJ : exists cs0, dof_ilp P V o r s C cs0 lms = Some J).
  { unfold dof_model in E. destruct cuts as [cs0|]; [|discriminate]. apply obind_some in E as (gs & _ & E). destruct (negb (forallb (fun b => b) gs)); [discriminate|]. destruct (negb (forallb _ C)); [discriminate|]. destruct C; [discriminate|]. apply obind_some in E as (J0 & EJ & E). injection E as <-. eauto. }
  destruct EJ as (cs0 & EJ). assert (OMV : forall m, methodReachable r m = true -> In (MV m) (map fst (i_vars J))) by (intros m Hm; apply memb_In in Hm; unfold dof_ilp in EJ; apply obind_some in EJ as (vs0 & E10 & EJ); apply obind_some in EJ as (ob & E20 & EJ); apply obind_some in EJ as (pc & E30 & EJ);
    apply obind_some in EJ as (hc & E40 & EJ); apply obind_some in EJ as (lc & E50 & EJ); apply obind_some in EJ as (nc & E60 & EJ); injection EJ as <-; cbn [i_vars]; change (MV m) with (fst (MV m, (0, INT_MAX))); apply in_map; eapply decl_mv; eauto).
  assert (OUA : forall m, taskReachable r m = true -> In (UA m) (map fst (i_vars J))) by (intros m Hm; apply memb_In in Hm; unfold dof_ilp in EJ; apply obind_some in EJ as (vs0 & E10 & EJ); apply obind_some in EJ as (ob & E20 & EJ); apply obind_some in EJ as (pc & E30 & EJ);
    apply obind_some in EJ as (hc & E40 & EJ); apply obind_some in EJ as (lc & E50 & EJ); apply obind_some in EJ as (nc & E60 & EJ); injection EJ as <-; cbn [i_vars]; change (UA m) with (fst (UA m, (0, INT_MAX))); apply in_map; eapply decl_ua; eauto).
  destruct (tdg_scc_eq _ _ _ _ _ _ _ _ _ _ DI SC Pr OK Su RO kk Hk) as (fs & vs' & cs2 & Es & _ & EV' & EC'). assert (H1 : vs' = vs) by congruence. assert (H2 : cs2 = cs') by congruence. rewrite H1 in EV'. rewrite H2 in EC'. clear H1 H2 Es Ek.
  cbn [snd] in Hc. rewrite EC' in Hc. clear EC'. set (ts := filter (taskReachable r) (members (s_of SC) kk)) in *. set (n := (length (members (s_of SC) kk) - 1)%nat) in *.
  assert (DR : forall i t, (i <= n)%nat -> In t ts -> In (RV i t) (map fst vs)).
  { intros i t Li Ht. rewrite EV', map_app. apply in_or_app. destruct i as [|i]; [left; apply in_map_iff; exists (RV 0 t, (0, INT_MAX)); split; auto; apply in_map_iff; eauto|]. right. apply in_map_iff. exists (RV (S i) t, (0, INT_MAX)). split; auto.
    apply in_flat_map. exists i. split; [apply in_seq; lia|]. apply in_flat_map. exists t. split; auto. now left. }
  assert (DV : forall i t2 t, (S i <= n)%nat -> In t2 ts -> In t ts -> In (IV (S i) t2 t) (map fst vs)).
  { intros i t2 t Li Ht2 Ht. rewrite EV', map_app. apply in_or_app. right. apply in_map_iff. exists (IV (S i) t2 t, (0, INT_MAX)). split; auto.
    apply in_flat_map. exists i. split; [apply in_seq; lia|]. apply in_flat_map. exists t2. split; auto. right. apply in_map_iff. eauto. }
  assert (MM : forall l0, In (k, v) (map (fun m => (1, MV m)) (filter (methodReachable r) l0)) -> In v (map fst (i_vars J))) by (intros l0 I; apply in_map_iff in I as (m & I & Hm); injection I as _ <-; apply filter_In in Hm as [_ Hm]; auto).
  apply in_app_iff in Hc as [Hc|Hc]; [|apply in_app_iff in Hc as [Hc|Hc]].
  - apply in_map_iff in Hc as (t & <- & Ht). cbn [below l_terms] in Hv. apply in_app_iff in Hv as [Hv|[Hv|[]]]; [left; eauto|]. injection Hv as _ <-. right. apply NV, DR; auto. lia.
  - apply in_flat_map in Hc as (i & Hi & Hc). apply in_seq in Hi. apply in_flat_map in Hc as (t & Ht & [<-|Hc]).
    + right. apply NV. unfold c10 in Hv. cbn [below l_terms app] in Hv. destruct Hv as [Hv|Hv]; [injection Hv as _ <-; apply DR; auto; lia|]. apply in_app_iff in Hv as [Hv|[Hv|[]]]; [|injection Hv as _ <-; apply DR; auto; lia].
      apply in_map_iff in Hv as (t2 & Hv & H2). injection Hv as _ <-. apply in_to_from in H2 as [H2 _]. apply DV; auto. lia.
    + apply in_flat_map in Hc as (t2 & H2 & [<-|[<-|[]]]).
      * right. apply NV. unfold c11 in Hv. cbn [below l_terms app] in Hv. destruct Hv as [Hv|[Hv|[]]]; injection Hv as _ <-; [apply DR|apply DV]; auto; lia.
      * unfold c12 in Hv. cbn [below l_terms] in Hv. apply in_app_iff in Hv as [Hv|[Hv|[]]]; [left; eauto|]. injection Hv as _ <-. right. apply NV, DV; auto. lia.
  - apply in_map_iff in Hc as (t & <- & Ht). unfold c13 in Hv. cbn [below l_terms app] in Hv. destruct Hv as [Hv|[Hv|[]]]; injection Hv as _ <-; [right; apply NV, DR; auto|left]. apply filter_In in Ht as [_ Ht]. auto.
Qed.

(** Problems without facts in which every task is reachable. *)
Lemma walk G a b c : In b (nth a G []) -> (a < length G)%nat -> reach G b c -> reach G a c.
Proof. intros I L R. eapply reach_step; [|exact R]. exists (nth a G []). split; auto. now apply nth_error_nth'. Qed.

Module Ex.
  Notation al := Relax_thm.Ex.al.
  Notation q0 := Relax_thm.Ex.q0.
  (** Action 0; task 1 becomes 0 2 or 0 3, task 2 becomes 0 0 or 0 2, task 3 becomes 0 4, task 4 becomes 0 3 or 0 0. The components {2} and {3, 4} are cyclic. *)
  Definition P : problem :=
    {| p_nfacts := 0; p_prim := [true; false; false; false; false]; p_prec := [[]]; p_add := [[]]; p_del := [[]]; p_cost := [1]%nat;
       p_methods := [two 1 0 2; two 1 0 3; two 2 0 0; two 2 0 2; two 3 0 4; two 4 0 3; two 4 0 0]; p_init := 1; p_s0 := []; p_goal := [] |}.
  Definition T : pg_tables := Eval vm_compute in match tables_of P with Some T => T | None => {| t_p2a := []; t_precless := []; t_stm := []; t_nst := [] |} end.
  Definition s : list bool := [].
  Definition R : list bool := repeat true 5.
  Definition r : pg_result := Eval vm_compute in match calcReachability al P T q0 s R with Some r => r | None => {| r_prop := []; r_op := []; r_tasks := []; r_meths := []; r_useful := [] |} end.
  Lemma wf : wf_problem P.
  Proof. apply problem_check_ok. vm_compute. reflexivity. Qed.
  Lemma input : dof_input al P T q0 s R r (initial_network P) [[]] [(1, 1)].
  Proof.
    apply init_input.
    - constructor; auto using Relax_thm.Ex.al_ok, Relax_thm.Ex.q0_ok, wf.
      + destruct (tables_of_wf P wf ltac:(vm_compute; lia)) as (T' & E & W); [|vm_compute in E; injection E as <-; exact W]. intros l H. repeat (destruct H as [<-|H]; [repeat constructor; cbn; intuition lia|]). destruct H.
      + intros c H. repeat (destruct H as [<-|H]; [unfold INT_MAX; lia|]). destruct H.
    - vm_compute. reflexivity.
    - intros v H. repeat (destruct H as [<-|H]; [unfold INT_MAX; lia|]). destruct H.
    - intros t H. cbn in H. do 1 (destruct t as [|t]; [reflexivity|]). lia.
    - intros t H. cbn in H. do 5 (destruct t as [|t]; [reflexivity|]). lia.
  Qed.
  Definition SC : sccs := Eval vm_compute in match calcSCCs (task_graph P) 1 (repeat 0%nat 5) (repeat 0%nat 5) with Some C => C | None => {| s_of := []; s_num := 0; s_size := []; s_tasks := []; s_cyclic := [] |} end.
  Definition Su : list (list nat) := Eval vm_compute in match scc_graph (task_graph P) SC with Some (a, _) => a | None => [] end.
  Definition Pr : list (list nat) := Eval vm_compute in match scc_graph (task_graph P) SC with Some (_, b) => b | None => [] end.
  Lemma conn : Reach_thm.connected P.
  Proof.
    intros t Lt. apply occurs_reach; [exact wf|cbn; lia|]. cbn in Lt. change (p_init P) with 1%nat. destruct t as [|[|[|[|[|t]]]]]; [| | | | |lia].
    - apply (walk _ 1 0 0); [vm_compute; tauto|vm_compute; lia|apply reach_refl].
    - apply reach_refl.
    - apply (walk _ 1 2 2); [vm_compute; tauto|vm_compute; lia|apply reach_refl].
    - apply (walk _ 1 3 3); [vm_compute; tauto|vm_compute; lia|apply reach_refl].
    - apply (walk _ 1 3 4); [vm_compute; tauto|vm_compute; lia|]. apply (walk _ 3 4 4); [vm_compute; tauto|vm_compute; lia|apply reach_refl].
  Qed.
  Lemma tables : scc_tables P SC Pr.
  Proof. exists (repeat 0%nat 5), (repeat 0%nat 5), Su. split; [exact conn|]. repeat split; vm_compute; reflexivity. Qed.
  Example cyclic : map (fun k => nth k (s_tasks SC) []) (s_cyclic SC) = [[3; 4]; [2]]%nat.
  Proof. reflexivity. Qed.
  Definition o : dof_opts := {| o_setting := Optimal; o_pg := PgNone; o_net := false |}.
  Definition J : ilp := Eval vm_compute in match dof_ilp P [] o r s [(1, 1)] [] [] with Some J => J | None => {| i_vars := []; i_obj := []; i_cons := [] |} end.
  Definition J' : ilp := Eval vm_compute in match tdg_ilp P SC Pr r [(1, 1)] J with Some J => J | None => {| i_vars := []; i_obj := []; i_cons := [] |} end.
  Lemma model : tdg_model P [] o SC Pr r s [(1, 1)] (Some []) [] = Some (Solve J').
  Proof. vm_compute. reflexivity. Qed.
  (** The plan 0 0 0 by way of task 2 together with the cycle of the tasks 3 and 4: it meets the constraints without cTdgFull (each use of 3 produces a 4 and conversely), not those with it. *)
  Definition w (v : var) : Z := match v with UA 0 => 5 | UA 1 => 1 | UA 2 => 1 | UA 3 => 1 | UA 4 => 1 | MV 0 => 1 | MV 2 => 1 | MV 4 => 1 | MV 5 => 1 | RV _ 2 => 1 | _ => 0 end.
  Ltac feas := apply zfeasible_feasible; split;
    [intros v lo hi H; cbn [i_vars J J'] in H; repeat (destruct H as [H|H]; [injection H as <- <- <-; vm_compute; split; discriminate|]); destruct H
    |apply Forall_forall; cbn [i_cons J J']; repeat (apply Forall_cons; [vm_compute; first [reflexivity|discriminate]|]); constructor].
  Example cycle_before : feasible true J (fun v => inject_Z (w v)).
  Proof. feas. Qed.
  Example cycle_after : ~ feasible true J' (fun v => inject_Z (w v)).
  Proof.
    intros F. pose proof (tdg_connected al P T q0 s R r (initial_network P) [[]] [(1, 1)] [] o [] [] SC Pr J J' _ input tables eq_refl eq_refl F 3%nat ltac:(split; [reflexivity|vm_compute; discriminate])) as H.
    assert (N : forall t, linked P (initial_network P) (fun m => methodReachable r m = true /\ Qle 1 (inject_Z (w (MV m)))) t -> (t <= 2)%nat).
    { induction 1 as [y Hy|m md t [Rm Wm] Em _ IH It]; [cbn; lia|]. destruct m as [|[|[|[|[|[|[|m]]]]]]]; cbn in Em; try (destruct m; discriminate); injection Em as <-; cbn in IH, It; try lia; try (vm_compute in Wm; now elim Wm); destruct It as [<-|[<-|[]]]; lia. }
    apply N in H. lia.
  Qed.
  (** The plan alone. *)
  Definition w2 (v : var) : Z := match v with UA 0 => 3 | UA 1 => 1 | UA 2 => 1 | MV 0 => 1 | MV 2 => 1 | RV _ 2 => 1 | _ => 0 end.
  Lemma w2_feasible : feasible true J' (fun v => inject_Z (w2 v)).
  Proof. feas. Qed.
  Example connected2 : linked P (initial_network P) (fun m => methodReachable r m = true /\ Qle 1 (inject_Z (w2 (MV m)))) 2.
  Proof. apply (tdg_connected al P T q0 s R r (initial_network P) [[]] [(1, 1)] [] o [] [] SC Pr J J' _ input tables eq_refl eq_refl w2_feasible 2%nat). split; [reflexivity|vm_compute; discriminate]. Qed.
  Lemma runs : forall n (st : state), executable P st (repeat 0%nat n).
  Proof. induction n as [|n IH]; intros st; cbn [repeat executable]; auto. split; auto. intros f (l & E & I). injection E as <-. destruct I. Qed.
  Lemma solved : exists ms, solves_by P (holds s) (initial_network P) ms [0; 0; 0]%nat.
  Proof.
    apply solves_solves_by. assert (S : solution P [0; 0; 0]%nat).
    { apply derives_solution; [exact wf|intros m H; assert (exists t a b, m = two t a b) as (t & a & b & ->) by (cbn in H; intuition (subst; eauto)); exists [0; 1]%nat; apply total2|].
      split; [|split; [apply (runs 3)|intros f []]]. exists 2%nat. apply (derives2 P 1 1 0 2 [0%nat] [0; 0]%nat); [now left|left; split; reflexivity|]. apply (derives2 P 0 2 0 0 [0%nat] [0%nat]); [cbn; auto|left; split; reflexivity|left; split; reflexivity]. }
    destruct S as (tn' & L & RF & PR & LI & E & EX & GO). exists tn', L. split; [exact RF|]. split; [exact PR|]. split; [exact LI|]. split; [exact E|]. split; [apply (runs 3)|intros f []].
  Qed.
  (** Hence the value is at most 3. *)
  Example bound h ip : dof_value ip (Solve J') h -> exists v, h = Some v /\ v <= 3.
  Proof.
    intros H. destruct solved as (ms & SO). assert (LM : (length ms <= 3)%nat).
    { pose proof (u_act _ _ _ _ _ _ _ _ _ _ input ms [0; 0; 0]%nat SO 0%nat ltac:(cbn; lia)) as K. unfold u in K. assert (G : (length ms <= produced P ms 0)%nat).
      { assert (M : forall i, In i ms -> (i < 7)%nat) by (destruct SO as (tn' & L & RF & _); intros i Hi; apply (refines_by_methods _ _ _ _ RF) in Hi; exact Hi). clear -M. unfold produced. induction ms as [|i l IH]; cbn [length map]; [lia|]. rewrite sum_cons.
        assert (1 <= count_occ Nat.eq_dec (subs_of P i) 0)%nat by (pose proof (M i (or_introl eq_refl)); do 7 (destruct i as [|i]; [vm_compute; lia|]); lia). specialize (IH (fun j Hj => M j (or_intror Hj))). lia. }
      change (count_occ Nat.eq_dec [0; 0; 0]%nat 0%nat) with 3%nat in K. lia. }
    destruct (tdg_admissible al P T q0 s R r (initial_network P) [[]] [(1, 1)] [] o [] [] SC Pr ms [0; 0; 0]%nat ip (Solve J') h input tables SO) as (v & E & B); auto.
    - intros X. now elim X.
    - intros t _. destruct t as [|t].
      + pose proof (u_act _ _ _ _ _ _ _ _ _ _ input ms [0; 0; 0]%nat SO 0%nat ltac:(cbn; lia)) as K. unfold u in K. change (count_occ Nat.eq_dec [0; 0; 0]%nat 0%nat) with 3%nat in K. lia.
      + pose proof (u_abs _ _ _ _ _ _ _ _ _ _ input ms [0; 0; 0]%nat SO (S t) ltac:(cbn; lia)) as K. pose proof (consumed_le P ms (S t)). unfold u in K. lia.
    - vm_compute. discriminate.
    - unfold INT_MAX. lia.
    - intros c [].
    - intros e [].
    - intros X. discriminate X.
    - exists v. split; auto.
  Qed.
End Ex.

Module R.
  Notation al := Relax_thm.Ex.al.
  Notation q0 := Relax_thm.Ex.q0.
  (** Action 0; task 1 becomes a sequence of 101 tasks 2; task 2 becomes 0 0 or 0 2. *)
  Definition many : method := {| m_task := 1; m_subs := repeat 2%nat 101; m_ord := map (fun i => (i, S i)) (seq 0 100) |}.
  Definition P : problem :=
    {| p_nfacts := 0; p_prim := [true; false; false]; p_prec := [[]]; p_add := [[]]; p_del := [[]]; p_cost := [1]%nat;
       p_methods := [many; two 2 0 0; two 2 0 2]; p_init := 1; p_s0 := []; p_goal := [] |}.
  Definition T : pg_tables := Eval vm_compute in match tables_of P with Some T => T | None => {| t_p2a := []; t_precless := []; t_stm := []; t_nst := [] |} end.
  Definition s : list bool := [].
  Definition R : list bool := repeat true 3.
  Definition r : pg_result := Eval vm_compute in match calcReachability al P T q0 s R with Some r => r | None => {| r_prop := []; r_op := []; r_tasks := []; r_meths := []; r_useful := [] |} end.
  Lemma wf : wf_problem P.
  Proof. apply problem_check_ok. vm_compute. reflexivity. Qed.
  Lemma input : dof_input al P T q0 s R r (initial_network P) [[]] [(1, 1)].
  Proof.
    apply init_input.
    - constructor; auto using Relax_thm.Ex.al_ok, Relax_thm.Ex.q0_ok, wf.
      + destruct (tables_of_wf P wf ltac:(vm_compute; lia)) as (T' & E & W); [|vm_compute in E; injection E as <-; exact W]. intros l H. repeat (destruct H as [<-|H]; [repeat constructor; cbn; intuition lia|]). destruct H.
      + intros c H. repeat (destruct H as [<-|H]; [unfold INT_MAX; lia|]). destruct H.
    - vm_compute. reflexivity.
    - intros v H. repeat (destruct H as [<-|H]; [unfold INT_MAX; lia|]). destruct H.
    - intros t H. cbn in H. do 1 (destruct t as [|t]; [reflexivity|]). lia.
    - intros t H. cbn in H. do 3 (destruct t as [|t]; [reflexivity|]). lia.
  Qed.
  Definition SC : sccs := Eval vm_compute in match calcSCCs (task_graph P) 1 (repeat 0%nat 3) (repeat 0%nat 3) with Some C => C | None => {| s_of := []; s_num := 0; s_size := []; s_tasks := []; s_cyclic := [] |} end.
  Definition Su : list (list nat) := Eval vm_compute in match scc_graph (task_graph P) SC with Some (a, _) => a | None => [] end.
  Definition Pr : list (list nat) := Eval vm_compute in match scc_graph (task_graph P) SC with Some (_, b) => b | None => [] end.
  Lemma conn : Reach_thm.connected P.
  Proof.
    intros t Lt. apply occurs_reach; [exact wf|cbn; lia|]. cbn in Lt. change (p_init P) with 1%nat. destruct t as [|[|[|t]]]; [| | |lia].
    - apply (walk _ 1 2 0); [vm_compute; tauto|vm_compute; lia|]. apply (walk _ 2 0 0); [vm_compute; tauto|vm_compute; lia|apply reach_refl].
    - apply reach_refl.
    - apply (walk _ 1 2 2); [vm_compute; tauto|vm_compute; lia|apply reach_refl].
  Qed.
  Lemma tables : scc_tables P SC Pr.
  Proof. exists (repeat 0%nat 3), (repeat 0%nat 3), Su. split; [exact conn|]. repeat split; vm_compute; reflexivity. Qed.
  Definition o : dof_opts := {| o_setting := Optimal; o_pg := PgNone; o_net := false |}.
  Definition J : ilp := Eval vm_compute in match dof_ilp P [] o r s [(1, 1)] [] [] with Some J => match tdg_ilp P SC Pr r [(1, 1)] J with Some J' => J' | None => J end | None => {| i_vars := []; i_obj := []; i_cons := [] |} end.
  Lemma model : tdg_model P [] o SC Pr r s [(1, 1)] (Some []) [] = Some (Solve J).
  Proof. vm_compute. reflexivity. Qed.
  Definition plan : list nat := concat (repeat [0; 0]%nat 101).
  Lemma chain : forall a b, (a < b <= 100)%nat -> m_lt many a b.
  Proof.
    intros a b. induction b as [|b IH]; intros H; [lia|]. assert (ST : m_lt many b (S b)) by (apply t_step || constructor; cbn [m_ord many]; apply in_map_iff; exists b; split; auto; apply in_seq; lia).
    destruct (Nat.eq_dec a b) as [->|]; auto. eapply Relation_Operators.t_trans; [apply IH; lia|exact ST].
  Qed.
  Lemma total_many : total_seq many (seq 0 101).
  Proof.
    split; [apply seq_NoDup|]. split; [intros j; rewrite in_seq; change (length (m_subs many)) with 101%nat; lia|]. intros l1 a l2 b E Hb. apply chain.
    assert (SQ : forall n k l1 a l2 b, seq k n = l1 ++ a :: l2 -> In b l2 -> (a < b < k + n)%nat).
    { clear. induction n as [|n IH]; intros k l1 a l2 b E Hb; cbn in E; [destruct l1; discriminate|]. destruct l1 as [|c l1]; cbn in E; injection E as <- E; [rewrite <- E in Hb; apply in_seq in Hb; lia|]. specialize (IH (S k) l1 a l2 b E Hb). lia. }
    specialize (SQ _ _ _ _ _ _ E Hb). lia.
  Qed.
  Lemma derived : derives P 2 1 plan.
  Proof.
    right. exists many, (seq 0 101), (repeat [0; 0]%nat 101). split; [now left|]. split; auto. split; [exact total_many|]. split; [|reflexivity].
    assert (D : derives P 1 2 [0; 0]%nat) by (apply (derives2 P 0 2 0 0 [0%nat] [0%nat]); [cbn; auto|left; split; reflexivity|left; split; reflexivity]).
    assert (G : forall n k, (k + n <= 101)%nat -> Forall2 (fun j p => exists u, nth_error (m_subs many) j = Some u /\ derives P 1 u p) (seq k n) (repeat [0; 0]%nat n)).
    { induction n as [|n IH]; intros k Lk; cbn [seq repeat]; constructor; [|apply IH; lia]. exists 2%nat. split; [|exact D]. apply nth_error_repeat. lia. }
    apply G. lia.
  Qed.
  Lemma runs : forall n (st : state), executable P st (repeat 0%nat n).
  Proof. induction n as [|n IH]; intros st; cbn [repeat executable]; auto. split; auto. intros f (l & E & I). injection E as <-. destruct I. Qed.
  Lemma has_solution : solution P plan.
  Proof.
    apply derives_solution; [exact wf| |].
    - intros m [<-|H]; [eexists; exact total_many|]. assert (exists t a b, m = two t a b) as (t & a & b & ->) by (cbn in H; intuition (subst; eauto)). exists [0; 1]%nat. apply total2.
    - split; [exists 2%nat; exact derived|]. split; [|intros f []]. change plan with (repeat 0%nat 202). apply runs.
  Qed.
  Lemma infeasible ip x : ~ feasible ip J x.
  Proof.
    intros (F1 & F2 & F3). assert (B : Qle 0 (x (MV 2))) by (apply (F2 (MV 2) 0 INT_MAX); vm_compute; tauto). clear F1 F2.
    apply Forall_forall in F3; cbn [i_cons J] in F3; repeat (apply Forall_cons_iff in F3 as [?C F3]); unfold sat in *; cbn [l_rel l_terms l_rhs value fold_right] in *; unfold inject_Z in *. lra.
  Qed.
End R.

(** C196 (refuted): with these constraints the heuristic rejects no solvable problem. A recursive task is used at most 100 times per use of a method that introduces it (hhDOfree.cpp 773), even if the method
    contains the task more often: the program is then infeasible and the initial node is rejected, without cuts, landmarks, planning graph or net change constraints. *)
Definition tdg_rejects_unsolvable : Prop := forall al P T q0 s R r L C o SC Pr ip out plan,
  dof_input al P T q0 s R r (initial_network P) L C -> scc_tables P SC Pr -> (forall f, holds s f <-> initial_state P f) -> o_net o = false -> o_pg o = PgNone ->
  solution P plan -> Z.of_nat (length plan) <= INT_MAX -> tdg_model P [] o SC Pr r s C (Some []) [] = Some out -> ~ dof_value ip out None.
Theorem tdg_rejects_unsolvable_refuted : ~ tdg_rejects_unsolvable.
Proof.
  intros H. apply (H _ _ _ _ _ _ _ _ _ R.o _ _ true (Solve R.J) R.plan R.input R.tables); [|reflexivity|reflexivity|exact R.has_solution|vm_compute; discriminate|exact R.model|].
  - intros f. split; [|intros []]. unfold holds. destruct f; discriminate.
  - apply sr_none. apply R.infeasible.
Qed.

Print Assumptions tdg_connected.
Print Assumptions tdg_admissible.
Print Assumptions tdg_defined.
Print Assumptions tdg_rejects_unsolvable_refuted.
