(** Theorems about the implications between landmarks in the ILP heuristic, hhDOfree.cpp with cAndOrLmsFull (C197-C200, C206). Proofs are in Imp_proof. *)
From Coq Require Import QArith Qround Lqa.
From Verif Require Import Base Htn_problem Htn_spec Htn_sem Htn_check Heap_model IntUtil_model To_spec To_sem Tab_model Tab_thm Pg_model Pg_spec Pg_proof Pg_thm Rc_spec Rc_proof Lm_model Lm_spec Lm_proof Lm_graph Lm_thm Scc_spec Scc_model Reach_proof ReachHeap_proof Reach_thm Dof_spec Dof_model Dof_count Dof_proof Dof_net Dof_main Dof_sol Dof_relax Dof_thm Tdg_spec Tdg_model Tdg_proof Tdg_thm Imp_model Imp_proof.
Import Rc_spec.
Local Open Scope Z_scope.

(** The landmarks are those that LmCausal computes with the planning graph. *)
Definition lm_tables (P : problem) (s : list bool) (r : pg_result) (x : lmst) : Prop := exists al precless dst scc mm, lm_input al P precless dst scc s mm /\ calcLMs al P precless dst scc s (reach_pg P r) mm = Some x.
Definition comp_tables (P : problem) (K : option (sccs * list (list nat))) : Prop := match K with None => True | Some (SC, Pr) => scc_tables P SC Pr end.

Lemma tables_iter al P T q0 s R r tn L C x : dof_input al P T q0 s R r tn L C -> lm_tables P s r x -> forall e, exists_elem P e ->
  exists ys, lm_iter P (l_nodes x) e = Some ys /\ forall y, In y ys <-> exists_elem P y /\ attributed (l_nodes x) (code P e) (code P y).
Proof.
  intros DI (al' & precless & dst & scc & mm & IN & E) e X. destruct (calc_spec al' P precless dst scc s (reach_pg P r) (holds R) mm IN) as (x' & E' & LN & O & _); [eapply rch_pg; try apply DI; apply IN|].
  assert (x' = x) by congruence. subst x'. now apply iter_spec.
Qed.
Lemma tables_sound al P T q0 s R r tn L C x : dof_input al P T q0 s R r tn L C -> lm_tables P s r x -> forall e ys y, In e (imp_elems r) -> lm_iter P (l_nodes x) e = Some ys -> In y ys -> landmark P (holds s) (holds R) e y.
Proof.
  intros DI LT e ys y He Ey Hy. pose proof (elems_exist _ _ _ _ _ _ _ _ _ _ DI e He) as X. destruct (tables_iter _ _ _ _ _ _ _ _ _ _ _ DI LT e X) as (ys' & E1 & H1). assert (ys' = ys) by congruence. subst ys'. apply H1 in Hy as [Y A].
  destruct LT as (al' & precless & dst & scc & mm & IN & E). destruct (lm_pg al' P precless dst scc s mm al T q0 R r x IN (di_pg _ _ _ _ _ _ _ _ _ _ DI) (di_calc _ _ _ _ _ _ _ _ _ _ DI) (di_int _ _ _ _ _ _ _ _ _ _ DI) E) as (S & _). eauto.
Qed.

(** C197: the heuristic is admissible with the implications, for solutions in which each task and each method occurs at most 100 times. *)
Theorem imp_admissible : forall al P T q0 s R r tn L C V o K cs lms x ms plan ip out h,
  dof_input al P T q0 s R r tn L C -> comp_tables P K -> lm_tables P s r x -> solves_by P (holds s) tn ms plan ->
  (forall t, (count_occ Nat.eq_dec (map (t_lab tn) L) t + produced P ms t <= 100)%nat) -> (forall m, (count_occ Nat.eq_dec ms m <= 100)%nat) ->
  Z.of_nat (length plan) <= INT_MAX -> Z.of_nat (length ms) <= INT_MAX ->
  (forall c, In c cs -> hit ms plan c) -> (forall e, In e lms -> met P (holds s) tn ms plan e) -> (o_net o = true -> vars_ok P V /\ sas_ok P V) ->
  imp_model P V o K r s C (Some cs) lms (lm_iter P (l_nodes x)) = Some out -> dof_value ip out h ->
  exists v, h = Some v /\ v <= Z.of_nat (match o_setting o with Optimal => plan_cost P plan | Satisficing => length plan + length ms end).
Proof.
  intros al P T q0 s R r tn L C V o K cs lms x ms plan ip out h DI CT LT SO HU HM LP LM HC HL HV E HD.
  assert (H100 : forall a, (count_occ Nat.eq_dec plan a <= 100)%nat).
  { intros a. destruct (Nat.lt_ge_cases a (length (p_cost P))) as [La|La]; [rewrite <- (u_act _ _ _ _ _ _ _ _ _ _ DI ms plan SO a La); apply HU|].
    rewrite (proj1 (count_occ_not_In Nat.eq_dec plan a)); [lia|]. intros Ia. apply (plan_lt _ _ _ _ _ _ _ _ _ _ DI ms plan SO) in Ia. lia. }
  unfold imp_model in E. apply obind_some in E as (out0 & E0 & E).
  assert (ZE : out0 = out -> exists v, h = Some v /\ v <= Z.of_nat (match o_setting o with Optimal => plan_cost P plan | Satisficing => length plan + length ms end)).
  { intros ->. destruct K as [[SC Pr]|]; [eapply tdg_admissible; eauto|eapply dof_admissible; eauto]. }
  destruct out0 as [| |J1]; [apply ZE; congruence|apply ZE; congruence|]. clear ZE. apply obind_some in E as (J' & EJ' & E). injection E as <-. unfold imp_ilp in EJ'. apply obind_some in EJ' as (l & El & EJ'). injection EJ' as <-.
  assert (DJ : forall J, dof_model P V o r s C (Some cs) lms = Some (Solve J) -> dof_ilp P V o r s C cs lms = Some J).
  { intros J EM. unfold dof_model in EM. apply obind_some in EM as (gs & _ & EM). destruct (negb (forallb (fun b => b) gs)); [discriminate|]. destruct (negb (forallb _ C)); [discriminate|]. destruct C; [discriminate|]. apply obind_some in EM as (J0 & EJ & EM). injection EM as <-. exact EJ. }
  assert (OBZ : forall J, dof_ilp P V o r s C cs lms = Some J -> zval (z P tn L ms plan) (i_obj J) = Z.of_nat (measure P ms plan o)).
  { intros J EJ. unfold dof_ilp in EJ. apply obind_some in EJ as (vs & E1 & EJ). apply obind_some in EJ as (ob & E2 & EJ). apply obind_some in EJ as (pc & E3 & EJ). apply obind_some in EJ as (hc & E4 & EJ).
    apply obind_some in EJ as (lc & E5 & EJ). apply obind_some in EJ as (nc & E6 & EJ). injection EJ as <-. cbn [i_obj]. eapply z_obj; eauto. }
  assert (G : exists w, zfeasible J1 w /\ zval w (i_obj J1) = Z.of_nat (measure P ms plan o) /\ forall e, w (elem_var e) = z P tn L ms plan (elem_var e)).
  { destruct K as [[SC Pr]|].
    - unfold tdg_model in E0. apply obind_some in E0 as (out0 & EM & E0). destruct out0 as [| |J]; try discriminate. apply obind_some in E0 as (J2 & EJ2 & E0). assert (J2 = J1) by congruence. subst J2. apply DJ in EM.
      destruct (tables_ok P SC Pr (pi_wp _ _ _ _ _ _ (di_pg _ _ _ _ _ _ _ _ _ _ DI)) CT) as (OK & Su & RO).
      destruct (z2_feasible _ _ _ _ _ _ _ _ _ _ DI SC Pr OK Su RO ms plan SO V o cs lms J J1 (fun _ => H100) (fun t _ _ _ => HU t) LP LM HC HL HV EM EJ2) as [F OB].
      eexists. split; [exact F|]. split; [rewrite OB; auto|]. intros [f|t|m]; reflexivity.
    - apply DJ in E0. exists (z P tn L ms plan). split; [eapply z_feasible; eauto|]. split; auto. }
  destruct G as (w & [F1 F2] & OB & HW).
  assert (F : zfeasible {| i_vars := i_vars J1; i_obj := i_obj J1; i_cons := i_cons J1 ++ l |} w).
  { split; [exact F1|]. cbn [i_cons]. intros c Hc. apply in_app_iff in Hc as [Hc|Hc]; [auto|]. eapply (imp_ok _ _ _ _ _ _ _ _ _ _ DI ms plan SO w (lm_iter P (l_nodes x))); eauto. eapply tables_sound; eauto. }
  apply (zfeasible_feasible ip) in F. cbn [dof_value] in HD. inversion HD as [N|y Fy M]; subst; [now elim (N _ F)|]. eexists. split; [reflexivity|].
  change (match o_setting o with Optimal => plan_cost P plan | Satisficing => (length plan + length ms)%nat end) with (measure P ms plan o).
  apply round_le; [|lia]. cbn [i_obj]. rewrite <- OB. eapply Qle_trans; [apply (M _ F)|]. apply Qle_lteq. right. apply value_zval. intros v. reflexivity.
Qed.

(** A fact, task or method is used by an assignment. *)
Definition employs (r : pg_result) (x : var -> Q) (e : elem) : Prop :=
  match e with EF f => useful r f = true /\ Qle 1 (x (UF f)) | ET t => taskReachable r t = true /\ Qle 1 (x (UA t)) | EM m => methodReachable r m = true /\ Qle 1 (x (MV m)) end.

(** C198: an integral assignment that uses a task, a method or a useful fact uses all its landmarks; a fact landmark is used if it is useful and does not hold, and reachable in any case. *)
Theorem imp_enforced : forall al P T q0 s R r tn L C x J J' X e y,
  dof_input al P T q0 s R r tn L C -> lm_tables P s r x -> imp_ilp r s (lm_iter P (l_nodes x)) J = Some J' -> feasible true J' X ->
  employs r X e -> derivable P (holds s) (holds R) e -> exists_elem P y -> (forall f, y = EF f -> ~ holds s f) -> landmark P (holds s) (holds R) e y ->
  match y with EF f => factReachable r f = Some true /\ (useful r f = true -> employs r X y) | _ => employs r X y end.
Proof.
  intros al P T q0 s R r tn L C x J J' X e y DI LT EJ F EM DT Y NS LM. destruct (feasible_zfeasible J' X F) as [[_ FZ] EQ]. unfold imp_ilp in EJ. apply obind_some in EJ as (l & El & EJ). injection EJ as <-. cbn [i_cons] in FZ.
  assert (It : In e (imp_elems r) /\ Qle 1 (X (elem_var e))).
  { unfold imp_elems. destruct e as [f|t|m]; destruct EM as [Rt Ut]; (split; [|exact Ut]); rewrite !in_app_iff; [right; right|left|right; left]; apply in_map; now apply memb_In. }
  destruct It as [It Ut]. pose proof (elems_exist _ _ _ _ _ _ _ _ _ _ DI _ It) as Xt.
  destruct (tables_iter _ _ _ _ _ _ _ _ _ _ _ DI LT _ Xt) as (ys & Ey & Hys).
  assert (Iy : In y ys).
  { apply Hys. split; auto. destruct LT as (al' & precless & dst & scc & mm & IN & E). destruct (calc_spec al' P precless dst scc s (reach_pg P r) (holds R) mm IN) as (x' & E' & LN & O & D & _ & _ & CC); [eapply rch_pg; try apply DI; apply IN|].
    assert (x' = x) by congruence. subst x'. destruct DT as (W & H). apply (attributed_lms _ _ _ _ LN (O _ Xt)); [now apply code_lt|].
    assert (V : visible P s (reach_pg P r) e). { destruct e as [f|t|m]; cbn [visible]; auto. left. rewrite bat_pg by exact Xt. apply EM. }
    pose proof (D _ W H V) as FE. split; auto. apply CC; auto. intros (Q1 & Q2 & _). destruct y as [f|t'|m]; cbn [code] in *; try lia. apply (NS f eq_refl), bat_holds, Q2. }
  assert (K : forall l2 c, imp_con r s (elem_var e) y = Some l2 -> In c l2 -> zsat (fun v => Qfloor (X v)) c).
  { intros l2 c E2 Hc. apply FZ. apply in_or_app. right. unfold imp_cons in El. apply (oflat_some _ _ _ El). destruct (oflat (imp_con r s (elem_var e)) ys) as [l1|] eqn:E1.
    - exists e, l1. split; auto. rewrite Ey. cbn [obind]. split; auto. apply (oflat_some _ _ _ E1). eauto.
    - exfalso. clear -El It Ey E1. unfold oflat in El at 1. apply obind_some in El as (ls & El & _). revert ls El. induction (imp_elems r) as [|e' es IH]; intros ls El; [easy|]. cbn [omap] in El. apply obind_some in El as (a & Ea & El). apply obind_some in El as (b & Eb & El).
      destruct It as [->|It]; [rewrite Ey in Ea; cbn [obind] in Ea; congruence|eauto]. }
  apply le_floor in Ut; auto.
  assert (GE : forall v, zsat (fun v => Qfloor (X v)) (ge0 [(largeC, v); (-1, elem_var e)]) -> Qle 1 (X v)).
  { intros v Q. unfold zsat in Q. cbn [ge0 l_terms l_rel l_rhs] in Q. rewrite !zval_cons in Q. cbn [zval fold_right] in Q. apply le_floor; auto. unfold largeC in Q. lia. }
  assert (ZE : zsat (fun v => Qfloor (X v)) (eqc [(1, elem_var e)] 0) -> False) by (intros Q; unfold zsat in Q; cbn [eqc l_terms l_rel l_rhs] in Q; rewrite !zval_cons in Q; cbn [zval fold_right] in Q; lia).
  destruct y as [f|t'|m]; cbn [imp_con employs] in *.
  - cbn [exists_elem] in Y. assert (Es : get s f = Some false).
    { unfold get. destruct (nth_error s f) as [[|]|] eqn:Es; auto; [now elim (NS f eq_refl)|]. apply nth_error_None in Es. rewrite (pi_s _ _ _ _ _ _ (di_pg _ _ _ _ _ _ _ _ _ _ DI)) in Es. lia. }
    rewrite Es in K. cbn [obind negb andb] in K.
    assert (FD : exists b, factReachable r f = Some b).
    { pose proof (di_pg _ _ _ _ _ _ _ _ _ _ DI) as IN. pose proof (di_calc _ _ _ _ _ _ _ _ _ _ DI) as E. pose proof (calc_cases al P T q0 s R INT_MAX IN ltac:(unfold INT_MAX; lia) ltac:(intros c Hc; pose proof (pi_cost _ _ _ _ _ _ IN c Hc); lia)) as KK.
      rewrite E in KK. destruct KK as (D & last & x0 & u & I & -> & _). unfold factReachable. cbn [r_prop]. rewrite get_zat by (rewrite (i_lp _ _ _ _ _ _ _ _ _ _ I); auto). cbn [obind]. eauto. }
    split.
    + destruct DT as (W & DW). pose proof (LM W DW) as IW. destruct LT as (al' & precless & dst & scc & mm & IN & E).
      destruct (pg_complete al P T q0 s R r (di_pg _ _ _ _ _ _ _ _ _ _ DI) (di_calc _ _ _ _ _ _ _ _ _ _ DI) (di_int _ _ _ _ _ _ _ _ _ _ DI)) as (C1 & _). destruct FD as ([|] & FD); [exact FD|].
      destruct (useful r f) eqn:Uf; [|exfalso; rewrite FD in K; cbn [obind negb] in K; apply ZE; eapply K; [reflexivity|now left]].
      apply C1. assert (SUB : forall e0 W0, dv P (holds s) (holds R) e0 W0 -> forall y0, In y0 W0 -> exists W1, dv P (holds s) (holds R) y0 W1).
      { apply (dv_ind2 P (holds s) (holds R) (fun e0 W0 _ => forall y0, In y0 W0 -> exists W1, dv P (holds s) (holds R) y0 W1) (fun l0 W0 _ => forall y0, In y0 W0 -> exists W1, dv P (holds s) (holds R) y0 W1)).
        - intros g Hg y0 [<-|[]]. eexists. now apply dv_state.
        - intros a g W0 D0 IH A y0 [<-|Hy]; auto. eexists. eapply dv_add; eauto.
        - intros a l0 W0 E0 Ra D0 IH y0 [<-|Hy]; auto. eexists. eapply dv_act; eauto.
        - intros m md W0 E0 D0 IH y0 [<-|Hy]; auto. eexists. eapply dv_task; eauto.
        - intros m md W0 E0 Rm D0 IH y0 [<-|Hy]; auto. eexists. eapply dv_meth; eauto.
        - easy.
        - intros x1 l0 W0 V0 D0 IH0 D1 IH1 y0 Hy. apply in_app_iff in Hy as [Hy|Hy]; auto. }
      destruct (SUB _ _ DW _ IW) as (W1 & D1). apply (proj1 (dv_reach P precless dst (holds s) (holds R) (l_wp _ _ _ _ _ _ _ IN) (l_wf _ _ _ _ _ _ _ IN)) _ _ D1).
    + intros Uf. split; auto. rewrite Uf in K. apply GE. eapply K; [reflexivity|now left].
  - destruct (taskReachable r t'); [|exfalso; apply ZE; eapply K; [reflexivity|now left]]. split; auto. apply GE. eapply K; [reflexivity|now left].
  - destruct (methodReachable r m); [|exfalso; apply ZE; eapply K; [reflexivity|now left]]. split; auto. apply GE. eapply K; [reflexivity|now left].
Qed.

(** C199: the implications are built without access outside an array, from declared variables only. *)
Theorem imp_defined : forall al P T q0 s R r tn L C V o K cuts lms x,
  dof_input al P T q0 s R r tn L C -> comp_tables P K -> lm_tables P s r x -> (o_net o = true -> vars_ok P V) -> (forall f, In (EF f) lms -> (f < p_nfacts P)%nat) ->
  exists out, imp_model P V o K r s C cuts lms (lm_iter P (l_nodes x)) = Some out /\ forall J, out = Solve J -> forall c k v, In c (i_cons J) -> In (k, v) (l_terms c) -> In v (map fst (i_vars J)).
Proof.
  intros al P T q0 s R r tn L C V o K cuts lms x DI CT LT HV HL. unfold imp_model.
  assert (B : exists out, match K with None => dof_model P V o r s C cuts lms | Some (SC, Pr) => tdg_model P V o SC Pr r s C cuts lms end = Some out /\
    forall J, out = Solve J -> (forall e, In e (imp_elems r) -> In (elem_var e) (map fst (i_vars J))) /\ forall c k v, In c (i_cons J) -> In (k, v) (l_terms c) -> In v (map fst (i_vars J))).
  { assert (OLD : forall J, dof_model P V o r s C cuts lms = Some (Solve J) -> forall e, In e (imp_elems r) -> In (elem_var e) (map fst (i_vars J))).
    { intros J E e He. unfold dof_model in E. destruct cuts as [cs|]; [|discriminate]. apply obind_some in E as (gs & _ & E). destruct (negb (forallb (fun b => b) gs)); [discriminate|]. destruct (negb (forallb _ C)); [discriminate|]. destruct C; [discriminate|].
      apply obind_some in E as (J0 & EJ & E). injection E as <-. unfold dof_ilp in EJ. apply obind_some in EJ as (vs & E1 & EJ). apply obind_some in EJ as (ob & E2 & EJ). apply obind_some in EJ as (pc & E3 & EJ). apply obind_some in EJ as (hc & E4 & EJ).
      apply obind_some in EJ as (lc & E5 & EJ). apply obind_some in EJ as (nc & E6 & EJ). injection EJ as <-. cbn [i_vars]. unfold imp_elems in He. rewrite !in_app_iff in He. destruct He as [He|[He|He]]; apply in_map_iff in He as (k & <- & He); cbn [elem_var].
      - change (UA k) with (fst (UA k, (0, INT_MAX))). apply in_map. eapply decl_ua; eauto.
      - change (MV k) with (fst (MV k, (0, INT_MAX))). apply in_map. eapply decl_mv; eauto.
      - change (UF k) with (fst (UF k, (0, 1))). apply in_map. eapply decl_uf; eauto. now apply memb_In. }
    destruct K as [[SC Pr]|].
    - destruct (tdg_defined _ _ _ _ _ _ _ _ _ _ V o cuts lms SC Pr DI CT HV HL) as (out & E & H). exists out. split; auto. intros J ->. split; [|now apply H]. unfold tdg_model in E. apply obind_some in E as (out0 & EM & E). destruct out0 as [| |J0]; try discriminate.
      apply obind_some in E as (J2 & EJ2 & E). injection E as <-. unfold tdg_ilp in EJ2. apply obind_some in EJ2 as (l & _ & EJ2). injection EJ2 as <-. cbn [i_vars]. intros e He. rewrite map_app. apply in_or_app. left. eapply OLD; eauto.
    - destruct (dof_defined _ _ _ _ _ _ _ _ _ _ V o cuts lms DI HV HL) as (out & E & H). exists out. split; auto. intros J ->. split; [now apply OLD|]. now apply H. }
  destruct B as (out & E & H). rewrite E. cbn [obind]. destruct out as [| |J]; [eexists; split; [reflexivity|discriminate]|eexists; split; [reflexivity|discriminate]|]. destruct (H J eq_refl) as [DV DC]. clear H E.
  assert (FD : forall f, (f < p_nfacts P)%nat -> exists b, factReachable r f = Some b).
  { intros f Lf. pose proof (di_pg _ _ _ _ _ _ _ _ _ _ DI) as IN. pose proof (di_calc _ _ _ _ _ _ _ _ _ _ DI) as E. pose proof (calc_cases al P T q0 s R INT_MAX IN ltac:(unfold INT_MAX; lia) ltac:(intros c Hc; pose proof (pi_cost _ _ _ _ _ _ IN c Hc); lia)) as KK.
    rewrite E in KK. destruct KK as (D & last & x0 & u & I & -> & _). unfold factReachable. cbn [r_prop]. rewrite get_zat by (rewrite (i_lp _ _ _ _ _ _ _ _ _ _ I); auto). cbn [obind]. eauto. }
  assert (CD : forall v y, exists_elem P y -> exists l, imp_con r s v y = Some l).
  { intros v [f|t|m] Y; cbn [imp_con]; eauto. cbn in Y. unfold get. destruct (nth_error s f) as [b|] eqn:Es; [|apply nth_error_None in Es; rewrite (pi_s _ _ _ _ _ _ (di_pg _ _ _ _ _ _ _ _ _ _ DI)) in Es; lia]. cbn [obind].
    destruct (negb b && useful r f); eauto. destruct (FD f Y) as (b' & ->). cbn [obind]. eauto. }
  assert (OD : forall {A} (F : A -> option (list lin)) l, (forall a, In a l -> exists b, F a = Some b) -> exists b, oflat F l = Some b) by (intros A F l HF; unfold oflat; destruct (Rc_proof.omap_some F l HF) as (b & ->); cbn; eauto).
  destruct (OD _ (fun e => ys <- lm_iter P (l_nodes x) e ;; oflat (imp_con r s (elem_var e)) ys) (imp_elems r)) as (l & El).
  { intros e He. destruct (tables_iter _ _ _ _ _ _ _ _ _ _ _ DI LT e (elems_exist _ _ _ _ _ _ _ _ _ _ DI e He)) as (ys & -> & Hy). cbn [obind]. apply OD. intros y Iy. apply CD. now apply Hy. }
  unfold imp_ilp, imp_cons. rewrite El. cbn [obind]. eexists. split; [reflexivity|]. intros J' Q. injection Q as <-. cbn [i_cons i_vars]. intros c k v Hc Hv. apply in_app_iff in Hc as [Hc|Hc]; [eauto|].
  apply (oflat_some _ _ _ El) in Hc as (e & l1 & He & E1 & Hc). apply obind_some in E1 as (ys & Ey & E1). apply (oflat_some _ _ _ E1) in Hc as (y & l2 & Hy & E2 & Hc).
  assert (GE : forall y', In y' (imp_elems r) -> In (k, v) (l_terms (ge0 [(largeC, elem_var y'); (-1, elem_var e)])) -> In v (map fst (i_vars J))) by (intros y' Iy [Q|[Q|[]]]; injection Q as _ <-; auto).
  assert (ZE : In (k, v) (l_terms (eqc [(1, elem_var e)] 0)) -> In v (map fst (i_vars J))) by (intros [Q|[]]; injection Q as _ <-; auto).
  destruct y as [f|t|m]; cbn [imp_con] in E2.
  - apply obind_some in E2 as (b & Eb & E2). destruct (negb b && useful r f) eqn:Q.
    + injection E2 as <-. destruct Hc as [<-|[]]. apply (GE (EF f)); auto. unfold imp_elems. rewrite !in_app_iff. right. right. apply in_map. apply andb_true_iff in Q as [_ Q]. now apply memb_In.
    + apply obind_some in E2 as (fr & Ef & E2). injection E2 as <-. destruct fr; [easy|]. destruct Hc as [<-|[]]. auto.
  - injection E2 as <-. destruct (taskReachable r t) eqn:Q; destruct Hc as [<-|[]]; auto. apply (GE (ET t)); auto. unfold imp_elems. rewrite !in_app_iff. left. apply in_map. now apply memb_In.
  - injection E2 as <-. destruct (methodReachable r m) eqn:Q; destruct Hc as [<-|[]]; auto. apply (GE (EM m)); auto. unfold imp_elems. rewrite !in_app_iff. right. left. apply in_map. now apply memb_In.
Qed.

(** C198, for the program that is solved *)
Theorem imp_model_enforced : forall al P T q0 s R r tn L C V o K cuts lms x J X e y,
  dof_input al P T q0 s R r tn L C -> lm_tables P s r x -> imp_model P V o K r s C cuts lms (lm_iter P (l_nodes x)) = Some (Solve J) -> feasible true J X ->
  employs r X e -> derivable P (holds s) (holds R) e -> exists_elem P y -> (forall f, y = EF f -> ~ holds s f) -> landmark P (holds s) (holds R) e y ->
  match y with EF f => factReachable r f = Some true /\ (useful r f = true -> employs r X y) | _ => employs r X y end.
Proof.
  intros al P T q0 s R r tn L C V o K cuts lms x J X e y DI LT E F. unfold imp_model in E. apply obind_some in E as (out & _ & E). destruct out as [| |J0]; try discriminate. apply obind_some in E as (J' & EJ & E). injection E as ->. eapply imp_enforced; eauto.
Qed.

Lemma round_mono q q' : Qle q q' -> round q <= round q'.
Proof.
  intros H. unfold round. destruct (Qle_bool 0 q) eqn:E, (Qle_bool 0 q') eqn:E'.
  - apply Qfloor_resp_le. lra.
  - apply Qle_bool_iff in E. assert (Qle 0 q') as Q by lra. apply Qle_bool_iff in Q. congruence.
  - assert (N : ~ Qle 0 q) by (rewrite <- Qle_bool_iff; congruence). apply Qle_bool_iff in E'. assert (A : Qfloor 0 <= Qfloor (- q + (1 # 2))) by (apply Qfloor_resp_le; lra). assert (B : Qfloor 0 <= Qfloor (q' + (1 # 2))) by (apply Qfloor_resp_le; lra).
    change (Qfloor 0) with 0 in *. lia.
  - assert (A : Qfloor (- q' + (1 # 2)) <= Qfloor (- q + (1 # 2))) by (apply Qfloor_resp_le; lra). lia.
Qed.
(** [h] is at least [h0]; [None] is infinity. *)
Definition at_least (h0 h : option Z) : Prop := match h0, h with _, None => True | Some v0, Some v => v0 <= v | None, Some _ => False end.
Lemma more_constraints ip J J' h h' : incl (i_vars J) (i_vars J') -> incl (i_cons J) (i_cons J') -> i_obj J' = i_obj J -> solver_result ip J h -> solver_result ip J' h' -> at_least h h'.
Proof.
  intros IV IC IO S S'. assert (F : forall x, feasible ip J' x -> feasible ip J x).
  { intros x (HI & H1 & H2). split; [exact HI|]. split; [intros v lo hi H; apply (H1 v lo hi); auto|intros c Hc; apply H2; auto]. }
  inversion S' as [N'|x' Fx' M']; subst; [now destruct h|]. inversion S as [N|x Fx M]; subst; [now elim (N _ (F _ Fx'))|]. cbn [at_least]. apply round_mono. rewrite IO. apply M. now apply F.
Qed.
(** C206: the constraints against disconnected cycles and the implications never lower the value. *)
Theorem tdg_dominates : forall P V o SC Pr r s C cuts lms ip out out0 h h0,
  dof_model P V o r s C cuts lms = Some out0 -> tdg_model P V o SC Pr r s C cuts lms = Some out -> dof_value ip out0 h0 -> dof_value ip out h -> at_least h0 h.
Proof.
  intros P V o SC Pr r s C cuts lms ip out out0 h h0 E0 E H0 H. unfold tdg_model in E. rewrite E0 in E. cbn [obind] in E. destruct out0 as [| |J]; [injection E as <-; cbn in *; subst; exact Logic.I|injection E as <-; cbn in *; subst; cbn; lia|].
  apply obind_some in E as (J' & EJ & E). injection E as <-. unfold tdg_ilp in EJ. apply obind_some in EJ as (l & _ & EJ). injection EJ as <-. eapply more_constraints; [| | |exact H0|exact H]; [apply incl_appl, incl_refl|apply incl_appl, incl_refl|reflexivity].
Qed.
Theorem imp_dominates : forall P V o K r s C cuts lms I ip out out0 h h0,
  match K with None => dof_model P V o r s C cuts lms | Some (SC, Pr) => tdg_model P V o SC Pr r s C cuts lms end = Some out0 -> imp_model P V o K r s C cuts lms I = Some out -> dof_value ip out0 h0 -> dof_value ip out h -> at_least h0 h.
Proof.
  intros P V o K r s C cuts lms I ip out out0 h h0 E0 E H0 H. unfold imp_model in E. rewrite E0 in E. cbn [obind] in E. destruct out0 as [| |J]; [injection E as <-; cbn in *; subst; exact Logic.I|injection E as <-; cbn in *; subst; cbn; lia|].
  apply obind_some in E as (J' & EJ & E). injection E as <-. unfold imp_ilp in EJ. apply obind_some in EJ as (l & _ & EJ). injection EJ as <-. eapply more_constraints; [| | |exact H0|exact H]; [apply incl_refl|apply incl_appl, incl_refl|reflexivity].
Qed.

Module Ex.
  (** The problem of Dof_thm: task 3 becomes 0 and 1, action 0 adds the fact that action 1 needs. *)
  Import Dof_thm.Ex.
  Definition dst : list (list nat) := [[0; 1]]%nat.
  Lemma lwf : lm_wf P [0; 2]%nat dst.
  Proof.
    destruct (lm_tables_wf P wf) as (d & E & W).
    - intros t H. cbn in H. do 3 (destruct t as [|t]; [reflexivity|]). lia.
    - vm_compute in E. injection E as <-. exact W.
  Qed.
  Definition x : lmst := Eval vm_compute in match lm_new al P with Some mm => match calcLMs al P [0; 2]%nat dst (repeat 3 7) s (reach_pg P r) mm with Some x => x | None => {| l_nodes := []; l_in := []; l_heap := q0; l_soh := q0 |} end | None => {| l_nodes := []; l_in := []; l_heap := q0; l_soh := q0 |} end.
  Lemma lms_x : lm_tables P s r x.
  Proof.
    destruct (lm_new_ok al P Relax_thm.Ex.al_ok) as (mm & E & M); [cbn; lia|]. exists al, [0; 2]%nat, dst, (repeat 3 7), mm. split.
    - constructor; auto using Relax_thm.Ex.al_ok, wf, lwf. intros c H. apply repeat_spec in H. subst. unfold key_ok, int_min, INT_MAX. cbn. lia.
    - vm_compute in E. injection E as <-. vm_compute. reflexivity.
  Qed.
  Example lms_3 : lm_iter P (l_nodes x) (ET 3) = Some [EF 0; ET 0; ET 1; ET 3; EM 0].
  Proof. reflexivity. Qed.
  Definition J2 : ilp := Eval vm_compute in match imp_ilp r s (lm_iter P (l_nodes x)) J with Some J' => J' | None => J end.
  Lemma model2 : imp_model P V o None r s [(3, 1)] (Some cs) lms (lm_iter P (l_nodes x)) = Some (Solve J2).
  Proof. vm_compute. reflexivity. Qed.
  Example bound2 h ip : dof_value ip (Solve J2) h -> exists v, h = Some v /\ v <= 5.
  Proof.
    intros H. change 5 with (Z.of_nat (match o_setting o with Optimal => plan_cost P [0; 1]%nat | Satisficing => 3%nat end)).
    apply (imp_admissible al P T q0 s R r (initial_network P) [[]] [(3, 1)] V o None cs lms x [0]%nat [0; 1]%nat ip (Solve J2) h input I lms_x solved1); auto.
    - intros t. destruct t as [|[|[|[|t]]]]; vm_compute; lia.
    - intros m. destruct m; cbn; lia.
    - cbn. unfold INT_MAX. lia.
    - cbn. unfold INT_MAX. lia.
    - intros c [<-|[]]. exists 0%nat, 1%nat. split; [reflexivity|]. left. cbn. split; [lia|auto].
    - intros e [<-|[<-|[<-|[]]]]; cbn [met].
      + split; [cbn; lia|]. exists 1%nat. left. exists [0%nat]. split; [reflexivity|now left].
      + right. exists 0%nat, (two 3 0 1). split; [now left|]. split; [reflexivity|cbn; auto].
      + now left.
    - intros _. exact vars_fine.
  Qed.
  Lemma w_feasible2 : feasible true J2 (fun v => inject_Z (w v)).
  Proof.
    apply zfeasible_feasible. split.
    - intros v lo hi H. cbn [i_vars J2] in H. repeat (destruct H as [H|H]; [injection H as <- <- <-; vm_compute; split; discriminate|]). destruct H.
    - apply Forall_forall. cbn [i_cons J2]. repeat (apply Forall_cons; [vm_compute; first [reflexivity|discriminate]|]). constructor.
  Qed.
  Lemma derivable3 : derivable P (holds s) (holds R) (ET 3).
  Proof.
    assert (D0 : dv P (holds s) (holds R) (ET 0) [ET 0]) by (eapply dv_act; [reflexivity|reflexivity|constructor]).
    eexists. apply (dv_task P (holds s) (holds R) 0 (two 3 0 1)); [reflexivity|]. eapply dv_meth; [reflexivity|reflexivity|]. cbn [m_subs two map]. eapply dvs_cons; [exact D0|]. eapply dvs_cons; [|constructor].
    eapply dv_act; [reflexivity|reflexivity|]. cbn [map]. eapply dvs_cons; [|constructor]. eapply dv_add; [exact D0|]. exists [0%nat]. split; [reflexivity|now left].
  Qed.
  (** Action 1 is a landmark of task 3, so every integral assignment that uses the task uses the action. *)
  Example enforced2 X : feasible true J2 X -> employs r X (ET 3) -> employs r X (ET 1).
  Proof.
    intros F U. apply (imp_enforced al P T q0 s R r (initial_network P) [[]] [(3, 1)] x J J2 X (ET 3) (ET 1) input lms_x eq_refl F U derivable3); [cbn; lia|discriminate|].
    apply (tables_sound al P T q0 s R r (initial_network P) [[]] [(3, 1)] x input lms_x (ET 3) [EF 0; ET 0; ET 1; ET 3; EM 0] (ET 1)); [vm_compute; tauto|reflexivity|cbn; auto].
  Qed.
  Example enforced3 X : feasible true J2 X -> employs r X (ET 3) -> employs r X (ET 1).
  Proof.
    intros F U. apply (imp_model_enforced al P T q0 s R r (initial_network P) [[]] [(3, 1)] V o None (Some cs) lms x J2 X (ET 3) (ET 1) input lms_x model2 F U derivable3); [cbn; lia|discriminate|].
    apply (tables_sound al P T q0 s R r (initial_network P) [[]] [(3, 1)] x input lms_x (ET 3) [EF 0; ET 0; ET 1; ET 3; EM 0] (ET 1)); [vm_compute; tauto|reflexivity|cbn; auto].
  Qed.
  Example dominates2 h h0 ip : solver_result ip J h0 -> solver_result ip J2 h -> at_least h0 h.
  Proof. intros H0 H. apply (imp_dominates P V o None r s [(3, 1)] (Some cs) lms (lm_iter P (l_nodes x)) ip (Solve J2) (Solve J) h h0); [exact model|exact model2|exact H0|exact H]. Qed.
  Example used3 : employs r (fun v => inject_Z (w v)) (ET 1).
  Proof. apply enforced2; [exact w_feasible2|]. split; [reflexivity|vm_compute; discriminate]. Qed.
End Ex.

Module R.
  (** The second problem of Dof_thm: action 0 adds the fact that action 1 needs, the plan uses action 0 once and action 1 128 times. *)
  Import Dof_thm.R.
  Definition dst : list (list nat) := Eval vm_compute in match dst_of P with Some d => d | None => [] end.
  Lemma lwf : lm_wf P [0]%nat dst.
  Proof.
    destruct (lm_tables_wf P wf) as (d & E & W).
    - intros t H. cbn in H. do 2 (destruct t as [|t]; [reflexivity|]). lia.
    - vm_compute in E. injection E as <-. exact W.
  Qed.
  Definition x : lmst := Eval vm_compute in match lm_new al P with Some mm => match calcLMs al P [0]%nat dst (repeat 3 19) s (reach_pg P r) mm with Some x => x | None => {| l_nodes := []; l_in := []; l_heap := q0; l_soh := q0 |} end | None => {| l_nodes := []; l_in := []; l_heap := q0; l_soh := q0 |} end.
  Lemma lms_x : lm_tables P s r x.
  Proof.
    destruct (lm_new_ok al P Relax_thm.Ex.al_ok) as (mm & E & M); [cbn; lia|]. exists al, [0]%nat, dst, (repeat 3 19), mm. split.
    - constructor; auto using Relax_thm.Ex.al_ok, wf, lwf. intros c H. apply repeat_spec in H. subst. unfold key_ok, int_min, INT_MAX. cbn. lia.
    - vm_compute in E. injection E as <-. vm_compute. reflexivity.
  Qed.
  Definition o2 : dof_opts := {| o_setting := Optimal; o_pg := PgNone; o_net := false |}.
  Definition J0 : ilp := Eval vm_compute in match dof_ilp P [] o2 r s [(2, 1)] [] [] with Some J => J | None => {| i_vars := []; i_obj := []; i_cons := [] |} end.
  Definition J1 : ilp := Eval vm_compute in match imp_ilp r s (lm_iter P (l_nodes x)) J0 with Some J' => J' | None => J0 end.
  Lemma model1 : imp_model P [] o2 None r s [(2, 1)] (Some []) [] (lm_iter P (l_nodes x)) = Some (Solve J1).
  Proof. vm_compute. reflexivity. Qed.
  Lemma infeasible1 ip X : ~ feasible ip J1 X.
  Proof.
    intros (_ & _ & F3). assert (E : exists l, i_cons J1 = i_cons J0 ++ l /\ In (ge0 [(100, UA 0); (-1, UA 1)]) l) by (exists (skipn (length (i_cons J0)) (i_cons J1)); split; [reflexivity|vm_compute; tauto]).
    destruct E as (l & E & Il). rewrite E in F3. assert (G : sat X (ge0 [(100, UA 0); (-1, UA 1)])) by (apply F3, in_or_app; auto).
    assert (F4 : forall c, In c (i_cons J0) -> sat X c) by (intros; apply F3, in_or_app; auto). clear F3 E Il. apply Forall_forall in F4. cbn [i_cons J0] in F4. repeat (apply Forall_cons_iff in F4 as [?C F4]).
    unfold sat in *; cbn [ge0 l_rel l_terms l_rhs value fold_right] in *; unfold inject_Z in *. lra.
  Qed.
End R.

(** C200 (refuted): with the implications the heuristic rejects no solvable problem. An element is used at most 100 times per use of each of its landmarks (hhDOfree.h 137): if an action is needed more often
    than 100 times and an action that achieves its precondition only once, the program is infeasible, also without the planning graph constraints. *)
Definition imp_rejects_unsolvable : Prop := forall al P T q0 s R r L C o x ip out plan,
  dof_input al P T q0 s R r (initial_network P) L C -> lm_tables P s r x -> (forall f, holds s f <-> initial_state P f) -> o_net o = false -> o_pg o = PgNone ->
  solution P plan -> Z.of_nat (length plan) <= INT_MAX -> imp_model P [] o None r s C (Some []) [] (lm_iter P (l_nodes x)) = Some out -> ~ dof_value ip out None.
Theorem imp_rejects_unsolvable_refuted : ~ imp_rejects_unsolvable.
Proof.
  intros H. apply (H _ _ _ _ _ _ _ _ _ R.o2 R.x true (Solve R.J1) Dof_thm.R.plan Dof_thm.R.input R.lms_x); [|reflexivity|reflexivity|exact Dof_thm.R.has_solution|vm_compute; discriminate|exact R.model1|].
  - intros f. split; [|intros []]. unfold holds. destruct f as [|f]; [discriminate|]. destruct f; discriminate.
  - apply sr_none. apply R.infeasible1.
Qed.

Print Assumptions imp_admissible.
Print Assumptions imp_enforced.
Print Assumptions imp_defined.
Print Assumptions imp_model_enforced.
Print Assumptions tdg_dominates.
Print Assumptions imp_dominates.
Print Assumptions imp_rejects_unsolvable_refuted.
