(** The constraints against disconnected cycles: what they enforce and that solutions satisfy them. *)
From Coq Require Import QArith.
From Verif Require Import Base Htn_problem Htn_spec Htn_sem Heap_model IntUtil_model Tab_model Pg_model Pg_spec Pg_thm Rc_spec Rc_proof Lm_spec Scc_model Scc_spec Reach_proof ReachHeap_proof Dof_spec Dof_model Dof_count Dof_proof Dof_net Dof_main Dof_sol Dof_relax Tdg_spec Tdg_model.
Import Rc_spec.
Local Open Scope Z_scope.

Lemma in_incoming P fs t m : In m (incoming P fs t) <-> exists md, nth_error (p_methods P) m = Some md /\ In (m_task md) fs /\ In t (m_subs md).
Proof.
  unfold incoming. rewrite in_map_iff. split.
  - intros ([m' md] & <- & H). apply filter_In in H as [H1 H2]. apply in_enum in H1. apply andb_true_iff in H2 as [H2 H3]. apply memb_In in H2, H3. cbn [fst]. eauto.
  - intros (md & H1 & H2 & H3). exists (m, md). split; auto. apply filter_In. split; [now apply in_enum|]. apply andb_true_iff. split; now apply memb_In.
Qed.
Lemma in_inner P a b m : In m (inner P a b) <-> exists md, nth_error (p_methods P) m = Some md /\ m_task md = a /\ In b (m_subs md).
Proof.
  unfold inner. rewrite in_map_iff. split.
  - intros ([m' md] & <- & H). apply filter_In in H as [H1 H2]. apply in_enum in H1. apply andb_true_iff in H2 as [H2 H3]. apply Nat.eqb_eq in H2. apply memb_In in H3. cbn [fst]. eauto.
  - intros (md & H1 & H2 & H3). exists (m, md). split; auto. apply filter_In. split; [now apply in_enum|]. apply andb_true_iff. split; [now apply Nat.eqb_eq|now apply memb_In].
Qed.
Lemma in_to_from P ts t t2 : In t2 (to_from P ts t) <-> In t2 ts /\ exists m, In m (inner P t2 t).
Proof.
  unfold to_from. rewrite filter_In. split; intros [H1 H2]; (split; [exact H1|]).
  - destruct (inner P t2 t) as [|m l]; [discriminate|]. exists m. now left.
  - destruct H2 as (m & Hm). destruct (inner P t2 t); [destruct Hm|reflexivity].
Qed.
Lemma zsat_below w v ts c : zsat w (below v ts c) <-> w v <= zval w ts + c.
Proof. unfold zsat, below. cbn [l_terms l_rel l_rhs]. rewrite zval_app, zval_cons. cbn [zval fold_right]. fold (zval w ts). lia. Qed.

Lemma refine_closed P (Q : nat -> Prop) MS tn ms tn' : refines_by P tn ms tn' -> (forall m, In m ms -> In m MS) ->
  (forall m md t, In m MS -> nth_error (p_methods P) m = Some md -> Q (m_task md) -> In t (m_subs md) -> Q t) -> (forall y, t_in tn y -> Q (t_lab tn y)) ->
  forall m md, In m ms -> nth_error (p_methods P) m = Some md -> Q (m_task md).
Proof.
  induction 1 as [tn|tn x i m0 tn1 ms tn2 E D RF IH]; intros SUB CL LB m md Hm Em; [easy|].
  assert (Q0 : Q (m_task m0)) by (rewrite <- (d_lab _ _ _ _ _ D); apply LB, (d_in _ _ _ _ _ D)).
  destruct Hm as [<-|Hm]; [assert (m0 = md) by congruence; now subst|]. apply (IH (fun y H => SUB y (or_intror H)) CL) with (m := m); auto. intros y Hy. apply (d_in' _ _ _ _ _ D) in Hy as [[Hy N]|(j & Lj & ->)].
  - rewrite (d_lab_old _ _ _ _ _ D y Hy N). auto.
  - destruct (nth_error (m_subs m0) j) as [t|] eqn:Et; [|apply nth_error_None in Et; lia]. rewrite (d_lab_new _ _ _ _ _ D j t Et). apply (CL i m0 t); auto; [apply SUB; now left|eapply nth_error_In; eauto].
Qed.
Lemma filter_le {A} (f : A -> bool) l : (length (filter f l) <= length l)%nat.
Proof. induction l as [|a l IH]; cbn; auto. destruct (f a); cbn; lia. Qed.
Lemma filter_full {A} (f : A -> bool) l : (length l <= length (filter f l))%nat -> forall x, In x l -> f x = true.
Proof. induction l as [|a l IH]; cbn; intros H x Hx; [easy|]. pose proof (filter_le f l). destruct (f a) eqn:E; cbn in H; [|lia]. destruct Hx as [<-|Hx]; auto. apply IH; auto. lia. Qed.
Lemma filter_mono {A} (f g : A -> bool) l : (forall x, In x l -> f x = true -> g x = true) -> (length (filter f l) <= length (filter g l))%nat.
Proof. induction l as [|a l IH]; cbn; intros H; auto. assert (length (filter f l) <= length (filter g l))%nat by (apply IH; auto). destruct (f a) eqn:E; [rewrite (H a (or_introl eq_refl) E); cbn; lia|]. destruct (g a); cbn; lia. Qed.
Lemma filter_more {A} (f g : A -> bool) l : (forall x, In x l -> f x = true -> g x = true) -> (exists x, In x l /\ f x = false /\ g x = true) -> (length (filter f l) < length (filter g l))%nat.
Proof.
  induction l as [|a l IH]; cbn; intros H (x & Hx & F & G0); [easy|]. pose proof (filter_mono f g l (fun y Hy => H y (or_intror Hy))). destruct Hx as [->|Hx]; [rewrite F, G0; cbn; lia|].
  assert (length (filter f l) < length (filter g l))%nat by (apply IH; eauto). destruct (f a) eqn:E; [rewrite (H a (or_introl eq_refl) E); cbn; lia|]. destruct (g a); cbn; lia.
Qed.
Lemma existsb_same {A} (f g : A -> bool) l : (forall x, In x l -> f x = g x) -> existsb f l = existsb g l.
Proof. induction l as [|a l IH]; cbn; intros H; auto. rewrite (H a (or_introl eq_refl)). f_equal. auto. Qed.
Lemma zval_nonneg {A} (zz : var -> Z) (F : A -> var) l : (forall a, In a l -> 0 <= zz (F a)) -> 0 <= zval zz (map (fun a => (1, F a)) l).
Proof. induction l as [|a l IH]; intros H; [cbn; lia|]. cbn [map]. rewrite zval_cons. pose proof (H a (or_introl eq_refl)). specialize (IH (fun b Hb => H b (or_intror Hb))). lia. Qed.
Lemma zval_one {A} (zz : var -> Z) (F : A -> var) l a : (forall a, In a l -> 0 <= zz (F a)) -> In a l -> 1 <= zz (F a) -> 1 <= zval zz (map (fun a => (1, F a)) l).
Proof.
  induction l as [|b l IH]; intros H I Wa; [easy|]. cbn [map]. rewrite zval_cons. pose proof (zval_nonneg zz F l (fun b Hb => H b (or_intror Hb))). pose proof (H b (or_introl eq_refl)).
  destruct I as [->|I]; [lia|]. specialize (IH (fun b Hb => H b (or_intror Hb)) I Wa). lia.
Qed.

Section Tdg.
Variables (al : nat -> list Z) (P : problem) (T : pg_tables) (q0 : heap) (s R : list bool) (r : pg_result) (tn : tnet) (L : list tid) (C : ctable).
Hypothesis DI : dof_input al P T q0 s R r tn L C.
Variables (K : sccs) (Pr : list (list nat)).
Notation G := (task_graph P).
Hypothesis OK : sccs_ok G K.
Variable Sc : list (list nat).
Hypothesis RO : rows_ok K Sc Pr (cedge G K).
Notation na := (length (p_cost P)).
Notation lab := (map (t_lab tn) L).
Let WP : wf_problem P := pi_wp _ _ _ _ _ _ (di_pg _ _ _ _ _ _ _ _ _ _ DI).
Notation cp t k := (nth_error (s_of K) t = Some (Some k)).

Lemma method_edge m md t : nth_error (p_methods P) m = Some md -> In t (m_subs md) -> Scc_spec.edge G (m_task md) t.
Proof. intros E I. apply nth_error_In in E. apply task_edge; [|eauto]. apply nth_error_Some. rewrite (wfm_task _ _ (wf_methods _ WP md E)). discriminate. Qed.
Lemma comp_of t : (t < length (p_prim P))%nat -> exists k, cp t k.
Proof. intros H. apply (c_dom _ _ _ _ (so_comp _ _ OK)). now rewrite task_graph_len. Qed.
Lemma reach_lt t : taskReachable r t = true -> (t < length (p_prim P))%nat.
Proof.
  destruct (relative _ _ _ _ _ _ _ _ _ _ DI) as (A & _ & _ & _ & HA & HT & HM & _). intros H. apply HT in H. destruct H as [a Ha|m md Hm E].
  - apply nth_error_Some. rewrite (di_prim _ _ _ _ _ _ _ _ _ _ DI a (HA a Ha)). discriminate.
  - apply nth_error_In in E. pose proof (wfm_task _ _ (wf_methods _ WP md E)) as X. apply nth_error_Some. rewrite X. discriminate.
Qed.
Lemma method_parts m : methodReachable r m = true -> exists md, nth_error (p_methods P) m = Some md /\ taskReachable r (m_task md) = true /\ (na <= m_task md)%nat /\ forall t, In t (m_subs md) -> taskReachable r t = true.
Proof.
  destruct (relative _ _ _ _ _ _ _ _ _ _ DI) as (A & _ & _ & _ & HA & HT & HM & _). intros H. apply HM in H. pose proof H as H0. destruct H as [m md E HR Hs]. exists md. split; auto. split; [apply HT; exact (tr_method _ _ _ _ _ H0 E)|]. split.
  - apply nth_error_In in E. pose proof (wfm_task _ _ (wf_methods _ WP md E)) as X. destruct (Nat.le_gt_cases na (m_task md)); auto. rewrite (di_prim _ _ _ _ _ _ _ _ _ _ DI _ H) in X. discriminate.
  - intros t Ht. apply HT. auto.
Qed.
Lemma scc_get k : In k (s_cyclic K) -> exists pr fs, get (s_tasks K) k = Some (members (s_of K) k) /\ get Pr k = Some pr /\ oflat (get (s_tasks K)) pr = Some fs /\
  forall t md m, nth_error (p_methods P) m = Some md -> cp t k -> In t (m_subs md) -> In (m_task md) fs <-> ~ cp (m_task md) k.
Proof.
  intros Hk. apply (so_cyclic _ _ OK) in Hk as [Lk _]. destruct (so_tasks _ _ OK) as [LT HT]. destruct RO as (LS & LP & RS & RP). destruct (get_some Pr k) as (pr & Epr); [lia|]. destruct (RP k pr Epr) as [_ Hpr].
  assert (LQ : forall j, In j pr -> (j < s_num K)%nat) by (intros j Hj; apply Hpr in Hj as (_ & v & w & _ & Q & _); eapply (c_lt _ _ _ _ (so_comp _ _ OK)); exact Q).
  exists pr, (flat_map (members (s_of K)) pr). split; [auto|]. split; auto. split; [apply oflat_map; intros j Hj; apply HT; auto|].
  intros t md m Em Ht It. pose proof (method_edge m md t Em It) as ED. assert (exists j, cp (m_task md) j) as (j & Hj).
  { apply comp_of. apply nth_error_Some. pose proof (wfm_task _ _ (wf_methods _ WP md (nth_error_In _ _ Em))) as X. rewrite X. discriminate. }
  rewrite in_flat_map. split.
  - intros (j' & I' & M') Q. apply members_in in M'. unfold comp, get in M'. assert (j' = k) by congruence. subst. apply Hpr in I' as [N _]. auto.
  - intros N. exists j. split; [|now apply members_in]. apply Hpr. split; [congruence|]. exists (m_task md), t. auto.
Qed.

Lemma tdg_scc_eq k : In k (s_cyclic K) -> exists fs vs cs, tdg_scc P K Pr r C k = Some (vs, cs) /\
  (forall t md m, nth_error (p_methods P) m = Some md -> cp t k -> In t (m_subs md) -> In (m_task md) fs <-> ~ cp (m_task md) k) /\
  (let ts := filter (taskReachable r) (members (s_of K) k) in let n := (length (members (s_of K) k) - 1)%nat in
   vs = map (fun t => (RV 0 t, (0, INT_MAX))) ts ++ flat_map (fun k => flat_map (fun t => (RV (S k) t, (0, INT_MAX)) :: map (fun t2 => (IV (S k) t t2, (0, INT_MAX))) ts) ts) (seq 0 n) /\
   cs = map (fun t => below (RV 0 t) (map (fun m => (1, MV m)) (filter (methodReachable r) (incoming P fs t))) (Z.of_nat (cnt lab t))) ts ++
        flat_map (fun k => flat_map (fun t => c10 P ts k t :: flat_map (fun t2 => [c11 k t2 t; c12 P r k t2 t]) ts) ts) (seq 0 n) ++ map (c13 n) ts).
Proof.
  intros Hk. destruct (scc_get k Hk) as (pr & fs & E1 & E2 & E3 & H). exists fs. unfold tdg_scc. rewrite E1. cbn [obind]. rewrite E2. cbn [obind]. rewrite E3. cbn [obind].
  assert (E9 : forall l, omap (c9 P r C fs) l = Some (map (fun t => below (RV 0 t) (map (fun m => (1, MV m)) (filter (methodReachable r) (incoming P fs t))) (Z.of_nat (cnt lab t))) l)).
  { induction l as [|t l IH]; [reflexivity|]. cbn [omap map]. unfold c9 at 1. rewrite (tn_count_ok _ _ _ _ _ _ _ _ _ _ DI). cbn [obind]. rewrite IH. reflexivity. }
  rewrite E9. cbn [obind]. eexists. eexists. split; [reflexivity|]. split; auto.
Qed.

Lemma tdg_ilp_eq J : exists J' l, tdg_ilp P K Pr r C J = Some J' /\ omap (tdg_scc P K Pr r C) (s_cyclic K) = Some l /\ i_vars J' = i_vars J ++ flat_map fst l /\ i_obj J' = i_obj J /\ i_cons J' = i_cons J ++ flat_map snd l.
Proof.
  unfold tdg_ilp. destruct (Rc_proof.omap_some (tdg_scc P K Pr r C) (s_cyclic K)) as (l & El).
  { intros k Hk. destruct (tdg_scc_eq k Hk) as (fs & vs & cs & E & _). eauto. }
  rewrite El. cbn [obind]. eexists. exists l. split; [reflexivity|]. auto.
Qed.

(** ** Feasible assignments are connected *)
Section Connected.
Variables (V : list (nat * nat)) (o : dof_opts) (cuts : list (nat * list Z)) (lms : list elem) (J J' : ilp) (w : var -> Z).
Hypothesis EJ : dof_ilp P V o r s C cuts lms = Some J.
Hypothesis EJ' : tdg_ilp P K Pr r C J = Some J'.
Hypothesis FJ : zfeasible J' w.
Definition used_m (m : nat) : Prop := methodReachable r m = true /\ 1 <= w (MV m).
Notation lk := (linked P tn used_m).

Lemma FJ0 : zfeasible J w.
Proof.
  destruct (tdg_ilp_eq J) as (J2 & l & E & _ & E1 & _ & E2). assert (J2 = J') by congruence. subst J2. destruct FJ as [F1 F2]. rewrite E1 in F1. rewrite E2 in F2. split; intros; [apply F1|apply F2]; apply in_or_app; now left.
Qed.
Lemma mv_nonneg m : methodReachable r m = true -> 0 <= w (MV m).
Proof. destruct (parts P s r C V o cuts lms J w EJ FJ0) as (vs & pc & hc & Evs & _ & _ & B & _). intros Hm. apply memb_In in Hm. enough (0 <= w (MV m) <= INT_MAX) by lia. apply B. eapply decl_mv; eauto. Qed.
Lemma method_task m md : used_m m -> nth_error (p_methods P) m = Some md -> taskReachable r (m_task md) = true /\ 1 <= w (UA (m_task md)).
Proof.
  intros [Rm Wm] Em. destruct (method_parts m Rm) as (md' & Em' & Rt & Lt & _). assert (md' = md) by congruence. subst. split; auto.
  destruct (parts P s r C V o cuts lms J w EJ FJ0) as (vs & pc & hc & Evs & _ & Ehc & B & _ & HC). set (t := m_task md) in *.
  assert (Q : zsat w (eqc (map (fun m => (1, MV m)) (filter (methodReachable r) (methods_of P t)) ++ [(-1, UA t)]) 0)).
  { apply HC. apply (oflat_some _ _ _ Ehc). exists t. eexists. split; [now apply memb_In|]. unfold htn_cons. rewrite (tup_flat _ _ _ _ _ _ _ _ _ _ DI), (tn_count_ok _ _ _ _ _ _ _ _ _ _ DI). cbn [obind]. split; [reflexivity|].
    right. apply Nat.leb_le in Lt. rewrite Lt. now left. }
  unfold zsat in Q. cbn [eqc l_terms l_rel l_rhs] in Q. rewrite zval_app, zval_cons in Q. cbn [zval fold_right] in Q. fold (zval w (map (fun m => (1, MV m)) (filter (methodReachable r) (methods_of P t)))) in Q.
  enough (1 <= zval w (map (fun m => (1, MV m)) (filter (methodReachable r) (methods_of P t)))) by lia.
  assert (I : In m (filter (methodReachable r) (methods_of P t))) by (apply filter_In; split; auto; apply in_methods_of; unfold task_of; now rewrite Em).
  assert (N : forall l, (forall m, In m l -> methodReachable r m = true) -> 0 <= zval w (map (fun m => (1, MV m)) l)).
  { induction l as [|y l IH]; intros H; [cbn; lia|]. cbn [map]. rewrite zval_cons. pose proof (mv_nonneg y (H y (or_introl eq_refl))). specialize (IH (fun z Hz => H z (or_intror Hz))). lia. }
  revert I. assert (H : forall m, In m (filter (methodReachable r) (methods_of P t)) -> methodReachable r m = true) by (intros y Hy; now apply filter_In in Hy).
  revert H. generalize (filter (methodReachable r) (methods_of P t)) as l. induction l as [|y l IH]; intros H I; [easy|]. cbn [map]. rewrite zval_cons.
  pose proof (mv_nonneg y (H y (or_introl eq_refl))). destruct I as [->|I]; [pose proof (N l (fun z Hz => H z (or_intror Hz))); lia|]. specialize (IH (fun z Hz => H z (or_intror Hz)) I). lia.
Qed.
(** A used task is in the network or a subtask of a used method. *)
Lemma origin t : taskReachable r t = true -> 1 <= w (UA t) -> (exists y, t_in tn y /\ t_lab tn y = t) \/ exists m md, used_m m /\ nth_error (p_methods P) m = Some md /\ In t (m_subs md).
Proof.
  intros Rt Wt. destruct (parts P s r C V o cuts lms J w EJ FJ0) as (vs & pc & hc & Evs & _ & Ehc & B & _ & HC).
  match goal with |- ?g => assert (Q : zsat w (eqc (flat_map (fun m => map (fun _ => (1, MV m)) (filter (Nat.eqb t) (subs_of P m))) (r_meths r) ++ [(-1, UA t)]) (- Z.of_nat (cnt lab t)))) end.
  { apply HC. apply (oflat_some _ _ _ Ehc). exists t. eexists. split; [now apply memb_In|]. unfold htn_cons. rewrite (tup_flat _ _ _ _ _ _ _ _ _ _ DI), (tn_count_ok _ _ _ _ _ _ _ _ _ _ DI). cbn [obind]. split; [reflexivity|]. now left. }
  unfold zsat in Q. cbn [eqc l_terms l_rel l_rhs] in Q. rewrite zval_app, zval_cons in Q. cbn [zval fold_right] in Q. fold (zval w (flat_map (fun m => map (fun _ => (1, MV m)) (filter (Nat.eqb t) (subs_of P m))) (r_meths r))) in Q.
  destruct (cnt lab t) as [|c] eqn:EC.
  - right. destruct (zval_pos w (flat_map (fun m => map (fun _ => (1, MV m)) (filter (Nat.eqb t) (subs_of P m))) (r_meths r))) as (v & Iv & Wv); [|lia|].
    + intros k v I. apply in_flat_map in I as (m & Hm & I). apply in_map_iff in I as (y & I & _). injection I as <- <-. split; auto. apply mv_nonneg. now apply memb_In.
    + apply in_flat_map in Iv as (m & Hm & Iv). apply in_map_iff in Iv as (y & Iv & Hy). injection Iv as <-. apply filter_In in Hy as [Hy E]. apply Nat.eqb_eq in E. subst y. unfold subs_of in Hy.
      destruct (nth_error (p_methods P) m) as [md|] eqn:Em; [|easy]. exists m, md. split; [split; auto; now apply memb_In|auto].
  - left. assert (I : In t lab) by (apply (count_occ_In Nat.eq_dec); lia). apply in_map_iff in I as (y & <- & Hy). exists y. split; auto. now apply (di_enum _ _ _ _ _ _ _ _ _ _ DI).
Qed.

Theorem all_linked : forall t, taskReachable r t = true -> 1 <= w (UA t) -> lk t.
Proof.
  assert (M : forall n t k, cp t k -> (s_num K - k <= n)%nat -> taskReachable r t = true -> 1 <= w (UA t) -> lk t).
  2:{ intros t Rt Wt. destruct (comp_of t (reach_lt t Rt)) as (k & Hk). eapply M; eauto. }
  induction n as [|n IH]; intros t k Hk Ln Rt Wt; [pose proof (c_lt _ _ _ _ (so_comp _ _ OK) t k Hk); lia|].
  (* a used method of a higher component *)
  assert (UP : forall m md t', used_m m -> nth_error (p_methods P) m = Some md -> In t' (m_subs md) -> cp t' k -> ~ cp (m_task md) k -> lk t').
  { intros m md t' Um Em It Hk' N. destruct (method_task m md Um Em) as [Rt' Wt']. destruct (comp_of _ (reach_lt _ Rt')) as (j & Hj). destruct (c_order _ _ _ _ (so_comp _ _ OK) _ t' j Hj (method_edge m md t' Em It)) as (k' & Hk2 & Lk').
    assert (k' = k) by congruence. subst k'. assert (j <> k) by congruence. econstructor; [exact Um|exact Em| |exact It]. pose proof (c_lt _ _ _ _ (so_comp _ _ OK) _ j Hj). apply (IH _ j Hj); auto. lia. }
  destruct (in_dec Nat.eq_dec k (s_cyclic K)) as [CY|NC].
  - destruct (tdg_scc_eq k CY) as (fs & vs & cs & Es & Hfs & EV & EC). set (ts := filter (taskReachable r) (members (s_of K) k)) in *. set (nn := (length (members (s_of K) k) - 1)%nat) in *.
    destruct (tdg_ilp_eq J) as (J2 & l & E & El & E1 & _ & E2). assert (J2 = J') by congruence. subst J2. destruct FJ as [F1 F2]. rewrite E1 in F1. rewrite E2 in F2.
    assert (IL : In (vs, cs) l) by (apply (omap_in _ _ _ El); exists k; auto).
    assert (F3 : forall c, In c cs -> zsat w c) by (intros c Hc; apply F2, in_or_app; right; apply in_flat_map; exists (vs, cs); auto).
    assert (F4 : forall v, In (v, (0, INT_MAX)) vs -> 0 <= w v) by (intros v Hv; enough (0 <= w v <= INT_MAX) by lia; apply F1, in_or_app; right; apply in_flat_map; exists (vs, cs); auto).
    assert (ITS : forall t', In t' ts <-> cp t' k /\ taskReachable r t' = true) by (intros t'; unfold ts; rewrite filter_In, members_in; reflexivity).
    assert (RN : forall i t', (i <= nn)%nat -> In t' ts -> 0 <= w (RV i t')).
    { intros i t' Li Ht. apply F4. rewrite EV. apply in_or_app. destruct i as [|i]; [left; apply in_map_iff; exists t'; auto|]. right. apply in_flat_map. exists i. split; [apply in_seq; lia|]. apply in_flat_map. exists t'. split; auto. now left. }
    assert (IN : forall i t2 t', (S i <= nn)%nat -> In t2 ts -> In t' ts -> 0 <= w (IV (S i) t2 t')).
    { intros i t2 t' Li H2 Ht. apply F4. rewrite EV. apply in_or_app. right. apply in_flat_map. exists i. split; [apply in_seq; lia|]. apply in_flat_map. exists t2. split; auto. right. apply in_map_iff. exists t'. auto. }
    assert (LAY : forall i, (i <= nn)%nat -> forall t', In t' ts -> 1 <= w (RV i t') -> lk t').
    { induction i as [|i IHi]; intros Li t' Ht Wr; pose proof Ht as Ht0; apply ITS in Ht0 as [Hk' Rt'].
      - assert (Q : zsat w (below (RV 0 t') (map (fun m => (1, MV m)) (filter (methodReachable r) (incoming P fs t'))) (Z.of_nat (cnt lab t')))) by (apply F3; rewrite EC; apply in_or_app; left; apply in_map_iff; eauto).
        rewrite zsat_below in Q. destruct (cnt lab t') as [|c] eqn:EN.
        + destruct (sum_pos w MV (filter (methodReachable r) (incoming P fs t'))) as (m & Hm & Wm); [intros m Hm; apply filter_In in Hm as [_ Hm]; now apply mv_nonneg|lia|]. apply filter_In in Hm as [Hm Rm].
          apply in_incoming in Hm as (md & Em & Hf & It). apply (UP m md t'); auto; [split; auto|]. now apply (Hfs t' md m Em Hk' It).
        + assert (I : In t' lab) by (apply (count_occ_In Nat.eq_dec); lia). apply in_map_iff in I as (y & <- & Hy). constructor. now apply (di_enum _ _ _ _ _ _ _ _ _ _ DI).
      - assert (SQ : forall c, In c (c10 P ts i t' :: flat_map (fun t2 => [c11 i t2 t'; c12 P r i t2 t']) ts) -> zsat w c).
        { intros c Hc. apply F3. rewrite EC. apply in_or_app. right. apply in_or_app. left. apply in_flat_map. exists i. split; [apply in_seq; lia|]. apply in_flat_map. exists t'. auto. }
        pose proof (SQ _ (or_introl eq_refl)) as Q. unfold c10 in Q. rewrite zsat_below, zval_cons in Q. destruct (Z.le_gt_cases 1 (w (RV i t'))) as [G1|G1]; [apply IHi; auto; lia|].
        destruct (sum_pos w (fun t2 => IV (S i) t2 t') (to_from P ts t')) as (t2 & H2 & W2); [intros t2 H2; apply in_to_from in H2 as [H2 _]; apply IN; auto|lia|]. apply in_to_from in H2 as [H2 _].
        assert (Q1 := SQ (c11 i t2 t') ltac:(right; apply in_flat_map; exists t2; split; [exact H2|now left])). assert (Q2 := SQ (c12 P r i t2 t') ltac:(right; apply in_flat_map; exists t2; split; [exact H2|right; now left])).
        unfold c11 in Q1. unfold c12 in Q2. rewrite zsat_below in Q1, Q2. rewrite zval_cons in Q1. cbn [zval fold_right] in Q1.
        destruct (sum_pos w MV (filter (methodReachable r) (inner P t2 t'))) as (m & Hm & Wm); [intros m Hm; apply filter_In in Hm as [_ Hm]; now apply mv_nonneg|lia|]. apply filter_In in Hm as [Hm Rm]. apply in_inner in Hm as (md & Em & <- & It).
        econstructor; [split; [exact Rm|exact Wm]|exact Em| |exact It]. apply IHi; auto; lia. }
    assert (Tt : In t ts) by (apply ITS; auto). assert (Q : zsat w (c13 nn t)) by (apply F3; rewrite EC; apply in_or_app; right; apply in_or_app; right; now apply in_map).
    unfold c13 in Q. rewrite zsat_below, zval_cons in Q. cbn [zval fold_right] in Q. apply (LAY nn (Nat.le_refl _) t Tt). lia.
  - destruct (origin t Rt Wt) as [(y & Hy & <-)|(m & md & Um & Em & It)]; [now constructor|]. apply (UP m md t); auto. intros Hk'. apply NC. apply (so_cyclic _ _ OK).
    split; [eapply (c_lt _ _ _ _ (so_comp _ _ OK)); eauto|]. exists (m_task md), t. split; [exact Hk'|]. split; [eapply method_edge; eauto|].
    apply (c_same _ _ _ _ (so_comp _ _ OK) t (m_task md) k k Hk Hk'); reflexivity.
Qed.
End Connected.

(** ** Solutions satisfy the constraints *)
Section Solution.
Variables (ms plan : list nat).
Hypothesis SO : solves_by P (holds s) tn ms plan.
Notation u := (u P tn L ms).
Notation z0 := (z P tn L ms plan).

Definition comp_ts (t : nat) : list nat := match nth_error (s_of K) t with Some (Some k) => filter (taskReachable r) (members (s_of K) k) | _ => [] end.
Definition comp_fs (t : nat) : list nat := match nth_error (s_of K) t with Some (Some k) => match get Pr k with Some pr => flat_map (members (s_of K)) pr | None => [] end | _ => [] end.
Definition step (a b : nat) : bool := existsb (fun m => memb m ms) (inner P a b).
(** Reached within [k] steps of applied methods inside the component. *)
Fixpoint lay (k t : nat) : bool :=
  match k with
  | O => Nat.ltb 0 (cnt lab t) || existsb (fun m => memb m ms) (incoming P (comp_fs t) t)
  | S k' => lay k' t || existsb (fun t2 => lay k' t2 && step t2 t) (comp_ts t)
  end.
Definition z2 (v : var) : Z :=
  match v with
  | RV k t => if lay k t then 1 else 0
  | IV (S k) t2 t => if lay k t2 && step t2 t then 1 else 0
  | IV O _ _ => 0
  | _ => z0 v
  end.

Lemma lay_S k t : lay k t = true -> lay (S k) t = true.
Proof. intros H. cbn [lay]. now rewrite H. Qed.
Lemma lay_le k k' t : (k <= k')%nat -> lay k t = true -> lay k' t = true.
Proof. induction 1; auto using lay_S. Qed.
Lemma existsb_mem l : existsb (fun m => memb m ms) l = true <-> exists m, In m l /\ In m ms.
Proof. rewrite existsb_exists. split; intros (m & H1 & H2); exists m; (split; [exact H1|]); now apply memb_In. Qed.

(** Every task of a cyclic component in the decomposition is reached in some layer. *)
Lemma used_reached k t : In k (s_cyclic K) -> cp t k -> (0 < u t)%nat -> exists i, lay i t = true.
Proof.
  intros CY Hk Ut. destruct (scc_get k CY) as (pr & fs & _ & Epr & Efs & Hfs).
  assert (EF : forall t, cp t k -> comp_fs t = fs).
  { intros t' H'. unfold comp_fs. rewrite H', Epr. rewrite (oflat_map (get (s_tasks K)) (members (s_of K))) in Efs; [congruence|]. intros j Hj. apply (so_tasks _ _ OK). destruct RO as (_ & _ & _ & RP). apply (RP k pr Epr) in Hj as (_ & v & x & _ & Q & _). eapply (c_lt _ _ _ _ (so_comp _ _ OK)); exact Q. }
  set (Pc := fun t => cp t k -> exists i, lay i t = true). destruct (reach_all _ _ _ _ _ _ _ _ _ _ DI ms plan SO) as (_ & RM & _ & _).
  assert (CL : forall m md t', In m ms -> nth_error (p_methods P) m = Some md -> Pc (m_task md) -> In t' (m_subs md) -> Pc t').
  { intros m md t' Hm Em HP It Hk'. pose proof (method_parts m (RM m Hm)) as (md' & Em' & Rt & _). assert (md' = md) by congruence. subst md'. destruct (Hfs t' md m Em Hk' It) as [_ Q].
    assert (DEC : cp (m_task md) k \/ ~ cp (m_task md) k). { destruct (nth_error (s_of K) (m_task md)) as [[j|]|]; [|right; discriminate|right; discriminate]. destruct (Nat.eq_dec j k) as [->|N]; [now left|right; congruence]. }
    destruct DEC as [Y|N].
    - destruct (HP Y) as (i & Hi). exists (S i). cbn [lay]. apply orb_true_iff. right. apply existsb_exists. exists (m_task md). split.
      + unfold comp_ts. rewrite Hk'. apply filter_In. split; auto. now apply members_in.
      + rewrite Hi. cbn [andb]. apply existsb_mem. exists m. split; auto. apply in_inner. eauto.
    - exists 0%nat. cbn [lay]. apply orb_true_iff. right. rewrite (EF t' Hk'). apply existsb_mem. exists m. split; auto. apply in_incoming. eauto. }
  assert (LB : forall y, t_in tn y -> Pc (t_lab tn y)).
  { intros y Hy _. exists 0%nat. cbn [lay]. apply orb_true_iff. left. apply Nat.ltb_lt. apply (count_occ_In Nat.eq_dec). apply in_map. now apply (di_enum _ _ _ _ _ _ _ _ _ _ DI). }
  assert (ME : forall m md, In m ms -> nth_error (p_methods P) m = Some md -> Pc (m_task md)) by (destruct SO as (tn' & L' & RF & _); apply (refine_closed P Pc ms tn ms tn' RF); auto).
  unfold Dof_sol.u in Ut. destruct (Nat.eq_dec (cnt lab t) 0) as [Z0|NZ].
  - rewrite Z0 in Ut. cbn [Nat.add] in Ut. unfold produced in Ut. assert (exists m, In m ms /\ (0 < cnt (subs_of P m) t)%nat) as (m & Hm & Cm).
    { clear -Ut. induction ms as [|m l IH]; [cbn in Ut; lia|]. cbn [map] in Ut. rewrite sum_cons in Ut. destruct (Nat.eq_dec (cnt (subs_of P m) t) 0) as [E|N]; [|exists m; split; [now left|lia]]. destruct IH as (y & H1 & H2); [lia|]. exists y. split; auto. now right. }
    apply (count_occ_In Nat.eq_dec) in Cm. unfold subs_of in Cm. destruct (nth_error (p_methods P) m) as [md|] eqn:Em; [|easy]. apply (CL m md t); auto. now apply ME with (m := m).
  - exists 0%nat. cbn [lay]. apply orb_true_iff. left. apply Nat.ltb_lt. lia.
Qed.

(** The layers are complete after as many steps as the component has tasks, minus one. *)
Lemma saturated k t i : cp t k -> taskReachable r t = true -> lay i t = true -> lay (length (members (s_of K) k) - 1) t = true.
Proof.
  intros Hk Rt Hi. set (ts := filter (taskReachable r) (members (s_of K) k)). set (n0 := length (members (s_of K) k)).
  assert (ITS : forall t', In t' ts <-> cp t' k /\ taskReachable r t' = true) by (intros t'; unfold ts; rewrite filter_In, members_in; reflexivity).
  assert (Tt : In t ts) by (apply ITS; auto). assert (CT : forall t', In t' ts -> comp_ts t' = ts) by (intros t' H; apply ITS in H as [H _]; unfold comp_ts; now rewrite H).
  assert (Ln : (length ts <= n0)%nat) by apply filter_le. assert (Lp : (1 <= length ts)%nat) by (destruct ts; [easy|cbn; lia]).
  assert (A : forall j, (forall t', In t' ts -> lay (S j) t' = lay j t') -> forall d t', In t' ts -> lay (j + d) t' = lay j t').
  { intros j ST. induction d as [|d IH]; intros t' Ht; [now rewrite Nat.add_0_r|]. rewrite Nat.add_succ_r. rewrite <- (ST t' Ht). cbn [lay]. rewrite (IH t' Ht). f_equal. rewrite (CT t' Ht). apply existsb_same. intros t2 H2. now rewrite (IH t2 H2). }
  assert (A2 : forall j, (forall t', In t' ts -> lay (S j) t' = lay j t') -> lay j t = true).
  { intros j ST. destruct (Nat.le_gt_cases i j) as [H|H]; [eapply lay_le; eauto|]. rewrite <- (A j ST (i - j)%nat t Tt). replace (j + (i - j))%nat with i by lia. exact Hi. }
  assert (B : forall j, (exists i0, (i0 < j)%nat /\ forall t', In t' ts -> lay (S i0) t' = lay i0 t') \/ (j + length (filter (lay 0) ts) <= length (filter (lay j) ts))%nat).
  { induction j as [|j [(i0 & L0 & S0)|IH]]; [right; cbn; lia|left; exists i0; split; auto; lia|]. destruct (forallb (fun t' => Bool.eqb (lay (S j) t') (lay j t')) ts) eqn:E.
    - left. exists j. split; auto. intros t' Ht. rewrite forallb_forall in E. apply Bool.eqb_prop. auto.
    - right. assert (exists t', In t' ts /\ Bool.eqb (lay (S j) t') (lay j t') = false) as (t' & Ht & Q).
      { clear -E. induction ts as [|a l IH]; [discriminate|]. cbn [forallb] in E. apply andb_false_iff in E as [E|E]; [exists a; split; [now left|auto]|]. destruct (IH E) as (y & H1 & H2). exists y. split; auto. now right. }
      apply Bool.eqb_false_iff in Q. assert (length (filter (lay j) ts) < length (filter (lay (S j)) ts))%nat; [|lia]. apply filter_more; [intros y _; apply lay_S|]. exists t'. split; auto.
      destruct (lay j t') eqn:E1; [elim Q; now apply lay_S|]. destruct (lay (S j) t'); auto; now elim Q. }
  destruct (B (n0 - 1)%nat) as [(i0 & L0 & S0)|H]; [apply (lay_le i0); [lia|now apply A2]|].
  destruct (Nat.eq_dec (length (filter (lay 0) ts)) 0) as [Z0|NZ].
  - exfalso. assert (N : forall t', In t' ts -> lay 0 t' = false).
    { intros t' Ht. destruct (lay 0 t') eqn:E; auto. assert (I : In t' (filter (lay 0) ts)) by (now apply filter_In). destruct (filter (lay 0) ts); [easy|discriminate]. }
    assert (ST : forall t', In t' ts -> lay 1 t' = lay 0 t').
    { intros t' Ht. change (lay 1 t') with (lay 0 t' || existsb (fun t2 => lay 0 t2 && step t2 t') (comp_ts t')). rewrite (CT t' Ht). destruct (existsb (fun t2 => lay 0 t2 && step t2 t') ts) eqn:E; [|apply orb_false_r].
      apply existsb_exists in E as (t2 & H2 & E). rewrite (N t2 H2) in E. discriminate. }
    pose proof (A2 0%nat ST) as X. rewrite (N t Tt) in X. discriminate.
  - apply (filter_full (lay (n0 - 1)) ts); auto. lia.
Qed.

Definition old (v : var) : Prop := match v with RV _ _ | IV _ _ _ => False | _ => True end.
Lemma vars_old o vs v b : dof_vars P o r = Some vs -> In (v, b) vs -> old v.
Proof.
  unfold dof_vars. intros E I. apply obind_some in E as (es & Ees & E). injection E as <-. rewrite !in_app_iff in I.
  destruct I as [I|[I|[I|[I|I]]]]; try (apply in_map_iff in I as (y & I & _); injection I as <- _; exact Logic.I).
  - apply (oflat_some _ _ _ Ees) in I as (a & l & _ & El & I). apply obind_some in El as (l' & _ & El). injection El as <-. apply in_map_iff in I as ([i f] & I & _). injection I as <- _. exact Logic.I.
  - destruct (o_pg o); try easy; apply in_app_iff in I as [I|I]; apply in_map_iff in I as (y & I & _); injection I as <- _; exact Logic.I.
Qed.
Lemma z2_old v : old v -> z2 v = z0 v.
Proof. destruct v; cbn; tauto. Qed.
Lemma zval_old ts : (forall c v, In (c, v) ts -> old v) -> zval z2 ts = zval z0 ts.
Proof. induction ts as [|[c v] ts IH]; intros H; auto. rewrite !zval_cons, (z2_old v) by (eapply H; now left). f_equal. apply IH. intros; eapply H; right; eauto. Qed.

Lemma z2_feasible V o cuts lms J J' : (o_pg o <> PgNone -> forall a, (cnt plan a <= 100)%nat) -> (forall t k, cp t k -> In k (s_cyclic K) -> (u t <= 100)%nat) ->
  Z.of_nat (length plan) <= INT_MAX -> Z.of_nat (length ms) <= INT_MAX ->
  (forall c, In c cuts -> hit ms plan c) -> (forall e, In e lms -> met P (holds s) tn ms plan e) -> (o_net o = true -> vars_ok P V /\ sas_ok P V) ->
  dof_ilp P V o r s C cuts lms = Some J -> tdg_ilp P K Pr r C J = Some J' -> zfeasible J' z2 /\ zval z2 (i_obj J') = zval z0 (i_obj J).
Proof.
  intros H100 HU LP LM HC HL HV EJ EJ'. pose proof (z_feasible _ _ _ _ _ _ _ _ _ _ DI ms plan SO V o cuts lms J H100 LP LM HC HL HV EJ) as [F1 F2].
  destruct (declared _ _ _ _ _ _ _ _ _ _ DI V o cuts lms J EJ) as (_ & KO & KC).
  assert (OV : forall v b, In (v, b) (i_vars J) -> old v).
  { unfold dof_ilp in EJ. apply obind_some in EJ as (vs & E1 & E). apply obind_some in E as (ob & E2 & E). apply obind_some in E as (pc & E3 & E). apply obind_some in E as (hc & E4 & E).
    apply obind_some in E as (lc & E5 & E). apply obind_some in E as (nc & E6 & E). injection E as <-. cbn [i_vars]. intros v b. eapply vars_old; eauto. }
  assert (OK' : forall ts, known (i_vars J) ts -> forall c v, In (c, v) ts -> old v) by (intros ts Hts c v I; apply Hts in I; apply in_map_iff in I as ([v' b] & <- & I); eapply OV; eauto).
  destruct (tdg_ilp_eq J) as (J2 & l & E & El & E1 & E2 & E3). assert (J2 = J') by congruence. subst J2. split; [|rewrite E2; apply zval_old; eauto].
  destruct (reach_all _ _ _ _ _ _ _ _ _ _ DI ms plan SO) as (_ & RM & _ & _).
  assert (MVP : forall m, 0 <= z2 (MV m)) by (intros m; cbn; lia). assert (MV1 : forall m, In m ms -> 1 <= z2 (MV m)) by (intros m Hm; cbn; apply (count_occ_In Nat.eq_dec) in Hm; lia).
  split.
  - intros v lo hi. rewrite E1. intros I. apply in_app_iff in I as [I|I]; [rewrite z2_old by (eapply OV; eauto); eauto|]. apply in_flat_map in I as ([vs cs] & Il & I). apply (omap_in _ _ _ El) in Il as (k & Hk & Ek).
    destruct (tdg_scc_eq k Hk) as (fs & vs' & cs' & Es & _ & EV & _). assert (H : vs' = vs) by congruence. cbn [fst] in I. rewrite <- H, EV in I. clear H.
    assert (X : lo = 0 /\ hi = INT_MAX /\ ~ old v).
    { apply in_app_iff in I as [I|I]; [apply in_map_iff in I as (y & I & _); injection I as <- <- <-; auto|]. apply in_flat_map in I as (j & _ & I). apply in_flat_map in I as (y & _ & [I|I]); [injection I as <- <- <-; auto|].
      apply in_map_iff in I as (y2 & I & _). injection I as <- <- <-. auto. }
    destruct X as (-> & -> & N). destruct v; try (now elim N); cbn [z2]; unfold INT_MAX; [destruct (lay k0 t); lia|]. destruct k0; [lia|]. destruct (lay k0 t && step t t'); lia.
  - intros c. rewrite E3. intros I. apply in_app_iff in I as [I|I].
    { pose proof (F2 c I) as Q. unfold zsat in *. rewrite zval_old by (apply OK', KC, I). exact Q. }
    apply in_flat_map in I as ([vs cs] & Il & I). apply (omap_in _ _ _ El) in Il as (k & Hk & Ek). destruct (tdg_scc_eq k Hk) as (fs & vs' & cs' & Es & Hfs & _ & EC). assert (H : cs' = cs) by congruence. cbn [snd] in I. rewrite <- H, EC in I. clear EC H.
    set (ts := filter (taskReachable r) (members (s_of K) k)) in *. assert (ITS : forall t', In t' ts <-> cp t' k /\ taskReachable r t' = true) by (intros t'; unfold ts; rewrite filter_In, members_in; reflexivity).
    assert (CT : forall t', In t' ts -> comp_ts t' = ts) by (intros t' H; apply ITS in H as [H _]; unfold comp_ts; now rewrite H).
    apply in_app_iff in I as [I|I]; [|apply in_app_iff in I as [I|I]].
    + apply in_map_iff in I as (t & <- & Ht). apply zsat_below. cbn [z2]. destruct (lay 0 t) eqn:E0; [|assert (0 <= zval z2 (map (fun m => (1, MV m)) (filter (methodReachable r) (incoming P fs t)))) by (apply zval_nonneg; auto); lia].
      cbn [lay] in E0. apply orb_true_iff in E0 as [E0|E0]; [apply Nat.ltb_lt in E0; assert (0 <= zval z2 (map (fun m => (1, MV m)) (filter (methodReachable r) (incoming P fs t)))) by (apply zval_nonneg; auto); lia|].
      apply existsb_mem in E0 as (m & Hm & Im). apply in_incoming in Hm as (md & Em & Hf & It). apply ITS in Ht as [Hc Rt].
      assert (1 <= zval z2 (map (fun m => (1, MV m)) (filter (methodReachable r) (incoming P fs t)))); [|lia]. apply zval_one with (a := m); auto. apply filter_In. split; auto. apply in_incoming. exists md. split; auto. split; auto.
      apply (Hfs t md m Em Hc It). intros Q. destruct (scc_get k Hk) as (pr & fs0 & _ & Epr & Efs0 & Hfs0).
      unfold comp_fs in Hf. rewrite Hc, Epr in Hf. apply in_flat_map in Hf as (j & Hj & Hf). apply members_in in Hf. unfold comp, get in Hf. assert (j = k) by congruence. subst j. destruct RO as (_ & _ & _ & RP). apply (RP k pr Epr) in Hj as [N _]. auto.
    + apply in_flat_map in I as (i & _ & I). apply in_flat_map in I as (t & Ht & [<-|I]).
      * unfold c10. apply zsat_below. rewrite zval_cons. assert (NN : forall t2, In t2 (to_from P ts t) -> 0 <= z2 (IV (S i) t2 t)) by (intros t2 _; cbn [z2]; destruct (lay i t2 && step t2 t); lia).
        pose proof (zval_nonneg z2 (fun t2 => IV (S i) t2 t) (to_from P ts t) NN) as N0. cbn [z2]. destruct (lay (S i) t) eqn:E0; [|destruct (lay i t); lia]. cbn [lay] in E0. destruct (lay i t); [lia|]. cbn [orb] in E0.
        rewrite (CT t Ht) in E0. apply existsb_exists in E0 as (t2 & H2 & E0). enough (1 <= zval z2 (map (fun t2 => (1, IV (S i) t2 t)) (to_from P ts t))) by lia. apply zval_one with (a := t2); auto.
        -- apply in_to_from. split; auto. apply andb_true_iff in E0 as [_ E0]. apply existsb_mem in E0 as (m & Hm & _). eauto.
        -- cbn [z2]. rewrite E0. lia.
      * apply in_flat_map in I as (t2 & H2 & [<-|[<-|[]]]).
        -- unfold c11. apply zsat_below. rewrite zval_cons. cbn [z2 zval fold_right]. destruct (lay i t2); cbn [andb]; [destruct (step t2 t); lia|lia].
        -- unfold c12. apply zsat_below. pose proof (zval_nonneg z2 MV (filter (methodReachable r) (inner P t2 t)) (fun m _ => MVP m)) as N0. cbn [z2]. destruct (lay i t2 && step t2 t) eqn:E0; [|lia]. apply andb_true_iff in E0 as [_ E0]. apply existsb_mem in E0 as (m & Hm & Im).
           enough (1 <= zval z2 (map (fun m => (1, MV m)) (filter (methodReachable r) (inner P t2 t)))) by lia. apply zval_one with (a := m); auto. apply filter_In. auto.
    + apply in_map_iff in I as (t & <- & Ht). unfold c13. apply zsat_below. rewrite zval_cons. cbn [z2 zval fold_right]. apply ITS in Ht as [Hc Rt]. pose proof (HU t k Hc Hk). change (z0 (UA t)) with (Z.of_nat (u t)).
      destruct (Nat.eq_dec (u t) 0) as [Z0|NZ]; [rewrite Z0; match goal with |- context [lay ?a ?b] => destruct (lay a b) end; lia|]. destruct (used_reached k t Hk Hc ltac:(lia)) as (i & Hi).
      rewrite (saturated k t i Hc Rt Hi). lia.
Qed.
End Solution.
End Tdg.
