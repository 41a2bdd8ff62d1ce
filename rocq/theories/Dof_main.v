(** Every solution of a node is a feasible assignment of the program. *)
From Coq Require Import Sorted.
From Verif Require Import Base Htn_problem Htn_spec Htn_sem Heap_model IntUtil_model IntUtil_thm Tab_model Tab_thm Pg_model Pg_spec Pg_proof Pg_thm Rc_spec Rc_proof Lm_spec Dof_spec Dof_model Dof_count Dof_proof Dof_net.
Local Open Scope Z_scope.

(** What is known about a node: reachability has been computed with a set of tasks that covers the network; the table of contained tasks is exact. *)
Record dof_input (al : nat -> list Z) (P : problem) (T : pg_tables) (q0 : heap) (s R : list bool) (r : pg_result) (tn : tnet) (L : list tid) (C : ctable) : Prop := {
  di_pg : pg_input al P T q0 s R;
  di_calc : calcReachability al P T q0 s R = Some r;
  di_int : forall v, In v (r_op r) -> v < INT_MAX;
  di_prim : forall t, (t < length (p_cost P))%nat -> nth_error (p_prim P) t = Some true;
  di_closed : closed_tasks P (holds R);
  di_tasks : forall x, t_in tn x -> holds R (t_lab tn x);
  di_wf : wf_tn tn;
  di_enum : enumerates tn L;
  di_asc : ascending (map fst C);
  di_cont : forall z c, In (z, c) C <-> exists t, z = Z.of_nat t /\ In t (map (t_lab tn) L) /\ c = Z.of_nat (cnt (map (t_lab tn) L) t) }.

Lemma asc_le l : ascending l -> forall i j, (i <= j)%nat -> (j < length l)%nat -> nth i l 0 <= nth j l 0.
Proof.
  induction 1 as [|x l S IH F]; intros i j H1 H2; [cbn in H2; lia|]. destruct i as [|i], j as [|j]; cbn [nth length] in *; try lia.
  - rewrite Forall_forall in F. specialize (F (nth j l 0) ltac:(apply nth_In; lia)). lia.
  - apply IH; lia.
Qed.

Lemma oflat_map {A B} (f : A -> option (list B)) g l : (forall a, In a l -> f a = Some (g a)) -> oflat f l = Some (flat_map g l).
Proof.
  intros H. unfold oflat. enough (E : omap f l = Some (map g l)) by (rewrite E; cbn; now rewrite flat_map_concat_map).
  induction l as [|a l IH]; cbn; auto. rewrite (H a (or_introl eq_refl)). cbn. rewrite IH; auto. intros; apply H; now right.
Qed.

Lemma method_used P (R A : nat -> Prop) tn ms tn' : closed_tasks P R -> Rc_spec.refines_by P tn ms tn' -> (forall x, t_in tn x -> R (t_lab tn x)) ->
  (forall x, t_in tn' x -> task_reach P R A (t_lab tn' x)) -> forall i, In i ms -> method_reach P R A i.
Proof.
  intros CR. induction 1 as [tn|tn x i m tn1 ms tn2 E D RF IH]; intros HR HA j Hj; [easy|].
  assert (R1 : forall y, t_in tn1 y -> R (t_lab tn1 y)) by (eapply refine_allowed; [exact CR| |exact HR]; eapply ref_step; [exact D|constructor]).
  destruct Hj as [<-|Hj]; [|now apply IH]. apply (mr_intro _ _ _ i m E); [rewrite <- (d_lab _ _ _ _ _ D); apply HR, (d_in _ _ _ _ _ D)|]. intros t Ht.
  destruct (In_nth_error _ _ Ht) as (k & Ek). rewrite <- (d_lab_new _ _ _ _ _ D k t Ek). apply (refine_reach P R A tn1 tn2 CR (refines_by_refines _ _ _ _ RF) R1 HA).
  apply (d_in' _ _ _ _ _ D). right. exists k. split; auto. apply nth_error_Some. congruence.
Qed.

Section Node.
Variables (al : nat -> list Z) (P : problem) (T : pg_tables) (q0 : heap) (s R : list bool) (r : pg_result) (tn : tnet) (L : list tid) (C : ctable).
Hypothesis DI : dof_input al P T q0 s R r tn L C.
Notation na := (length (p_cost P)).
Notation lab := (map (t_lab tn) L).
Let WP : wf_problem P := pi_wp _ _ _ _ _ _ (di_pg _ _ _ _ _ _ _ _ _ _ DI).

Lemma in_acts a : In a (acts P r) <-> taskReachable r a = true /\ (a < na)%nat.
Proof. eapply acts_exact; [exact WP|apply DI|apply DI]. Qed.
Lemma relative : exists A, NoDup (r_tasks r) /\ NoDup (r_meths r) /\ NoDup (r_useful r) /\ (forall a, In a A -> (a < na)%nat) /\
  (forall t, taskReachable r t = true <-> task_reach P (holds R) (fun a => In a A) t) /\
  (forall m, methodReachable r m = true <-> method_reach P (holds R) (fun a => In a A) m) /\
  (forall f, In f (r_useful r) <-> (f < p_nfacts P)%nat /\ ~ holds s f /\ (In f (p_goal P) \/ exists a, In a A /\ precs P a f)).
Proof.
  destruct (pg_relative al P T q0 s R r (di_pg _ _ _ _ _ _ _ _ _ _ DI) (di_calc _ _ _ _ _ _ _ _ _ _ DI)) as (A & _ & H1 & H2 & H3 & H4 & H5 & H6 & H7). exists A.
  split; auto. split; auto. split; auto. split; [|auto]. intros a Ha. now apply H1.
Qed.
Lemma useful_in f : useful r f = true <-> In f (r_useful r).
Proof. apply memb_In. Qed.
Lemma useful_new f : useful r f = true -> (f < p_nfacts P)%nat /\ ~ holds s f.
Proof. rewrite useful_in. destruct relative as (A & _ & _ & _ & _ & _ & _ & H). rewrite H. tauto. Qed.
Lemma meth_lt m : In m (r_meths r) -> exists md, nth_error (p_methods P) m = Some md /\ In md (p_methods P).
Proof.
  intros H. destruct relative as (A & _ & _ & _ & _ & _ & HM & _). apply memb_In in H. apply HM in H. inversion H as [m' md E _ _]; subst. exists md. split; auto. eapply nth_error_In; eauto.
Qed.

Lemma tn_count_ok t : tn_count C t = Some (Z.of_nat (cnt lab t)).
Proof.
  unfold tn_count, ct_index. destruct (indexOf_correct (map fst C) 0 (length C) (Z.of_nat t)) as (i & E & H).
  - now rewrite map_length.
  - intros i j _ H1 H2. apply asc_le; [apply DI|auto|now rewrite map_length].
  - rewrite E. cbn [obind]. destruct H as [(k & Hk & -> & Hv)|(-> & N)].
    + replace (0 <=? Z.of_nat k) with true by (symmetry; apply Z.leb_le; lia). rewrite Nat2Z.id. destruct (nth_error C k) as [[z c]|] eqn:Q; [|apply nth_error_None in Q; lia].
      unfold get. rewrite Q. cbn [obind]. assert (EZ : z = Z.of_nat t). { rewrite <- Hv. erewrite nth_error_nth; [|rewrite nth_error_map, Q; reflexivity]. reflexivity. }
      apply nth_error_In in Q. apply (di_cont _ _ _ _ _ _ _ _ _ _ DI) in Q as (u & Eu & _ & ->). assert (u = t) by lia. now subst.
    + cbn. f_equal. assert (NI : ~ In t lab).
      { intros I. assert (X : In (Z.of_nat t, Z.of_nat (cnt lab t)) C) by (apply (di_cont _ _ _ _ _ _ _ _ _ _ DI); eauto).
        apply In_nth_error in X as (k & Ek). apply (N k); [split; [lia|apply nth_error_Some; congruence]|]. erewrite nth_error_nth; [|rewrite nth_error_map, Ek; reflexivity]. reflexivity. }
      apply (count_occ_not_In Nat.eq_dec) in NI. now rewrite NI.
Qed.

(** *** Definedness *)
Lemma add_def a : In a (acts P r) -> exists l, nth_error (p_add P) a = Some l.
Proof. intros H. apply in_acts in H as [_ H]. destruct (nth_error (p_add P) a) eqn:E; [eauto|]. apply nth_error_None in E. rewrite (wf_add _ WP) in E. lia. Qed.
Lemma prec_def a : In a (acts P r) -> exists l, nth_error (p_prec P) a = Some l.
Proof. intros H. apply in_acts in H as [_ H]. destruct (nth_error (p_prec P) a) eqn:E; [eauto|]. apply nth_error_None in E. rewrite (wf_prec _ WP) in E. lia. Qed.
Lemma e_list_def a : In a (acts P r) -> exists l, e_list P r a = Some l.
Proof. intros H. destruct (add_def a H) as (l & E). unfold e_list, get. rewrite E. cbn. eauto. Qed.
Lemma p_list_def a : In a (acts P r) -> exists l, p_list P r a = Some l.
Proof. intros H. destruct (prec_def a H) as (l & E). unfold p_list, get. rewrite E. cbn. eauto. Qed.
Lemma tup_flat t : tup P r t = Some (flat_map (fun m => map (fun _ => (1, MV m)) (filter (Nat.eqb t) (subs_of P m))) (r_meths r)).
Proof. unfold tup. apply oflat_map. intros m Hm. destruct (meth_lt m Hm) as (md & E & _). unfold get, subs_of. now rewrite E. Qed.

Lemma dof_ilp_defined V o cuts lms : (o_net o = true -> vars_ok P V) -> (forall f, In (EF f) lms -> (f < p_nfacts P)%nat) -> exists J, dof_ilp P V o r s C cuts lms = Some J.
Proof.
  intros VO FL. pose proof (pi_s _ _ _ _ _ _ (di_pg _ _ _ _ _ _ _ _ _ _ DI)) as Ls.
  assert (GS : forall f, (f < p_nfacts P)%nat -> exists b, get s f = Some b). { intros f Hf. unfold get. destruct (nth_error s f) eqn:E; [eauto|]. apply nth_error_None in E. lia. }
  unfold dof_ilp.
  assert (V1 : exists vs, dof_vars P o r = Some vs).
  { unfold dof_vars. edestruct (oflat_def (fun a => l <- e_list P r a ;; Some (map (fun '(i, _) => (EV a i, (0, 1))) l)) (acts P r)) as (es & ->); [|cbn; eauto].
    intros a Ha. destruct (e_list_def a Ha) as (l & ->). cbn. eauto. }
  destruct V1 as (vs & ->). cbn [obind].
  assert (V2 : exists ob, dof_obj P o r = Some ob).
  { unfold dof_obj. destruct (o_setting o); [eauto|]. apply Rc_proof.omap_some. intros a Ha. apply in_acts in Ha as [_ Ha]. unfold get. destruct (nth_error (p_cost P) a) eqn:E; [cbn; eauto|].
    apply nth_error_None in E. lia. }
  destruct V2 as (ob & ->). cbn [obind].
  assert (V3 : exists pc, pg_cons P o r = Some pc).
  { assert (X23 : exists l, oflat (c23 P r) (acts P r) = Some l).
    { apply oflat_def. intros a Ha. unfold c23. destruct (p_list_def a Ha) as (p & ->), (e_list_def a Ha) as (e & ->). cbn. eauto. }
    assert (X5 : exists l, oflat (c5 P r) (acts P r) = Some l). { apply oflat_def. intros a Ha. unfold c5. destruct (p_list_def a Ha) as (p & ->). cbn. eauto. }
    assert (X6 : exists l, oflat (c6 P r) (acts P r) = Some l). { apply oflat_def. intros a Ha. unfold c6. destruct (e_list_def a Ha) as (p & ->). cbn. eauto. }
    destruct X23 as (l23 & E23), X5 as (l5 & E5), X6 as (l6 & E6). unfold pg_cons. destruct (o_pg o); rewrite ?E23, ?E5, ?E6; cbn; eauto. }
  destruct V3 as (pc & ->). cbn [obind].
  assert (V4 : exists hc, oflat (htn_cons P r C) (r_tasks r) = Some hc).
  { apply oflat_def. intros t _. unfold htn_cons. rewrite tup_flat, tn_count_ok. cbn [obind]. eauto. }
  destruct V4 as (hc & ->). cbn [obind].
  assert (V5 : exists lc, oflat (lm_cons r s) lms = Some lc).
  { apply oflat_def. intros e He. destruct e as [f|t|m]; cbn [lm_cons]; eauto. destruct (GS f (FL f He)) as (b & ->). cbn. eauto. }
  destruct V5 as (lc & ->). cbn [obind].
  assert (V6 : exists nc, net_cons P V o r s = Some nc).
  { unfold net_cons. destruct (o_net o); [|eauto]. destruct (nc_tables_ok P V WP (VO eq_refl)) as (x & -> & _). cbn [obind]. apply oflat_def. intros f Hf. apply in_seq in Hf. unfold net_con.
    destruct (useful r f); cbn [negb]; [|eauto]. rewrite map_length. destruct (containsInt_sound (p_goal P) f) as (b & -> & _). cbn [obind].
    destruct (var_of_ok P V (VO eq_refl) f) as (fi & la & EV & _); [lia|]. destruct (GS f) as (b' & Eb); [lia|]. rewrite EV, Eb. destruct b; eexists; reflexivity. }
  destruct V6 as (nc & ->). cbn [obind]. eauto.
Qed.
End Node.
