(** The implications of the ILP heuristic: solutions satisfy them. *)
From Verif Require Import Base Htn_problem Htn_spec Htn_sem Heap_model IntUtil_model Tab_model Pg_model Pg_spec Pg_thm Rc_spec Rc_proof Lm_model Lm_spec Lm_proof Lm_graph Lm_thm Scc_model Reach_proof Dof_spec Dof_model Dof_count Dof_proof Dof_net Dof_main Dof_sol Dof_relax Tdg_model Tdg_proof Imp_model.
Import Rc_spec.
Local Open Scope Z_scope.

(** ** Derivations of what a solution contains *)
Section Dv.
Variables (P : problem) (s : state) (R : nat -> Prop) (Q : elem -> Prop).
Let D (x : elem) : Prop := exists W, dv P s R x W /\ forall y, In y W -> Q y.
Lemma refine_all tn ms tn' : closed_tasks P R -> refines_by P tn ms tn' -> (forall x, t_in tn x -> R (t_lab tn x)) ->
  (forall x, t_in tn x -> Q (ET (t_lab tn x))) -> (forall m md, In m ms -> nth_error (p_methods P) m = Some md -> Q (EM m) /\ forall t, In t (m_subs md) -> Q (ET t)) -> (forall x, t_in tn' x -> D (ET (t_lab tn' x))) ->
  (forall x, t_in tn x -> D (ET (t_lab tn x))) /\ (forall m md, In m ms -> nth_error (p_methods P) m = Some md -> D (EM m) /\ forall t, In t (m_subs md) -> D (ET t)).
Proof.
  intros CR. induction 1 as [tn|tn x m md tn1 ms tn2 Em DC RB IH]; intros HR HT HM HP; [split; [auto|easy]|].
  assert (R1 : forall y, t_in tn1 y -> R (t_lab tn1 y)) by (eapply refine_allowed; [exact CR| |exact HR]; eapply ref_step; [exact DC|constructor]).
  destruct (HM m md (or_introl eq_refl) Em) as [QM QS].
  assert (Q1 : forall y, t_in tn1 y -> Q (ET (t_lab tn1 y))).
  { intros y Hy. apply (d_in' _ _ _ _ _ DC) in Hy as [[Hy N]|(j & Lj & ->)]; [rewrite (d_lab_old _ _ _ _ _ DC y Hy N); auto|].
    destruct (nth_error (m_subs md) j) as [t|] eqn:Ej; [|apply nth_error_None in Ej; lia]. rewrite (d_lab_new _ _ _ _ _ DC j t Ej). apply QS. eapply nth_error_In; eauto. }
  destruct (IH R1 Q1 (fun m0 md0 H => HM m0 md0 (or_intror H)) HP) as [I1 I2].
  assert (DS : forall t, In t (m_subs md) -> D (ET t)).
  { intros t Ht. apply In_nth_error in Ht as (j & Ej). rewrite <- (d_lab_new _ _ _ _ _ DC j t Ej). apply I1. apply (d_in' _ _ _ _ _ DC). right. exists j. split; auto. apply nth_error_Some. congruence. }
  assert (XI : t_in tn x) by (apply (d_in _ _ _ _ _ DC)).
  assert (DM : D (EM m)).
  { destruct (dvs_with P s R Q (map ET (m_subs md))) as (W & DW & NW); [intros z Hz; apply in_map_iff in Hz as (t & <- & Ht); now apply DS|].
    exists (EM m :: W). split; [eapply dv_meth; [exact Em| |exact DW]; rewrite <- (d_lab _ _ _ _ _ DC); auto|]. intros z [<-|Hz]; auto. }
  split.
  - intros y Hy. destruct (list_eq_dec Nat.eq_dec y x) as [->|N].
    + pose proof (HT x Hy) as QT. rewrite (d_lab _ _ _ _ _ DC) in *. destruct DM as (W & DW & NW). exists (ET (m_task md) :: W). split; [eapply dv_task; eauto|]. intros z [<-|Hz]; auto.
    + rewrite <- (d_lab_old _ _ _ _ _ DC y Hy N). apply I1. apply (d_in' _ _ _ _ _ DC). auto.
  - intros m0 md0 [<-|H] E0; [assert (md0 = md) by congruence; subst; auto|eauto].
Qed.
End Dv.

Section Imp.
Variables (al : nat -> list Z) (P : problem) (T : pg_tables) (q0 : heap) (s R : list bool) (r : pg_result) (tn : tnet) (L : list tid) (C : ctable).
Hypothesis DI : dof_input al P T q0 s R r tn L C.
Let WP : wf_problem P := pi_wp _ _ _ _ _ _ (di_pg _ _ _ _ _ _ _ _ _ _ DI).
Variables (ms plan : list nat).
Hypothesis SO : solves_by P (holds s) tn ms plan.
Local Notation met := (met P (holds s) tn ms plan).
Local Notation u := (u P tn L ms).
Local Notation z := (z P tn L ms plan).

Lemma u_met t : (1 <= u t)%nat <-> met (ET t).
Proof.
  unfold Dof_sol.u. cbn [Dof_spec.met]. split.
  - intros H. destruct (Nat.eq_dec (count_occ Nat.eq_dec (map (t_lab tn) L) t) 0) as [Q|Q].
    + right. assert (H1 : (1 <= produced P ms t)%nat) by lia. clear -H1. unfold produced in H1. induction ms as [|n l IH]; [cbn in H1; lia|]. cbn [map] in H1. rewrite sum_cons in H1.
      destruct (Nat.eq_dec (count_occ Nat.eq_dec (subs_of P n) t) 0) as [Q|Q].
      * destruct IH as (m & md & A & B & D); [lia|]. exists m, md. split; [now right|auto].
      * unfold subs_of in Q. destruct (nth_error (p_methods P) n) as [md|] eqn:E; cbn in Q; [|lia]. exists n, md. split; [now left|]. split; auto. apply (count_occ_In Nat.eq_dec). lia.
    + left. assert (H1 : In t (map (t_lab tn) L)) by (apply (count_occ_In Nat.eq_dec); lia). apply in_map_iff in H1 as (x & <- & Hx). exists x. split; auto. now apply (di_enum _ _ _ _ _ _ _ _ _ _ DI).
  - intros [(x & X1 & X2)|(m & md & M1 & M2 & M3)].
    + assert (X : In t (map (t_lab tn) L)) by (subst t; apply in_map; now apply (di_enum _ _ _ _ _ _ _ _ _ _ DI)). apply (count_occ_In Nat.eq_dec) in X. lia.
    + apply (count_occ_In Nat.eq_dec) in M3. enough (1 <= produced P ms t)%nat by lia. assert (MS : m_subs md = subs_of P m) by (unfold subs_of; now rewrite M2). rewrite MS in M3. unfold produced. clear -M1 M3. induction ms as [|n l IH]; [easy|]. cbn [map]. rewrite sum_cons.
      destruct M1 as [->|M1]; [lia|specialize (IH M1); lia].
Qed.
Lemma fact_lt f k : after P (holds s) (firstn k plan) f -> (f < p_nfacts P)%nat /\ factReachable r f = Some true.
Proof.
  intros H. destruct (pg_complete al P T q0 s R r (di_pg _ _ _ _ _ _ _ _ _ _ DI) (di_calc _ _ _ _ _ _ _ _ _ _ DI) (di_int _ _ _ _ _ _ _ _ _ _ DI)) as (C1 & _).
  assert (F : factReachable r f = Some true).
  { apply C1. destruct (plan_reach P (holds s) (holds R) (firstn k plan)) with (s' := holds s) as [_ A2]; auto.
    - intros a Ha. assert (Ia : In a plan) by (rewrite <- (firstn_skipn k plan); apply in_or_app; auto). split; [eapply plan_lt; eauto|].
      destruct SO as (tn' & L' & RF & PR & (_ & IL & _) & E & EX & GO). rewrite E in Ia. apply in_map_iff in Ia as (x & <- & Hx). apply IL in Hx.
      eapply refine_allowed; [apply DI|eapply refines_by_refines; eauto|apply DI|exact Hx].
    - intros g Hg. now apply fr_state.
    - pose proof (execs _ _ _ _ _ SO) as [EX _]. rewrite <- (firstn_skipn k plan) in EX. now apply exec_app in EX. }
  split; auto. destruct (nth_error s f) as [b|] eqn:Es; [rewrite <- (pi_s _ _ _ _ _ _ (di_pg _ _ _ _ _ _ _ _ _ _ DI)); apply nth_error_Some; congruence|].
  destruct (achieved_prefix P plan k _ _ H) as (a & Ea); [unfold holds; rewrite Es; discriminate|]. apply achiever_in in Ea as [_ (l & El & Il)]. eapply (wf_facts _ WP); [right; left; eapply nth_error_In; exact El|exact Il].
Qed.

(** Whatever occurs in a solution has only landmarks that occur as well. *)
Lemma met_landmark x y : met x -> landmark P (holds s) (holds R) x y -> met y.
Proof.
  intros MX LM. enough (exists W, dv P (holds s) (holds R) x W /\ forall y, In y W -> met y) as (W & DW & NW) by auto.
  pose proof SO as (tn' & L' & RF & PR & (_ & IL & _) & E & EX & GO).
  assert (AP : forall a, In a plan -> holds R a /\ met (ET a) /\ (a < length (p_cost P))%nat).
  { intros a Ha. split; [|split].
    - rewrite E in Ha. apply in_map_iff in Ha as (w & <- & Hw). apply IL in Hw. eapply refine_allowed; [apply DI|eapply refines_by_refines; eauto|apply DI|exact Hw].
    - apply u_met. rewrite (u_act _ _ _ _ _ _ _ _ _ _ DI ms plan SO) by (eapply plan_lt; eauto). now apply (count_occ_In Nat.eq_dec) in Ha.
    - eapply plan_lt; eauto. }
  assert (MF : forall k f, after P (holds s) (firstn k plan) f -> met (EF f)) by (intros k f H; split; [apply (fact_lt f k H)|eauto]).
  destruct (plan_dv P (holds s) (holds R) met plan WP EX AP MF) as [_ DA].
  destruct (refine_all P (holds s) (holds R) met tn ms tn') as [T1 T2]; auto; try apply DI.
  { intros w Hw. left. eauto. }
  { intros m md Hm Em. split; [exact Hm|]. intros t Ht. right. eauto. }
  { intros w Hw. apply DA. rewrite E. apply in_map. now apply IL. }
  destruct x as [f|t|m].
  - destruct MX as (_ & k & H). assert (IP : forall a, In a (firstn k plan) -> In a plan) by (intros a Ha; rewrite <- (firstn_skipn k plan); apply in_or_app; auto).
    destruct (plan_dv P (holds s) (holds R) met (firstn k plan) WP) as [D1 _]; auto.
    + rewrite <- (firstn_skipn k plan) in EX. now apply exec_app in EX.
    + intros j g Hg. rewrite firstn_firstn in Hg. eauto.
  - destruct MX as [(w & W1 & <-)|(m & md & M1 & M2 & M3)]; [auto|]. now apply (T2 m md M1 M2).
  - cbn in MX. pose proof (refines_by_methods _ _ _ _ RF m MX) as Lm. destruct (nth_error (p_methods P) m) as [md|] eqn:Em; [|apply nth_error_None in Em; lia]. now apply (T2 m md MX Em).
Qed.

Lemma z_met x : 1 <= z (elem_var x) -> met x.
Proof.
  destruct x as [f|t|m]; cbn [elem_var Dof_sol.z].
  - destruct (achiever P plan f) as [a|] eqn:Ea; [|lia]. intros _. apply achiever_in in Ea as [Ia AD]. apply in_split in Ia as (l1 & l2 & E).
    assert (H : after P (holds s) (firstn (length (l1 ++ [a])) plan) f).
    { rewrite E. replace (l1 ++ a :: l2) with ((l1 ++ [a]) ++ l2) by (now rewrite <- app_assoc). rewrite firstn_app, firstn_all, Nat.sub_diag. cbn [firstn]. rewrite app_nil_r, after_app. now left. }
    split; [apply (fact_lt f _ H)|eauto].
  - intros H. apply u_met. lia.
  - intros H. cbn. apply (count_occ_In Nat.eq_dec). lia.
Qed.

(** An assignment that counts like the solution satisfies every implication. *)
Lemma imp_ok (w : var -> Z) I l : (forall x, w (elem_var x) = z (elem_var x)) -> (forall t, (u t <= 100)%nat) -> (forall m, (count_occ Nat.eq_dec ms m <= 100)%nat) ->
  (forall x ys y, In x (imp_elems r) -> I x = Some ys -> In y ys -> landmark P (holds s) (holds R) x y) -> imp_cons r s I = Some l -> forall c, In c l -> zsat w c.
Proof.
  intros HW HU HM HI E c Hc. unfold imp_cons in E. apply (oflat_some _ _ _ E) in Hc as (x & l1 & Hx & E1 & Hc). apply obind_some in E1 as (ys & Ey & E1). apply (oflat_some _ _ _ E1) in Hc as (y & l2 & Hy & E2 & Hc).
  specialize (HI x ys y Hx Ey Hy). assert (B : 0 <= z (elem_var x) <= 100).
  { destruct x as [f|t|m]; cbn [elem_var Dof_sol.z]; [destruct (achiever P plan f); lia|specialize (HU t); lia|specialize (HM m); lia]. }
  assert (NN : forall v, 0 <= z v). { intros v. destruct v; cbn [Dof_sol.z]; try lia; try (destruct (achiever P plan f); lia). destruct (ev P plan a i); lia. }
  assert (CV : z (elem_var x) = 0 \/ met x) by (destruct (Z.eq_dec (z (elem_var x)) 0); [auto|right; apply z_met; lia]).
  assert (GE : forall e, (met x -> 1 <= z (elem_var e)) -> zsat w (ge0 [(largeC, elem_var e); (-1, elem_var x)])).
  { intros e He. unfold zsat. cbn [ge0 l_terms l_rel l_rhs]. rewrite !zval_cons. cbn [zval fold_right]. rewrite !HW. unfold largeC. pose proof (NN (elem_var e)). destruct CV as [CV|CV]; [lia|specialize (He CV); lia]. }
  assert (ZE : ~ met x -> zsat w (eqc [(1, elem_var x)] 0)).
  { intros N. unfold zsat. cbn [eqc l_terms l_rel l_rhs]. rewrite !zval_cons. cbn [zval fold_right]. rewrite !HW. destruct CV as [CV|CV]; [lia|tauto]. }
  destruct (reach_all _ _ _ _ _ _ _ _ _ _ DI ms plan SO) as (_ & RM & RT & _).
  destruct y as [f|t|m]; cbn [imp_con] in E2.
  - apply obind_some in E2 as (b & Eb & E2). destruct (negb b && useful r f) eqn:Q.
    + injection E2 as <-. destruct Hc as [<-|[]]. apply (GE (EF f)). intros MX. destruct (met_landmark _ _ MX HI) as [_ H]. cbn [elem_var]. rewrite (uf_new P s tn L ms plan f); [lia| |exact H]. apply andb_true_iff in Q as [Q _]. destruct b; [discriminate|]. unfold holds. unfold get in Eb. congruence.
    + apply obind_some in E2 as (fr & Ef & E2). injection E2 as <-. destruct fr; [easy|]. destruct Hc as [<-|[]]. apply ZE. intros MX. destruct (met_landmark _ _ MX HI) as (_ & k & H). apply fact_lt in H as [_ H]. congruence.
  - injection E2 as <-. assert (TR : met (ET t) -> taskReachable r t = true).
    { intros [(w0 & W1 & <-)|(m & md & M1 & M2 & M3)]; [auto|]. destruct (method_parts _ _ _ _ _ _ _ _ _ _ DI m (RM m M1)) as (md' & Em & _ & _ & HS). assert (md' = md) by congruence. subst. auto. }
    destruct (taskReachable r t) eqn:Q; destruct Hc as [<-|[]].
    + apply (GE (ET t)). intros MX. pose proof (met_landmark _ _ MX HI) as H. apply u_met in H. cbn [elem_var Dof_sol.z]. lia.
    + apply ZE. intros MX. pose proof (met_landmark _ _ MX HI) as H. apply TR in H. discriminate.
  - injection E2 as <-. destruct (methodReachable r m) eqn:Q; destruct Hc as [<-|[]].
    + apply (GE (EM m)). intros MX. pose proof (met_landmark _ _ MX HI) as H. cbn in H. apply (count_occ_In Nat.eq_dec) in H. cbn [elem_var Dof_sol.z]. lia.
    + apply ZE. intros MX. pose proof (met_landmark _ _ MX HI) as H. cbn in H. apply RM in H. congruence.
Qed.
End Imp.

Lemma elems_exist al P T q0 s R r tn L C : dof_input al P T q0 s R r tn L C -> forall x, In x (imp_elems r) -> exists_elem P x.
Proof.
  intros DI x H. pose proof (pi_wp _ _ _ _ _ _ (di_pg _ _ _ _ _ _ _ _ _ _ DI)) as WP. destruct (pg_relative al P T q0 s R r (di_pg _ _ _ _ _ _ _ _ _ _ DI) (di_calc _ _ _ _ _ _ _ _ _ _ DI)) as (A & AL & RA & _ & _ & _ & TR & MR & US).
  unfold imp_elems in H. rewrite !in_app_iff in H. destruct H as [H|[H|H]]; apply in_map_iff in H as (k & <- & H); cbn [exists_elem].
  - apply memb_In, TR in H. apply nth_error_Some. inversion H as [a Ha|m md HM Em E']; subst; [|apply nth_error_In in Em; rewrite (wfm_task _ _ (wf_methods _ WP md Em)); discriminate].
    rewrite (di_prim _ _ _ _ _ _ _ _ _ _ DI); [discriminate|]. apply (RA _ Ha).
  - apply memb_In, MR in H. inversion H as [m md Em Rm Hs]; subst. apply nth_error_Some. congruence.
  - apply US in H. tauto.
Qed.

(** ** The iterator *)
Lemma node_elem_code P e : exists_elem P e -> node_elem P (code P e) = e.
Proof.
  unfold node_elem. intros X. destruct e as [f|t|m]; cbn [code exists_elem] in *.
  - destruct (Nat.leb_spec (p_nfacts P) f); [lia|]. cbn [andb]. destruct (Nat.ltb_spec f (p_nfacts P)); [auto|lia].
  - destruct (Nat.leb_spec (p_nfacts P) (p_nfacts P + t)); [|lia]. destruct (Nat.ltb_spec (p_nfacts P + t) (p_nfacts P + length (p_prim P))); [|lia]. cbn. f_equal. lia.
  - destruct (Nat.leb_spec (p_nfacts P) (p_nfacts P + length (p_prim P) + m)); [|lia]. destruct (Nat.ltb_spec (p_nfacts P + length (p_prim P) + m) (p_nfacts P + length (p_prim P))); [lia|]. cbn [andb].
    destruct (Nat.ltb_spec (p_nfacts P + length (p_prim P) + m) (p_nfacts P)); [lia|]. f_equal. lia.
Qed.
Lemma iter_spec P ns e : length ns = numNodes P -> (forall e, exists_elem P e -> node_ok (numNodes P) ns (code P e)) -> exists_elem P e ->
  exists ys, lm_iter P ns e = Some ys /\ forall y, In y ys <-> exists_elem P y /\ attributed ns (code P e) (code P y).
Proof.
  intros LN OK X. pose proof (code_lt P e X) as Lc. pose proof (OK e X) as O. unfold lm_iter. rewrite get_nd by lia. cbn [obind]. destruct (n_full (nd ns (code P e))) eqn:F.
  - exists []. split; auto. intros y. split; [easy|]. intros [_ A]. apply (attributed_lms _ _ _ _ LN O Lc) in A as [A _]. unfold fullb in A. congruence.
  - set (F0 := fun i => z <- get (n_lms (nd ns (code P e))) i ;; Some (node_elem P (Z.to_nat z))). destruct (Rc_proof.omap_some F0 (seq 0 (n_num (nd ns (code P e))))) as (ys & Ey).
    { intros i Hi. apply in_seq in Hi. pose proof (no_num _ _ _ O). unfold F0, get. destruct (nth_error (n_lms (nd ns (code P e))) i) eqn:E; [cbn; eauto|apply nth_error_None in E; lia]. }
    exists ys. split; auto. intros y. rewrite (attributed_lms _ _ _ _ LN O Lc). split.
    + intros Hy. apply (omap_in _ _ _ Ey) in Hy as (i & Hi & E). apply in_seq in Hi. unfold F0 in E. rewrite get_lms in E by (try apply (no_num _ _ _ O); lia). apply obind_some in E as (z & Ez & E). injection E as <-. unfold get in Ez. apply nth_error_In in Ez.
      destruct (no_rng _ _ _ O z Ez) as (j & Lj & -> & _). rewrite Nat2Z.id. destruct (code_surj P j Lj) as (y & Xy & <-). rewrite node_elem_code by auto. split; auto.
    + intros [Xy [_ A]]. apply In_nth_error in A as (i & Ei). assert (Li : (i < n_num (nd ns (code P e)))%nat) by (rewrite <- (lmof_length _ (no_num _ _ _ O)); apply nth_error_Some; unfold lms in Ei; congruence).
      assert (E : F0 i = Some y) by (unfold F0; rewrite get_lms by (try apply (no_num _ _ _ O); lia); unfold get; unfold lms in Ei; rewrite Ei; cbn [obind]; now rewrite Nat2Z.id, node_elem_code).
      clear -Ey E Li. assert (H : In i (seq 0 (n_num (nd ns (code P e))))) by (apply in_seq; lia). revert ys Ey H. generalize (seq 0 (n_num (nd ns (code P e)))). intros l. induction l as [|j l IH]; intros ys Ey H; [easy|].
      cbn [omap] in Ey. apply obind_some in Ey as (b & Eb & Ey). apply obind_some in Ey as (bs & Ebs & Ey). injection Ey as <-. destruct H as [->|H]; [left; congruence|right; eauto].
Qed.
