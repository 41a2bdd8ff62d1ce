(** Theorems about the recursive local landmarks (C165-C168). Proofs are in Loc_proof. *)
From Coq Require Import Relations.
From Verif Require Import Base Htn_problem Htn_model Htn_spec Htn_check Heap_model Relax_thm Pg_spec Pg_thm Lm_model Lm_spec Lm_graph Lm_thm Loc_spec Loc_model Htn_sem Htn_rep Loc_proof.

(** *** C165: the function is defined for every search node and returns the recursive local landmarks of its tasks *)
Theorem local_lms_exact P h n s tn pi : wf_problem P -> wf_heap P h -> Rep P h n s tn pi ->
  exists r, generateLocalLMs P h n = Some r /\ forall u, In u r <-> exists x, t_in tn x /\ recursive_local P (t_lab tn x) u.
Proof.
  intros WF WH RP. destruct (generate_ok P WF h n WH (r_lt _ _ _ _ _ _ RP)) as (r & E & H). exists r. split; auto. intros u. rewrite H. split.
  - intros (i & ps & L & G & Q). exists (pi i). rewrite (r_in _ _ _ _ _ _ RP), (r_lab _ _ _ _ _ _ RP i ps L G). eauto.
  - intros (x & Hx & Q). apply (r_in _ _ _ _ _ _ RP) in Hx as (i & L & <-). pose proof (live_lt P h n i WH (r_lt _ _ _ _ _ _ RP) L) as Li. destruct (get h i) as [ps|] eqn:G; [|unfold get in G; apply nth_error_None in G; lia].
    exists i, ps. rewrite (r_lab _ _ _ _ _ _ RP i ps L G) in Q. auto.
Qed.

(** For the initial node these are the recursive local landmarks of the initial task. *)
Theorem local_lms_initial P w n : wf_problem P -> init_node P = Some (w, n) -> exists r, generateLocalLMs P (w_heap w) n = Some r /\ forall u, In u r <-> recursive_local P (p_init P) u.
Proof.
  intros WF E. unfold init_node in E. apply obind_some in E as (s & _ & E). injection E as <- <-. cbn [w_heap].
  set (h := [_]). assert (WH : wf_heap P h).
  { split; [intros i j (ps & G & I)|intros i ps G]; (destruct i as [|[|i]]; [|discriminate|discriminate]); injection G as <-; [destruct I|]. cbn. apply nth_error_Some. rewrite (wf_init _ WF). discriminate. }
  match goal with |- context [generateLocalLMs P h ?n0] => set (n := n0) end. destruct (generate_ok P WF h n WH) as (r & E & H); [intros i [<-|[]]; cbn; lia|]. exists r. split; auto. intros u. rewrite H. split.
  - intros (i & ps & (r0 & [<-|[]] & Q) & G & Hu). destruct i as [|[|i]]; [|discriminate|discriminate]. injection G as <-. exact Hu.
  - intros Hu. exists 0. eexists. split; [apply live_head; now left|]. split; [reflexivity|exact Hu].
Qed.

(** *** C166: every recursive local landmark is in some network of every decomposition into actions, executable or not *)
Lemma local_later P tn tr tn' x u : wf_problem P -> refines_by P tn tr tn' -> (forall y, t_in tn' y -> primitive P (t_lab tn' y)) -> t_in tn x -> local P (t_lab tn x) u ->
  exists tr1 tr2 tn0 y, tr = tr1 ++ tr2 /\ refines_by P tn0 tr2 tn' /\ t_in tn0 y /\ t_lab tn0 y = u.
Proof.
  intros WF RB PR. induction RB as [tn|tn x0 m md tn1 tr tn2 Em D RB IH]; intros Hx [(m0 & I0 & E0) L].
  - exfalso. pose proof (PR x Hx) as Q. unfold primitive in Q. rewrite <- E0 in Q. rewrite (wfm_task _ _ (wf_methods _ WF _ I0)) in Q. discriminate.
  - destruct (list_eq_dec Nat.eq_dec x x0) as [->|N].
    + assert (I : In u (m_subs md)) by (apply L; [eapply nth_error_In; eauto|symmetry; apply (d_lab _ _ _ _ _ D)]). apply In_nth_error in I as (j & Ej). exists [(tn, m)], tr, tn1, (x0 ++ [j]). split; auto. split; auto. split.
      * apply (d_in' _ _ _ _ _ D). right. exists j. split; auto. apply nth_error_Some. congruence.
      * now apply (d_lab_new _ _ _ _ _ D).
    + destruct (IH PR) as (tr1 & tr2 & tn0 & y & -> & H); [apply (d_in' _ _ _ _ _ D); auto|rewrite (d_lab_old _ _ _ _ _ D) by auto; split; eauto|]. exists ((tn, m) :: tr1), tr2, tn0, y. auto.
Qed.

Theorem local_lms_sound P s plan tn tr tn' x u : wf_problem P -> refines_by P tn tr tn' -> (forall y, t_in tn' y -> primitive P (t_lab tn' y)) -> t_in tn x -> recursive_local P (t_lab tn x) u ->
  occurs P s tr tn' plan (ET u).
Proof.
  intros WF RB PR Hx Q.
  assert (G : forall t u, recursive_local P t u -> forall tn tr x, refines_by P tn tr tn' -> t_in tn x -> t_lab tn x = t -> exists tr1 tr2 tn0 y, tr = tr1 ++ tr2 /\ refines_by P tn0 tr2 tn' /\ t_in tn0 y /\ t_lab tn0 y = u).
  { clear - WF PR. intros t u Q. induction Q as [t u Q|t u v _ IH1 _ IH2]; intros tn tr x RB Hx <-; [eapply local_later; eauto|].
    destruct (IH1 _ _ _ RB Hx eq_refl) as (tr1 & tr2 & tn0 & y & -> & R0 & Hy & Ey). destruct (IH2 _ _ _ R0 Hy Ey) as (tr3 & tr4 & tn1 & z & -> & R1 & Hz & Ez). exists (tr1 ++ tr3), tr4, tn1, z. rewrite <- app_assoc. auto. }
  destruct (G _ _ Q _ _ _ RB Hx eq_refl) as (tr1 & tr2 & tn0 & y & -> & R0 & Hy & Ey). exists tn0, y. split; auto. destruct R0 as [tn0|tn0 x0 m md tn1 tr2 tn2 Em D R0]; auto. right. exists m. apply in_or_app. right. now left.
Qed.

(** *** C167: the AND/OR landmarks contain the recursive local landmarks *)
Lemma dvs_each P s R l W x : dvs P s R l W -> In x l -> exists V, dv P s R x V /\ incl V W.
Proof.
  intros D. induction D as [|y l W V H _ IH]; intros I; [destruct I|]. destruct I as [<-|I]; [exists W; split; auto; apply incl_appl, incl_refl|]. destruct (IH I) as (V' & D' & Q). exists V'. split; auto. now apply incl_appr.
Qed.
Lemma dv_local P precless dst s R t u W : wf_problem P -> lm_wf P precless dst -> dv P s R (ET t) W -> local P t u -> exists V, dv P s R (ET u) V /\ incl V W.
Proof.
  intros WF LW D [(m0 & I0 & E0) L]. inversion D as [| |a l V Ep _ _|m md V Em DM|]; subst.
  - exfalso. pose proof (wfm_task _ _ (wf_methods _ WF _ I0)) as Q. assert (X : m_task m0 < length (p_prec P)) by (apply nth_error_Some; congruence). rewrite (wf_prec _ WF) in X.
    rewrite (lw_prim _ _ _ LW _ X) in Q. discriminate.
  - inversion DM as [| | | |m' md' V' Em' _ DS]; subst. assert (md' = md) by congruence. subst md'.
    destruct (dvs_each _ _ _ _ _ (ET u) DS) as (V & DV & IV); [apply in_map; apply L; auto; eapply nth_error_In; eauto|]. exists V. split; auto. intros y Hy. right. right. auto.
Qed.
Lemma local_landmark P precless dst s R t u : wf_problem P -> lm_wf P precless dst -> recursive_local P t u -> landmark P s R (ET t) (ET u).
Proof.
  intros WF LW Q. assert (G : forall W, dv P s R (ET t) W -> exists V, dv P s R (ET u) V /\ incl V W).
  { induction Q as [t u Q|t u v _ IH1 _ IH2]; intros W D; [eapply dv_local; eauto|]. destruct (IH1 W D) as (V & D1 & I1). destruct (IH2 V D1) as (V2 & D2 & I2). exists V2. split; auto. eapply incl_tran; eauto. }
  intros W D. destruct (G W D) as (V & D1 & I1). apply I1. inversion D1; subst; now left.
Qed.

Theorem local_dominated al P precless dst scc s mm ct h n st tn pi : lm_input al P precless dst scc s mm -> wf_heap P h -> Rep P h n st tn pi ->
  (forall x, t_in tn x -> In (t_lab tn x) ct) -> (forall t, In t ct -> derivable P (holds s) ALL (ET t)) -> (forall f, In f (p_goal P) -> derivable P (holds s) ALL (EF f)) ->
  exists lm r, lm_result al P precless dst scc s (reach_all P) ct mm = Some lm /\ generateLocalLMs P h n = Some r /\ forall u, In u r -> In (LT u) lm.
Proof.
  intros IN WH RP CT DT DG. pose proof (l_wp _ _ _ _ _ _ _ IN) as WF. destruct (lm_result_exact al P precless dst scc s mm ct IN DT DG) as (lm & E & H). destruct (local_lms_exact P h n st tn pi WF WH RP) as (r & Er & Hr).
  exists lm, r. split; auto. split; auto. intros u Hu. apply Hr in Hu as (x & Hx & Q). destruct (proj2 (H (ET u) ltac:(clear - Q WF; cbn; apply clos_trans_tn1 in Q; destruct Q as [u Q|u v Q _]; eapply local_lt; eauto))) as (a & Ha & Ea).
  - left. exists (t_lab tn x). split; auto. eapply local_landmark; eauto. apply (l_wf _ _ _ _ _ _ _ IN).
  - destruct a; cbn in Ea; try discriminate. congruence.
Qed.

(** *** Example: the problem of Pg_thm, the network with the ordered tasks 6 and 4. Task 6 has the method [1 5 1], task 5 the method [0 1]; the methods of task 4 have nothing in common. *)
Module Ex.
  Import Pg_thm.Ex.
  Definition h : list pstep := [ {| ps_task := 6; ps_succ := [1]; ps_parent := 0; ps_pos := 0 |}; {| ps_task := 4; ps_succ := []; ps_parent := 0; ps_pos := 0 |} ].
  Definition nd : node := {| n_state := Lm_thm.Ex.s2; n_abs := [0]; n_prim := []; n_cost := 0; n_depth := 0; n_mixed := 0; n_reach := true; n_sol := [] |}.
  Definition pi (i : nat) : tid := [i].
  Definition tn : tnet := {| t_in := fun x => In x [[0]; [1]]; t_lab := fun x => match x with [0] => 6 | _ => 4 end; t_ord := fun x y => x = [0] /\ y = [1] |}.
  Lemma edges i j : edge h i j <-> i = 0 /\ j = 1.
  Proof. split; [intros (ps & G & I); destruct i as [|[|[|i]]]; try discriminate; injection G as <-; cbn in I; intuition|intros [-> ->]; eexists; split; [reflexivity|now left]]. Qed.
  Lemma tcs i j : clos_trans nat (edge h) i j <-> i = 0 /\ j = 1.
  Proof. split; [induction 1 as [i j Q|i j k _ IH1 _ IH2]; [now apply edges|lia]|intros Q; apply t_step; now apply edges]. Qed.
  Lemma lives i : live h nd i <-> i = 0 \/ i = 1.
  Proof.
    split; [intros (r & [<-|[]] & Q)|].
    - apply clos_rt_rtn1 in Q. destruct Q as [|y z Q _]; auto. apply edges in Q. lia.
    - intros [->| ->]; exists 0; (split; [now left|]); [apply rt_refl|apply rt_step; now apply edges].
  Qed.
  Lemma heap_wf : wf_heap P1 h.
  Proof. split; [intros i j E; apply edges in E as [_ ->]; cbn; lia|intros [|[|[|i]]] ps G; try discriminate; injection G as <-; cbn; lia]. Qed.
  Lemma rep : Rep P1 h nd (fun f => get (n_state nd) f = Some true) tn pi.
  Proof.
    split; try reflexivity.
    - intros i [<-|[]]. cbn. lia.
    - intros x. cbn. split; [intros [<-|[<-|[]]]; [exists 0|exists 1]; rewrite lives; auto|intros (i & L & <-); apply lives in L as [->| ->]; cbn; auto].
    - intros i j _ _ [= ->]. reflexivity.
    - intros i ps L G. apply lives in L as [->| ->]; injection G as <-; reflexivity.
    - intros i j _ _. cbn. rewrite tcs. unfold pi. split; [intros [[= ->] [= ->]]; auto|intros [-> ->]; auto].
    - repeat constructor. intros [].
    - intros i [<-|[]]. split; [cbn; auto|]. intros y [_ Q]. discriminate.
    - intros i ps [<-|[]] G. injection G as <-. reflexivity.
    - intros i ps [].
    - split; cbn.
      + intros x y z [_ ->] [Q _]. discriminate.
      + intros x [-> Q]. discriminate.
      + intros x y [-> ->]. auto.
      + intros x y [<-|[<-|[]]] [<-|[<-|[]]] (z & Q); auto; discriminate.
  Qed.
  Example lms : exists r, generateLocalLMs P1 h nd = Some r /\ r = [0; 1; 5] /\ forall u, In u r <-> exists x, t_in tn x /\ recursive_local P1 (t_lab tn x) u.
  Proof. destruct (local_lms_exact _ _ _ _ _ _ wf1 heap_wf rep) as (r & E & H). exists r. split; auto. split; auto. vm_compute in E. congruence. Qed.
  Example initial : exists w n, init_node P1 = Some (w, n) /\ generateLocalLMs P1 (w_heap w) n = Some [].
  Proof. eexists _, _. split; vm_compute; reflexivity. Qed.
  (** Task 5 alone: its only decomposition contains the landmarks 0 and 1. *)
  Definition tn5 : tnet := {| t_in := fun x => x = []; t_lab := fun _ => 5; t_ord := fun _ _ => False |}.
  Definition md5 : method := {| m_task := 5; m_subs := [0; 1]; m_ord := [] |}.
  Example sound : refines_by P1 tn5 [(tn5, 2)] (decF tn5 [] md5) /\ (forall y, t_in (decF tn5 [] md5) y -> primitive P1 (t_lab (decF tn5 [] md5) y)) /\ recursive_local P1 (t_lab tn5 []) 0 /\ occurs P1 (holds s1) [(tn5, 2)] (decF tn5 [] md5) [] (ET 0).
  Proof.
    assert (D : decomposes P1 tn5 [] md5 (decF tn5 [] md5)) by (apply decF_decomposes; [split; cbn; try tauto; intros; subst; auto|cbn; auto 10|reflexivity|reflexivity]).
    assert (RB : refines_by P1 tn5 [(tn5, 2)] (decF tn5 [] md5)) by (eapply rb_step; [|exact D|constructor]; reflexivity).
    assert (PR : forall y, t_in (decF tn5 [] md5) y -> primitive P1 (t_lab (decF tn5 [] md5) y)).
    { intros y Hy. apply (d_in' _ _ _ _ _ D) in Hy as [[Q N]|(j & Lj & ->)]; [cbn in Q; congruence|]. destruct j as [|[|j]]; [reflexivity|reflexivity|cbn in Lj; lia]. }
    assert (RL : recursive_local P1 (t_lab tn5 []) 0).
    { apply t_step. split; [exists md5; cbn; auto 10|]. intros m I E. cbn in I. repeat (destruct I as [<-|I]; [try discriminate; cbn; auto|]). destruct I. }
    split; auto. split; auto. split; auto. apply (local_lms_sound P1 (holds s1) [] tn5 _ _ [] 0 wf1 RB PR); auto. reflexivity.
  Qed.
  (** More is found by the AND/OR graph: also task 2, the only way to reach a goal. *)
  Example dominated : exists mm lm, lm_input Relax_thm.Ex.al P1 [0] Lm_thm.Ex.dst1 Lm_thm.Ex.scc1 Lm_thm.Ex.s2 mm /\
    lm_result Relax_thm.Ex.al P1 [0] Lm_thm.Ex.dst1 Lm_thm.Ex.scc1 Lm_thm.Ex.s2 (reach_all P1) [6; 4] mm = Some lm /\ forall u, In u [0; 1; 5; 2] -> In (LT u) lm.
  Proof.
    destruct (Lm_thm.Ex.lin Lm_thm.Ex.s2 eq_refl) as (mm & E & IN). exists mm. eexists. split; auto. vm_compute in E. injection E as <-. split; [vm_compute; reflexivity|]. intros u H. cbn in H |- *. intuition (subst; auto 20).
  Qed.
End Ex.

(** *** C168 (refuted): tasks that occur in every decomposition but are not a subtask of all methods of a task *)
Module Cex.
  (** Task 1 is decomposed into 2 or into 3, and both into the action 0. *)
  Definition prob : problem :=
    {| p_nfacts := 1; p_prim := [true; false; false; false]; p_prec := [[]]; p_add := [[0]]; p_del := [[]]; p_cost := [1];
       p_methods := [ {| m_task := 1; m_subs := [2]; m_ord := [] |}; {| m_task := 1; m_subs := [3]; m_ord := [] |}; {| m_task := 2; m_subs := [0]; m_ord := [] |}; {| m_task := 3; m_subs := [0]; m_ord := [] |} ];
       p_init := 1; p_s0 := []; p_goal := [0] |}.
  Lemma wf : wf_problem prob.
  Proof. apply problem_check_ok. vm_compute. reflexivity. Qed.
  Lemma nonempty tn tr tn' : refines_by prob tn tr tn' -> (exists x, t_in tn x) -> exists x, t_in tn' x.
  Proof.
    induction 1 as [tn|tn x m md tn1 tr tn2 Em D _ IH]; auto. intros _. apply IH. exists (x ++ [0]). apply (d_in' _ _ _ _ _ D). right. exists 0. split; auto.
    pose proof (wfm_nonempty _ _ (wf_methods _ wf _ (nth_error_In _ _ Em))) as N. destruct (m_subs md); [congruence|cbn; lia].
  Qed.
  Lemma always s tr tn' plan : refines_by prob (initial_network prob) tr tn' -> (forall y, t_in tn' y -> primitive prob (t_lab tn' y)) -> occurs prob s tr tn' plan (ET 0).
  Proof.
    intros RB PR. destruct (nonempty _ _ _ RB) as (x & Hx); [exists []; reflexivity|]. exists tn', x. split; auto. split; auto. pose proof (PR x Hx) as Q. unfold primitive in Q. destruct (t_lab tn' x) as [|[|[|[|k]]]]; auto; try discriminate. destruct k; discriminate.
  Qed.
End Cex.
Theorem local_complete_refuted : ~ (forall P w n, wf_problem P -> init_node P = Some (w, n) -> exists r, generateLocalLMs P (w_heap w) n = Some r /\
  forall t, (forall s tr tn' plan, refines_by P (initial_network P) tr tn' -> (forall y, t_in tn' y -> primitive P (t_lab tn' y)) -> occurs P s tr tn' plan (ET t)) -> t <> p_init P -> In t r).
Proof.
  intros H. edestruct (H Cex.prob) as (r & E & Q); [exact Cex.wf|vm_compute; reflexivity|]. vm_compute in E. injection E as <-. apply (Q 0); [exact Cex.always|discriminate].
Qed.

Print Assumptions local_lms_exact.
Print Assumptions local_lms_initial.
Print Assumptions local_lms_sound.
Print Assumptions local_dominated.
Print Assumptions local_complete_refuted.
