(** Theorems about the delete- and ordering-free ILP heuristic, hhDOfree.cpp (C185-C192). Proofs are in Dof_main, Dof_sol, Dof_relax, Dof_exact. *)
From Coq Require Import QArith Qround Lqa.
From Verif Require Import Base Htn_problem Htn_spec Htn_sem Htn_check Heap_model IntUtil_model To_spec To_sem Tab_model Tab_thm Pg_model Pg_spec Pg_proof Pg_thm Rc_spec Rc_proof Lm_spec Dof_spec Dof_model Dof_count Dof_proof Dof_net Dof_main Dof_sol Dof_relax Dof_exact.
Import Rc_spec.
Local Open Scope Z_scope.

Lemma node_exits al P T q0 s R r tn L C ms plan : dof_input al P T q0 s R r tn L C -> solves_by P (holds s) tn ms plan ->
  (forall gs, omap (factReachable r) (p_goal P) = Some gs -> forallb (fun b => b) gs = true) /\ forallb (fun '(t, _) => taskReachable r (Z.to_nat t)) C = true.
Proof.
  intros DI SO. destruct (reach_all _ _ _ _ _ _ _ _ _ _ DI ms plan SO) as (_ & _ & HT & HG). split.
  - intros gs E. apply forallb_forall. intros b Hb. apply (omap_in _ _ _ E) in Hb as (f & Hf & Eb). rewrite (HG f Hf) in Eb. congruence.
  - apply forallb_forall. intros [z c] Hz. apply (di_cont _ _ _ _ _ _ _ _ _ _ DI) in Hz as (t & -> & Ht & _). rewrite Nat2Z.id. apply in_map_iff in Ht as (x & <- & Hx). apply HT. now apply (di_enum _ _ _ _ _ _ _ _ _ _ DI).
Qed.

(** C185: the heuristic never exceeds a solution and never rejects a solvable node. For every solution of the node whose actions are used at most 100 times each
    (not needed without the planning graph constraints), that hits the cuts of LM-cut and meets the landmarks, the value is at most the cost of the plan (Optimal), or
    the number of its actions and method applications (Satisficing), whether the program is solved over the integers or the reals. The net change constraints
    need variables whose values exclude each other. *)
Theorem dof_admissible : forall al P T q0 s R r tn L C V o cs lms ms plan ip out h,
  dof_input al P T q0 s R r tn L C -> solves_by P (holds s) tn ms plan ->
  (o_pg o <> PgNone -> forall a, (count_occ Nat.eq_dec plan a <= 100)%nat) -> Z.of_nat (length plan) <= INT_MAX -> Z.of_nat (length ms) <= INT_MAX ->
  (forall c, In c cs -> hit ms plan c) -> (forall e, In e lms -> met P (holds s) tn ms plan e) -> (o_net o = true -> vars_ok P V /\ sas_ok P V) ->
  dof_model P V o r s C (Some cs) lms = Some out -> dof_value ip out h ->
  exists v, h = Some v /\ v <= Z.of_nat (match o_setting o with Optimal => plan_cost P plan | Satisficing => length plan + length ms end).
Proof.
  intros al P T q0 s R r tn L C V o cs lms ms plan ip out h DI SO H100 LP LM HC HL HV E HD. destruct (node_exits _ _ _ _ _ _ _ _ _ _ _ _ DI SO) as [X1 X2].
  unfold dof_model in E. apply obind_some in E as (gs & Eg & E). rewrite (X1 gs Eg) in E. cbn [negb] in E. rewrite X2 in E. cbn [negb] in E.
  assert (G : forall J, dof_ilp P V o r s C cs lms = Some J -> dof_value ip (Solve J) h -> exists v, h = Some v /\ v <= Z.of_nat (measure P ms plan o)).
  { intros J EJ HJ. pose proof (z_feasible _ _ _ _ _ _ _ _ _ _ DI ms plan SO V o cs lms J H100 LP LM HC HL HV EJ) as F. apply (zfeasible_feasible ip) in F. cbn [dof_value] in HJ.
    assert (OB : zval (z P tn L ms plan) (i_obj J) = Z.of_nat (measure P ms plan o)).
    { unfold dof_ilp in EJ. apply obind_some in EJ as (vs & E1 & EJ). apply obind_some in EJ as (ob & E2 & EJ). apply obind_some in EJ as (pc & E3 & EJ). apply obind_some in EJ as (hc & E4 & EJ).
      apply obind_some in EJ as (lc & E5 & EJ). apply obind_some in EJ as (nc & E6 & EJ). injection EJ as <-. cbn [i_obj]. eapply z_obj; eauto. }
    inversion HJ as [N|x Fx M]; subst; [now elim (N _ F)|]. eexists. split; [reflexivity|]. apply round_le; [|lia]. rewrite <- OB.
    eapply Qle_trans; [apply (M _ F)|]. apply Qle_lteq. right. apply value_zval. intros v. reflexivity. }
  destruct C as [|c0 C0]; [injection E as <-; cbn in HD; subst h; exists 0; split; auto; lia|]. apply obind_some in E as (J & EJ & E). injection E as <-. exact (G J EJ HD).
Qed.

(** C186: on every node the program is built without an access outside an array; every variable is declared once, and only declared variables occur (the index
    arrays keep indices of earlier calls, these are never used). *)
Theorem dof_defined : forall al P T q0 s R r tn L C V o cuts lms,
  dof_input al P T q0 s R r tn L C -> (o_net o = true -> vars_ok P V) -> (forall f, In (EF f) lms -> (f < p_nfacts P)%nat) ->
  exists out, dof_model P V o r s C cuts lms = Some out /\
    forall J, out = Solve J -> NoDup (map fst (i_vars J)) /\ (forall k v, In (k, v) (i_obj J) -> In v (map fst (i_vars J))) /\
      forall c k v, In c (i_cons J) -> In (k, v) (l_terms c) -> In v (map fst (i_vars J)).
Proof.
  intros al P T q0 s R r tn L C V o cuts lms DI HV HL. unfold dof_model. destruct cuts as [cs|]; [|eexists; split; [reflexivity|discriminate]].
  assert (GD : exists gs, omap (factReachable r) (p_goal P) = Some gs).
  { apply Rc_proof.omap_some. intros f Hf. pose proof (di_pg _ _ _ _ _ _ _ _ _ _ DI) as IN. pose proof (di_calc _ _ _ _ _ _ _ _ _ _ DI) as E.
    pose proof (calc_cases al P T q0 s R INT_MAX IN ltac:(unfold INT_MAX; lia) ltac:(intros c Hc; pose proof (pi_cost _ _ _ _ _ _ IN c Hc); lia)) as K.
    rewrite E in K. destruct K as (D & last & x & u & I & -> & _). unfold factReachable. cbn [r_prop]. rewrite get_zat by (rewrite (i_lp _ _ _ _ _ _ _ _ _ _ I); apply (wf_goal _ (pi_wp _ _ _ _ _ _ IN)), Hf). cbn [obind]. eauto. }
  destruct GD as (gs & ->). cbn [obind]. destruct (negb (forallb (fun b => b) gs)); [eexists; split; [reflexivity|discriminate]|].
  destruct (negb (forallb _ C)); [eexists; split; [reflexivity|discriminate]|]. destruct (dof_ilp_defined _ _ _ _ _ _ _ _ _ _ DI V o cs lms HV HL) as (J & EJ).
  destruct C as [|c0 C0]; [eexists; split; [reflexivity|discriminate]|]. rewrite EJ. cbn [obind]. eexists. split; [reflexivity|]. intros J' Q. injection Q as <-.
  destruct (declared _ _ _ _ _ _ _ _ _ _ DI V o cs lms J EJ) as (N & K1 & K2). split; auto. split; [exact K1|]. intros c k v Hc Hv. exact (K2 c Hc k v Hv).
Qed.

(** The actions that an assignment uses. *)
Definition used (r : pg_result) (x : var -> Q) (a : nat) : Prop := taskReachable r a = true /\ Qle 1 (x (UA a)).
Lemma le_floor (x : var -> Q) v : Qeq (x v) (inject_Z (Qfloor (x v))) -> Qle 1 (x v) <-> 1 <= Qfloor (x v).
Proof. intros E. rewrite E at 1. change 1%Q with (inject_Z 1). rewrite <- Zle_Qle. reflexivity. Qed.
Lemma reach_mono P (st A B : nat -> Prop) : (forall a, A a -> B a) -> (forall f, fact_reach P st A f -> fact_reach P st B f) /\ (forall a, act_reach P st A a -> act_reach P st B a).
Proof. intros H. apply reach_ind; intros; [now apply fr_state|eapply fr_add; eauto|constructor; auto]. Qed.

(** C187: with the full planning graph constraints, the actions used by an integral assignment form a relaxed plan: every used action can be executed and every goal
    fact can be reached by the used actions if deletes are ignored. *)
Theorem dof_relaxed_plan : forall al P T q0 s R r tn L C V o cs lms J x,
  dof_input al P T q0 s R r tn L C -> o_pg o = PgFull -> dof_ilp P V o r s C cs lms = Some J -> feasible true J x ->
  (forall a, (a < length (p_cost P))%nat -> used r x a -> act_reach P (holds s) (used r x) a) /\ (forall f, In f (p_goal P) -> fact_reach P (holds s) (used r x) f).
Proof.
  intros al P T q0 s R r tn L C V o cs lms J x DI OP EJ F. destruct (feasible_zfeasible J x F) as [FZ EQ].
  destruct (relaxed_plan _ _ _ _ _ _ _ _ _ _ DI V o cs lms J _ EJ FZ OP) as [A G]. destruct (reach_mono P (holds s) (used_act r (fun v => Qfloor (x v))) (used r x)) as [M1 M2].
  { intros a [Ra Wa]. split; auto. now apply le_floor. }
  split.
  - intros a La [Ra Wa]. apply M2, A; auto. split; auto. apply le_floor; auto.
  - intros f Hf. apply M1, G, Hf.
Qed.

(** C188: the tasks and methods used by an integral assignment form a decomposition if orderings are ignored: the tasks of the network are used, a used abstract task has a used
    method, and the subtasks of a used method are used. *)
Theorem dof_hierarchy : forall al P T q0 s R r tn L C V o cs lms J x,
  dof_input al P T q0 s R r tn L C -> dof_ilp P V o r s C cs lms = Some J -> feasible true J x ->
  (forall y, t_in tn y -> taskReachable r (t_lab tn y) = true -> used r x (t_lab tn y)) /\
  (forall t, (length (p_cost P) <= t)%nat -> used r x t -> exists m md, methodReachable r m = true /\ nth_error (p_methods P) m = Some md /\ m_task md = t /\ Qle 1 (x (MV m))) /\
  (forall m md t, methodReachable r m = true -> nth_error (p_methods P) m = Some md -> Qle 1 (x (MV m)) -> In t (m_subs md) -> used r x t).
Proof.
  intros al P T q0 s R r tn L C V o cs lms J x DI EJ F. destruct (feasible_zfeasible J x F) as [FZ EQ].
  destruct (supported _ _ _ _ _ _ _ _ _ _ DI V o cs lms J _ EJ FZ) as (S1 & S2 & S3). split; [|split].
  - intros y Hy Ry. split; auto. apply le_floor; auto.
  - intros t Lt [Rt Wt]. destruct (S2 t Lt Rt) as (m & md & M1 & M2 & M3 & M4); [apply le_floor; auto|]. exists m, md. split; auto. split; auto. split; auto. apply le_floor; auto.
  - intros m md t Rm Em Wm It. destruct (S3 m md t Rm Em) as [X1 X2]; auto; [apply le_floor; auto|]. split; auto. apply le_floor; auto.
Qed.

(** C189: the exits before the program is built reject unsolvable nodes only, and the value 0 without a program is given to the node without tasks only. *)
Theorem dof_exits_safe : forall al P T q0 s R r tn L C V o cs lms,
  dof_input al P T q0 s R r tn L C ->
  (dof_model P V o r s C (Some cs) lms = Some Dead -> forall plan, ~ solves P (holds s) tn plan) /\
  (dof_model P V o r s C (Some cs) lms = Some Zero -> forall y, ~ t_in tn y).
Proof.
  intros al P T q0 s R r tn L C V o cs lms DI. unfold dof_model. split.
  - intros E plan SO. apply solves_solves_by in SO as (ms & SO). destruct (node_exits _ _ _ _ _ _ _ _ _ _ _ _ DI SO) as [X1 X2]. apply obind_some in E as (gs & Eg & E). rewrite (X1 gs Eg), X2 in E. cbn [negb] in E.
    destruct C; [discriminate|]. apply obind_some in E as (J & _ & E). discriminate.
  - intros E y Hy. apply obind_some in E as (gs & Eg & E). destruct (negb (forallb (fun b => b) gs)); [discriminate|]. destruct (negb (forallb _ C)); [discriminate|].
    assert (HC : C = []) by (destruct C; [auto|]; apply obind_some in E as (J & _ & E); discriminate). subst C.
    assert (X : In (Z.of_nat (t_lab tn y), Z.of_nat (cnt (map (t_lab tn) L) (t_lab tn y))) []); [|easy]. apply (di_cont _ _ _ _ _ _ _ _ _ _ DI). exists (t_lab tn y). split; auto. split; auto. apply in_map. now apply (di_enum _ _ _ _ _ _ _ _ _ _ DI).
Qed.

(** C191: an integral assignment respects the cuts and the landmarks: it uses a reachable action or method of every cut, and every task and method landmark; with the full
    planning graph constraints every fact landmark is reached by the used actions. *)
Theorem dof_landmarks_enforced : forall al P T q0 s R r tn L C V o cs lms J x,
  dof_input al P T q0 s R r tn L C -> dof_ilp P V o r s C cs lms = Some J -> feasible true J x ->
  (forall cut, In cut cs -> exists i z, nth_error (snd cut) i = Some z /\
    (((i < fst cut)%nat /\ used r x (Z.to_nat z)) \/ ((fst cut <= i)%nat /\ methodReachable r (Z.to_nat z) = true /\ Qle 1 (x (MV (Z.to_nat z)))))) /\
  (forall t, In (ET t) lms -> taskReachable r t = true -> used r x t) /\ (forall m, In (EM m) lms -> methodReachable r m = true -> Qle 1 (x (MV m))) /\
  (forall f, In (EF f) lms -> o_pg o = PgFull -> useful r f = true \/ holds s f -> fact_reach P (holds s) (used r x) f).
Proof.
  intros al P T q0 s R r tn L C V o cs lms J x DI EJ F. destruct (feasible_zfeasible J x F) as [FZ EQ].
  destruct (enforced _ _ _ _ _ _ _ _ _ _ DI V o cs lms J _ EJ FZ) as [A B]. split; [|split; [|split]].
  - intros [fm lm] Hc. destruct (A fm lm Hc) as (i & z & E & [(Li & Rt & Wt)|(Li & Rt & Wt)]); exists i, z; (split; [exact E|]); cbn [fst]; [left|right]; (split; [exact Li|]); (split; [exact Rt|]); apply le_floor; auto.
  - intros t Ht Rt. split; auto. apply le_floor; auto. exact (B _ Ht Rt).
  - intros m Hm Rm. apply le_floor; auto. exact (B _ Hm Rm).
  - intros f Hf OP Uf. destruct (B _ Hf) as [H|H]; [now apply fr_state|]. destruct Uf as [Uf|Uf]; [|now apply fr_state]. specialize (H Uf).
    destruct (reach_mono P (holds s) (used_act r (fun v => Qfloor (x v))) (used r x)) as [M1 _]; [intros a [Ra Wa]; split; auto; now apply le_floor|]. apply M1.
    apply (relaxed _ _ _ _ _ _ _ _ _ _ DI V o cs lms J _ EJ FZ OP (Z.to_nat (Qfloor (x (TP f))))); auto. lia.
Qed.

(** C192: the net change constraints, for every assignment, integral or not: a fact that does not hold and can be reached is produced at least as often as it is consumed, and once more if it is a goal.
    Producers are exactly the reachable actions that add it and do not need it, consumers are exactly those that need it and add another value of its variable. *)
Theorem dof_net_enforced : forall al P T q0 s R r tn L C V o cs lms J ip x f,
  dof_input al P T q0 s R r tn L C -> vars_ok P V -> sas_form P V -> ascending (map Z.of_nat (p_goal P)) -> o_net o = true ->
  dof_ilp P V o r s C cs lms = Some J -> feasible ip J x -> useful r f = true ->
  exists Pr Co, NoDup Pr /\ NoDup Co /\
    (forall a, In a Pr <-> (a < length (p_cost P))%nat /\ taskReachable r a = true /\ adds P a f /\ ~ precs P a f) /\
    (forall a, In a Co <-> (a < length (p_cost P))%nat /\ taskReachable r a = true /\ precs P a f /\ exists e, adds P a e /\ same_var V f e /\ f <> e) /\
    (forall g, (g = 1 /\ In f (p_goal P)) \/ (g = 0 /\ ~ In f (p_goal P)) -> Qle (value x (map (fun a => (1, UA a)) Co) + inject_Z g) (value x (map (fun a => (1, UA a)) Pr))).
Proof.
  intros al P T q0 s R r tn L C V o cs lms J ip x f DI VO SF AG ON EJ F Uf. destruct (relative _ _ _ _ _ _ _ _ _ _ DI) as (A & _ & _ & _ & _ & _ & _ & HU).
  assert (U := Uf). apply memb_In in U. apply HU in U as (Lf & Nf & _). eapply net_enforced; eauto. apply (pi_wp _ _ _ _ _ _ (di_pg _ _ _ _ _ _ _ _ _ _ DI)).
Qed.

(** *** Examples *)
Definition two (t a b : nat) : method := {| m_task := t; m_subs := [a; b]; m_ord := [(0, 1)]%nat |}.
Lemma total2 t a b : total_seq (two t a b) [0; 1]%nat.
Proof.
  split; [repeat constructor; cbn; intuition discriminate|]. split; [intros j; cbn; lia|]. intros l1 x l2 y E Hy.
  destruct l1 as [|c [|d l1]]; cbn in E; [injection E as <- <-|injection E as <- <- <-; easy|destruct l1; discriminate]. destruct Hy as [<-|[]]. apply t_step || constructor. now left.
Qed.
Lemma derives2 P h t a b p q : In (two t a b) (p_methods P) -> derives P h a p -> derives P h b q -> derives P (S h) t (p ++ q).
Proof. intros I A B. right. exists (two t a b), [0; 1]%nat, [p; q]. split; auto. split; auto. split; [apply total2|]. split; [constructor; [cbn; eauto|constructor; [cbn; eauto|constructor]]|]. cbn. now rewrite app_nil_r. Qed.
Definition single (t : nat) : tnet := {| t_in := fun x => x = []; t_lab := fun _ => t; t_ord := fun _ _ => False |}.
Lemma single_input al P T q0 s R r t : pg_input al P T q0 s R -> calcReachability al P T q0 s R = Some r -> (forall v, In v (r_op r) -> v < INT_MAX) ->
  (forall t, (t < length (p_cost P))%nat -> nth_error (p_prim P) t = Some true) -> closed_tasks P (holds R) -> holds R t ->
  dof_input al P T q0 s R r (single t) [[]] [(Z.of_nat t, 1)].
Proof.
  intros IN E OM PR CR HR. constructor; auto.
  - split; cbn; try tauto; intros; subst; auto.
  - split; [repeat constructor; easy|]. intros x. cbn. intuition.
  - cbn. repeat constructor.
  - assert (C1 : cnt (map (t_lab (single t)) [[]]) t = 1%nat) by (cbn [map single t_lab]; now apply count_occ_cons_eq).
    intros z c. split.
    + intros [H|[]]. injection H as <- <-. exists t. split; auto. split; [now left|]. now rewrite C1.
    + intros (t' & -> & [<-|[]] & ->). left. change (t_lab (single t) []) with t. now rewrite C1.
Qed.
Lemma init_input al P T q0 s R r : pg_input al P T q0 s R -> calcReachability al P T q0 s R = Some r -> (forall v, In v (r_op r) -> v < INT_MAX) ->
  (forall t, (t < length (p_cost P))%nat -> nth_error (p_prim P) t = Some true) -> (forall t, (t < length (p_prim P))%nat -> holds R t) ->
  dof_input al P T q0 s R r (initial_network P) [[]] [(Z.of_nat (p_init P), 1)].
Proof.
  intros IN E OM PR HR. pose proof (pi_wp _ _ _ _ _ _ IN) as WP. apply (single_input al P T q0 s R r (p_init P)); auto.
  - intros m Hm _ t Ht. apply HR. apply (wfm_subs _ _ (wf_methods _ WP m Hm) t Ht).
  - apply HR. apply nth_error_Some. rewrite (wf_init _ WP). discriminate.
Qed.

Module Ex.
  Notation al := Relax_thm.Ex.al.
  Notation q0 := Relax_thm.Ex.q0.
  (** Facts 0-1; actions 0: -> 0 (cost 2), 1: 0 -> 1 (cost 3), 2: -> 1 (cost 1, not allowed by the hierarchy); task 3 becomes 0 and 1. *)
  Definition P : problem :=
    {| p_nfacts := 2; p_prim := [true; true; true; false]; p_prec := [[]; [0]; []]%nat; p_add := [[0]; [1]; [1]]%nat; p_del := [[]; [0]; []]%nat; p_cost := [2; 3; 1]%nat;
       p_methods := [two 3 0 1]; p_init := 3; p_s0 := []; p_goal := [1]%nat |}.
  Definition T : pg_tables := Eval vm_compute in match tables_of P with Some T => T | None => {| t_p2a := []; t_precless := []; t_stm := []; t_nst := [] |} end.
  Definition s : list bool := [false; false].
  Definition R : list bool := [true; true; true; true].
  Definition r : pg_result := Eval vm_compute in match calcReachability al P T q0 s R with Some r => r | None => {| r_prop := []; r_op := []; r_tasks := []; r_meths := []; r_useful := [] |} end.
  Lemma wf : wf_problem P.
  Proof. apply problem_check_ok. vm_compute. reflexivity. Qed.
  Lemma input : dof_input al P T q0 s R r (initial_network P) [[]] [(3, 1)].
  Proof.
    apply init_input.
    - constructor; auto using Relax_thm.Ex.al_ok, Relax_thm.Ex.q0_ok, wf.
      + destruct (tables_of_wf P wf ltac:(vm_compute; lia)) as (T' & E & W); [|vm_compute in E; injection E as <-; exact W]. intros l H. repeat (destruct H as [<-|H]; [repeat constructor; cbn; intuition lia|]). destruct H.
      + intros c H. repeat (destruct H as [<-|H]; [unfold INT_MAX; lia|]). destruct H.
    - vm_compute. reflexivity.
    - intros v H. repeat (destruct H as [<-|H]; [unfold INT_MAX; lia|]). destruct H.
    - intros t H. cbn in H. do 3 (destruct t as [|t]; [reflexivity|]). lia.
    - intros t H. cbn in H. do 4 (destruct t as [|t]; [reflexivity|]). lia.
  Qed.
  Definition V : list (nat * nat) := [(0, 1)]%nat.
  Lemma vars_fine : vars_ok P V /\ sas_ok P V.
  Proof.
    split; [constructor|].
    - intros fi la [H|[]]. injection H as <- <-. cbn. lia.
    - intros f Hf. cbn in Hf. exists 0%nat, 1%nat. split; [now left|lia].
    - intros a p e (lp & Ep & Ip) (le & Ee & Ie) NE _. destruct a as [|[|[|a]]]; cbn in Ep, Ee; try (injection Ep as <-; injection Ee as <-); try easy; [|destruct a; discriminate].
      destruct Ip as [<-|[]], Ie as [<-|[]]. split; [exists [0%nat]; split; [reflexivity|now left]|]. intros (l & El & Il). injection El as <-. destruct Il as [Il|[]]; lia.
  Qed.
  Definition o : dof_opts := {| o_setting := Optimal; o_pg := PgFull; o_net := true |}.
  Definition cs : list (nat * list Z) := [(1%nat, [1; 0])].
  Definition lms : list elem := [EF 0; ET 1; EM 0].
  Definition J : ilp := Eval vm_compute in match dof_ilp P V o r s [(3, 1)] cs lms with Some J => J | None => {| i_vars := []; i_obj := []; i_cons := [] |} end.
  Lemma model : dof_model P V o r s [(3, 1)] (Some cs) lms = Some (Solve J).
  Proof. vm_compute. reflexivity. Qed.
  Lemma solved : exists ms, solves_by P (holds s) (initial_network P) ms [0; 1]%nat.
  Proof.
    apply solves_solves_by. assert (S : solution P [0; 1]%nat).
    { apply derives_solution; [exact wf|intros m [<-|[]]; exists [0; 1]%nat; apply total2|]. cbn [executable after]. split; [exists 1%nat; apply (derives2 P 0 3 0 1 [0%nat] [1%nat]); [now left|left; split; reflexivity|left; split; reflexivity]|].
      split; [split; [|split; auto]|].
      - intros f (l & E & I). injection E as <-. destruct I.
      - intros f (l & E & I). injection E as <-. destruct I as [<-|[]]. left. exists [0%nat]. split; [reflexivity|now left].
      - intros f [<-|[]]. left. exists [1%nat]. split; [reflexivity|now left]. }
    destruct S as (tn' & L & RF & PR & LI & E & EX & GO). exists tn', L. split; [exact RF|]. split; [exact PR|]. split; [exact LI|]. split; [exact E|]. cbn [executable after]. split; [split; [|split; auto]|].
    - intros f (l & Q & I). injection Q as <-. destruct I.
    - intros f (l & Q & I). injection Q as <-. destruct I as [<-|[]]. left. exists [0%nat]. split; [reflexivity|now left].
    - intros f [<-|[]]. left. exists [1%nat]. split; [reflexivity|now left].
  Qed.
  Lemma solved1 : solves_by P (holds s) (initial_network P) [0]%nat [0; 1]%nat.
  Proof.
    destruct solved as (ms & SO). assert (M0 : forall i, In i ms -> i = 0%nat). { destruct SO as (tn' & L & RF & _). intros i Hi. apply (refines_by_methods _ _ _ _ RF) in Hi. cbn in Hi. lia. }
    pose proof (counts _ _ _ _ _ _ _ _ _ _ input ms [0; 1]%nat SO 3%nat) as K.
    assert (EM : ms = repeat 0%nat (length ms)) by (clear -M0; induction ms as [|m l IH]; cbn; auto; rewrite (M0 m) at 1 by (now left); f_equal; apply IH; intros; apply M0; now right).
    assert (K1 : forall n, consumed P (repeat 0%nat n) 3 = n) by (intros n; unfold consumed; induction n as [|n IH]; auto; cbn [repeat map]; rewrite sum_cons, IH; reflexivity).
    assert (K2 : forall n, produced P (repeat 0%nat n) 3 = 0%nat) by (intros n; unfold produced; induction n as [|n IH]; auto; cbn [repeat map]; rewrite sum_cons, IH; reflexivity).
    unfold u in K. rewrite EM, K1, K2 in K. cbn in K. rewrite K in EM. cbn in EM. rewrite EM in SO. exact SO.
  Qed.
  (** Hence the value is at most 5. *)
  Example bound h ip : dof_value ip (Solve J) h -> exists v, h = Some v /\ v <= 5.
  Proof.
    intros H. change 5 with (Z.of_nat (match o_setting o with Optimal => plan_cost P [0; 1]%nat | Satisficing => 3%nat end)).
    apply (dof_admissible al P T q0 s R r (initial_network P) [[]] [(3, 1)] V o cs lms [0]%nat [0; 1]%nat ip (Solve J) h input solved1); auto.
    - intros _ a. destruct a as [|[|a]]; cbn; lia.
    - cbn. unfold INT_MAX. lia.
    - cbn. unfold INT_MAX. lia.
    - intros c [<-|[]]. exists 0%nat, 1%nat. split; [reflexivity|]. left. cbn. split; [lia|auto].
    - intros e [<-|[<-|[<-|[]]]]; cbn [met].
      + split; [cbn; lia|]. exists 1%nat. left. exists [0%nat]. split; [reflexivity|now left].
      + right. exists 0%nat, (two 3 0 1). split; [now left|]. split; [reflexivity|cbn; auto].
      + now left.
    - intros _. exact vars_fine.
  Qed.
  (** The solver cannot do better. *)
  Ltac unpack F := destruct F as (F1 & F2 & F3); apply Forall_forall in F3; cbn [i_cons J] in F3; repeat (apply Forall_cons_iff in F3 as [?C F3]); unfold sat in *; cbn [l_rel l_terms l_rhs value fold_right] in *; unfold inject_Z in *.
  Example exact ip h : dof_value ip (Solve J) h -> h = Some 5.
  Proof.
    intros H. destruct (bound h ip H) as (v & -> & Lv). cbn [dof_value] in H. inversion H as [|x F M]; subst. f_equal. assert (G : Qle 5 (value x (i_obj J))).
    { clear M Lv H. unpack F. cbn [i_obj J value fold_right]. unfold inject_Z. lra. }
    assert (K : 5 <= round (value x (i_obj J))); [|cbn [J i_obj value fold_right] in K; lia]. unfold round. replace (Qle_bool 0 (value x (i_obj J))) with true by (symmetry; apply Qle_bool_iff; lra).
    change 5 with (Qfloor 5). apply Qfloor_resp_le. lra.
  Qed.
  (** An integral assignment; used: both actions of the plan, the third one is not. *)
  Definition w (v : var) : Z := match v with UA 2 => 0 | EV 2 _ => 0 | TP 0 => 1 | TP 1 => 2 | TA 0 => 0 | TA 1 => 1 | TA _ => 0 | _ => 1 end.
  Lemma w_feasible : feasible true J (fun v => inject_Z (w v)).
  Proof.
    apply zfeasible_feasible. split.
    - intros v lo hi H. cbn [i_vars J] in H. repeat (destruct H as [H|H]; [injection H as <- <- <-; vm_compute; split; discriminate|]). destruct H.
    - apply Forall_forall. cbn [i_cons J]. repeat (apply Forall_cons; [vm_compute; first [reflexivity|discriminate]|]). constructor.
  Qed.
  Example relaxed : act_reach P (holds s) (used r (fun v => inject_Z (w v))) 1 /\ fact_reach P (holds s) (used r (fun v => inject_Z (w v))) 1 /\ ~ used r (fun v => inject_Z (w v)) 2.
  Proof.
    destruct (dof_relaxed_plan al P T q0 s R r (initial_network P) [[]] [(3, 1)] V o cs lms J _ input eq_refl eq_refl w_feasible) as [A G]. split; [|split].
    - apply A; [cbn; lia|]. split; [reflexivity|vm_compute; discriminate].
    - apply G. now left.
    - intros [_ H]. vm_compute in H. now apply H.
  Qed.
  Example hierarchy : used r (fun v => inject_Z (w v)) 3 /\ exists m md, methodReachable r m = true /\ nth_error (p_methods P) m = Some md /\ m_task md = 3%nat /\ Qle 1 (inject_Z (w (MV m))).
  Proof.
    destruct (dof_hierarchy al P T q0 s R r (initial_network P) [[]] [(3, 1)] V o cs lms J _ input eq_refl w_feasible) as (A & B & _). assert (U3 : used r (fun v => inject_Z (w v)) 3) by (apply (A []); reflexivity).
    split; [exact U3|]. apply B; [cbn; lia|exact U3].
  Qed.
  (** The cut of the action 1 and the method 0 is hit, the landmarks are met. *)
  Example enforced : (used r (fun v => inject_Z (w v)) 1 \/ Qle 1 (inject_Z (w (MV 0)))) /\ used r (fun v => inject_Z (w v)) 1 /\ Qle 1 (inject_Z (w (MV 0))) /\ fact_reach P (holds s) (used r (fun v => inject_Z (w v))) 0.
  Proof.
    destruct (dof_landmarks_enforced al P T q0 s R r (initial_network P) [[]] [(3, 1)] V o cs lms J _ input eq_refl w_feasible) as (A & B & C & D). split; [|split; [|split]].
    - destruct (A _ (or_introl eq_refl)) as (i & z & E & [[Li H]|(Li & _ & H)]); cbn [fst snd] in *; (destruct i as [|[|[|i]]]; try lia; [|discriminate|destruct i; discriminate] || destruct i; try lia); cbn in E; injection E as <-; [left|right]; exact H.
    - apply B; [cbn; auto|reflexivity].
    - apply C; [cbn; auto|reflexivity].
    - apply D; [cbn; auto|reflexivity|left; reflexivity].
  Qed.
  Lemma form : sas_form P V.
  Proof.
    constructor.
    - intros v v' f [<-|[]] [<-|[]]; auto.
    - intros l H. repeat (destruct H as [<-|H]; [repeat constructor|]). destruct H.
    - intros a p q (l & E & I) (l' & E' & I') _. destruct a as [|[|[|a]]]; cbn in E, E'; try (injection E as <-; injection E' as <-); try easy; [|destruct a; discriminate]. destruct I as [<-|[]], I' as [<-|[]]. reflexivity.
  Qed.
  (** Every assignment uses action 0 as often as action 1, which consumes its effect; the goal is produced by the actions 1 and 2. *)
  Example net ip x : feasible ip J x -> Qle (x (UA 1)) (x (UA 0)) /\ Qle 1 (x (UA 1) + x (UA 2)).
  Proof.
    intros F. assert (AG : ascending (map Z.of_nat (p_goal P))) by (repeat constructor).
    assert (PR : forall a f, precs P a f <-> a = 1%nat /\ f = 0%nat).
    { intros a f. split; [|intros [-> ->]; exists [0%nat]; split; [reflexivity|now left]]. intros (l & E & I). destruct a as [|[|[|a]]]; cbn in E; try (injection E as <-); try easy; [|destruct a; discriminate]. destruct I as [<-|[]]. auto. }
    assert (AD : forall a f, adds P a f <-> (a = 0 /\ f = 0 \/ a = 1 /\ f = 1 \/ a = 2 /\ f = 1)%nat).
    { intros a f. split.
      - intros (l & E & I). destruct a as [|[|[|a]]]; cbn in E; [| | |destruct a; discriminate]; injection E as <-; destruct I as [<-|[]]; lia.
      - intros [[-> ->]|[[-> ->]|[-> ->]]]; eexists; (split; [reflexivity|now left]). }
    destruct vars_fine as [VO _]. split.
    - destruct (dof_net_enforced al P T q0 s R r (initial_network P) [[]] [(3, 1)] V o cs lms J ip x 0 input VO form AG eq_refl eq_refl F eq_refl) as (Pr & Co & N1 & N2 & H1 & H2 & H3).
      assert (EP : Pr = [0%nat]).
      { assert (I0 : In 0%nat Pr) by (apply H1; split; [cbn; lia|]; split; [reflexivity|]; split; [apply AD; lia|rewrite PR; lia]). apply in_split in I0 as (a & b & ->). apply NoDup_remove_2 in N1.
        assert (X : forall y, In y (a ++ b) -> False). { intros y Hy. assert (Hy' : In y (a ++ 0%nat :: b)) by (apply in_app_iff in Hy; apply in_app_iff; cbn; tauto). apply H1 in Hy' as (_ & _ & Ha & _). apply AD in Ha. assert (y = 0%nat) by lia. subst. auto. }
        destruct a as [|y a]; [|exfalso; apply (X y); now left]. destruct b as [|y b]; [reflexivity|exfalso; apply (X y); now left]. }
      assert (EC : Co = [1%nat]).
      { assert (I0 : In 1%nat Co). { apply H2. split; [cbn; lia|]. split; [reflexivity|]. split; [apply PR; lia|]. exists 1%nat. split; [apply AD; lia|]. split; [|lia]. exists 0%nat, 1%nat. split; [now left|lia]. }
        apply in_split in I0 as (a & b & ->). apply NoDup_remove_2 in N2.
        assert (X : forall y, In y (a ++ b) -> False). { intros y Hy. assert (Hy' : In y (a ++ 1%nat :: b)) by (apply in_app_iff in Hy; apply in_app_iff; cbn; tauto). apply H2 in Hy' as (_ & _ & Ha & _). apply PR in Ha. assert (y = 1%nat) by lia. subst. auto. }
        destruct a as [|y a]; [|exfalso; apply (X y); now left]. destruct b as [|y b]; [reflexivity|exfalso; apply (X y); now left]. }
      subst Pr Co. specialize (H3 0 (or_intror (conj eq_refl (fun I : In 0%nat [1%nat] => match I with or_introl e => ltac:(discriminate e) | or_intror f => f end)))). cbn [map value fold_right] in H3. unfold inject_Z in H3. lra.
    - destruct (dof_net_enforced al P T q0 s R r (initial_network P) [[]] [(3, 1)] V o cs lms J ip x 1 input VO form AG eq_refl eq_refl F eq_refl) as (Pr & Co & N1 & N2 & H1 & H2 & H3).
      specialize (H3 1 (or_introl (conj eq_refl (or_introl eq_refl)))). assert (EC : Co = []). { destruct Co as [|y Co]; auto. destruct (proj1 (H2 y) (or_introl eq_refl)) as (_ & _ & Hp & _). apply PR in Hp. lia. }
      subst Co. cbn [map value fold_right] in H3. assert (PE : Permutation.Permutation Pr [1; 2]%nat).
      { apply Permutation.NoDup_Permutation; auto; [repeat constructor; cbn; lia|]. intros y. rewrite H1, AD, PR. split; [intros (_ & _ & Ha & _); cbn; lia|]. intros [<-|[<-|[]]]; (split; [cbn; lia|]); (split; [reflexivity|]); lia. }
      assert (VE : Qeq (value x (map (fun a => (1, UA a)) Pr)) (value x (map (fun a => (1, UA a)) [1; 2]%nat))).
      { clear -PE. induction PE as [|y l l' _ IH|y y' l|l1 l2 l3 _ IH1 _ IH2]; cbn [map value fold_right]; [reflexivity| | |now rewrite IH1].
        - fold (value x (map (fun a => (1, UA a)) l)). fold (value x (map (fun a => (1, UA a)) l')). now rewrite IH.
        - ring. }
      rewrite VE in H3. cbn [map value fold_right] in H3. unfold inject_Z in H3. lra.
  Qed.
  (** The node that only has action 1, whose precondition does not hold, is rejected before a program is built. *)
  Definition R1 : list bool := [false; true; false; false].
  Definition r1 : pg_result := Eval vm_compute in match calcReachability al P T q0 s R1 with Some r => r | None => r end.
  Lemma input1 : dof_input al P T q0 s R1 r1 (single 1) [[]] [(1, 1)].
  Proof.
    apply (single_input al P T q0 s R1 r1 1).
    - destruct (di_pg _ _ _ _ _ _ _ _ _ _ input) as [H1 H2 H3 H4 H5 H6 H7]. constructor; auto.
    - vm_compute. reflexivity.
    - intros v H. repeat (destruct H as [<-|H]; [unfold INT_MAX; lia|]). destruct H.
    - apply (di_prim _ _ _ _ _ _ _ _ _ _ input).
    - intros m [<-|[]] H. discriminate.
    - reflexivity.
  Qed.
  Example exit plan : ~ solves P (holds s) (single 1) plan.
  Proof. eapply (proj1 (dof_exits_safe al P T q0 s R1 r1 (single 1) [[]] [(1, 1)] V o cs lms input1)). vm_compute. reflexivity. Qed.
End Ex.

Module R.
  Notation al := Relax_thm.Ex.al.
  Notation q0 := Relax_thm.Ex.q0.
  (** Action 0 adds the fact that action 1 needs. Task 2 becomes 0 and 3, each of the tasks 3-8 becomes twice the next one, task 9 becomes twice action 1. *)
  Definition P : problem :=
    {| p_nfacts := 1; p_prim := [true; true; false; false; false; false; false; false; false; false]; p_prec := [[]; [0]]%nat; p_add := [[0]; []]%nat; p_del := [[]; []]; p_cost := [1; 1]%nat;
       p_methods := [two 2 0 3; two 3 4 4; two 4 5 5; two 5 6 6; two 6 7 7; two 7 8 8; two 8 9 9; two 9 1 1]; p_init := 2; p_s0 := []; p_goal := [] |}.
  Definition T : pg_tables := Eval vm_compute in match tables_of P with Some T => T | None => {| t_p2a := []; t_precless := []; t_stm := []; t_nst := [] |} end.
  Definition s : list bool := [false].
  Definition R : list bool := repeat true 10.
  Definition r : pg_result := Eval vm_compute in match calcReachability al P T q0 s R with Some r => r | None => {| r_prop := []; r_op := []; r_tasks := []; r_meths := []; r_useful := [] |} end.
  Lemma wf : wf_problem P.
  Proof. apply problem_check_ok. vm_compute. reflexivity. Qed.
  Lemma input : dof_input al P T q0 s R r (initial_network P) [[]] [(2, 1)].
  Proof.
    apply init_input.
    - constructor; auto using Relax_thm.Ex.al_ok, Relax_thm.Ex.q0_ok, wf.
      + destruct (tables_of_wf P wf ltac:(vm_compute; lia)) as (T' & E & W); [|vm_compute in E; injection E as <-; exact W]. intros l H. repeat (destruct H as [<-|H]; [repeat constructor; cbn; intuition lia|]). destruct H.
      + intros c H. repeat (destruct H as [<-|H]; [unfold INT_MAX; lia|]). destruct H.
    - vm_compute. reflexivity.
    - intros v H. repeat (destruct H as [<-|H]; [unfold INT_MAX; lia|]). destruct H.
    - intros t H. cbn in H. do 2 (destruct t as [|t]; [reflexivity|]). lia.
    - intros t H. cbn in H. do 10 (destruct t as [|t]; [reflexivity|]). lia.
  Qed.
  Definition o : dof_opts := {| o_setting := Optimal; o_pg := PgTimeRelaxed; o_net := false |}.
  Definition J : ilp := Eval vm_compute in match dof_ilp P [] o r s [(2, 1)] [] [] with Some J => J | None => {| i_vars := []; i_obj := []; i_cons := [] |} end.
  Lemma model : dof_model P [] o r s [(2, 1)] (Some []) [] = Some (Solve J).
  Proof. vm_compute. reflexivity. Qed.
  Definition plan : list nat := 0%nat :: repeat 1%nat 128.
  Lemma half t h p : In (two t (S t) (S t)) (p_methods P) -> derives P h (S t) p -> derives P (S h) t (p ++ p).
  Proof. intros I D. eapply derives2; eauto. Qed.
  Lemma derived : derives P 8 2 plan.
  Proof.
    change plan with ([0%nat] ++ repeat 1%nat 128). apply (derives2 P 7 2 0 3); [cbn; auto|left; split; reflexivity|].
    assert (H9 : derives P 1 9 (repeat 1%nat 2)) by (apply (derives2 P 0 9 1 1 [1%nat] [1%nat]); [cbn; auto 10|left; split; reflexivity|left; split; reflexivity]).
    assert (H8 : derives P 2 8 (repeat 1%nat 4)) by (apply (half 8 1 (repeat 1%nat 2)); [cbn; auto 10|exact H9]).
    assert (H7 : derives P 3 7 (repeat 1%nat 8)) by (apply (half 7 2 (repeat 1%nat 4)); [cbn; auto 10|exact H8]).
    assert (H6 : derives P 4 6 (repeat 1%nat 16)) by (apply (half 6 3 (repeat 1%nat 8)); [cbn; auto 10|exact H7]).
    assert (H5 : derives P 5 5 (repeat 1%nat 32)) by (apply (half 5 4 (repeat 1%nat 16)); [cbn; auto 10|exact H6]).
    assert (H4 : derives P 6 4 (repeat 1%nat 64)) by (apply (half 4 5 (repeat 1%nat 32)); [cbn; auto 10|exact H5]).
    apply (half 3 6 (repeat 1%nat 64)); [cbn; auto 10|exact H4].
  Qed.
  Lemma run : forall n (st : state), st 0%nat -> executable P st (repeat 1%nat n).
  Proof.
    induction n as [|n IH]; intros st H; cbn [repeat executable]; auto. split.
    - intros f (l & E & I). injection E as <-. destruct I as [<-|[]]. exact H.
    - apply IH. right. split; auto. intros (l & E & I). injection E as <-. destruct I.
  Qed.
  Lemma has_solution : solution P plan.
  Proof.
    apply derives_solution; [exact wf|intros m H; assert (exists t a b, m = two t a b) as (t & a & b & ->) by (cbn in H; intuition (subst; eauto)); exists [0; 1]%nat; apply total2|].
    split; [exists 8%nat; exact derived|]. split; [|intros f []]. unfold plan. cbn [executable]. split; [intros f (l & E & I); injection E as <-; destruct I|].
    apply run. left. exists [0%nat]. split; [reflexivity|now left].
  Qed.
  Lemma infeasible ip x : ~ feasible ip J x.
  Proof.
    intros (F1 & F2 & F3). assert (B : Qle (x (UF 0)) 1) by (apply (F2 (UF 0) 0 1); cbn; auto). clear F1 F2.
    apply Forall_forall in F3; cbn [i_cons J] in F3; repeat (apply Forall_cons_iff in F3 as [?C F3]); unfold sat in *; cbn [l_rel l_terms l_rhs value fold_right] in *; unfold inject_Z in *. lra.
  Qed.
End R.

(** C190 (refuted): the heuristic rejects no solvable problem. A precondition allows at most 100 uses of an action (hhDOfree.cpp 566): if the only plan uses an action with a precondition that has to be achieved
    more often, the program is infeasible and the initial node is rejected, although it has no cuts, landmarks or net change constraints. *)
Definition dof_rejects_unsolvable : Prop := forall al P T q0 s R r L C o ip out plan,
  dof_input al P T q0 s R r (initial_network P) L C -> (forall f, holds s f <-> initial_state P f) -> o_net o = false ->
  solution P plan -> Z.of_nat (length plan) <= INT_MAX -> dof_model P [] o r s C (Some []) [] = Some out -> ~ dof_value ip out None.
Theorem dof_rejects_unsolvable_refuted : ~ dof_rejects_unsolvable.
Proof.
  intros H. apply (H _ _ _ _ _ _ _ _ _ R.o true (Solve R.J) R.plan R.input); [|reflexivity|exact R.has_solution|vm_compute; discriminate|exact R.model|].
  - intros f. split; [|intros []]. unfold holds. destruct f as [|f]; [discriminate|]. destruct f; discriminate.
  - apply sr_none. apply R.infeasible.
Qed.

Print Assumptions dof_admissible.
Print Assumptions dof_defined.
Print Assumptions dof_relaxed_plan.
Print Assumptions dof_hierarchy.
Print Assumptions dof_exits_safe.
Print Assumptions dof_landmarks_enforced.
Print Assumptions dof_net_enforced.
Print Assumptions dof_rejects_unsolvable_refuted.
