(** Properties of the translation of partially ordered HTN problems to tasks with conditional effects (C114-C120). *)
From Coq Require Import Relations.
From Verif Require Import Base Htn_problem Htn_spec Htn_sem Htn_iso Htn_proof Htn_check To_spec To_sem Sas_model Sas_spec Sas_proof Sas_sim Sas_act Sas_rep Sas_stack Sas_ops Sas_thm
  Push_model Push_spec Push_net Push_sys Push_run Push_sim Push_ops.

Lemma agree_nil P V : precs_agree P V [].
Proof. intros l1 a l2 d l3 i x y E. destruct l1; discriminate. Qed.
Lemma agree_one P V a : precs_agree P V [a].
Proof. intros l1 a' l2 d l3 i x y E. destruct l1 as [|? [|? ?]]; cbn in E; try discriminate; injection E as _ E; destruct l2; discriminate. Qed.

Lemma sum_cons a l : list_sum (a :: l) = a + list_sum l. Proof. reflexivity. Qed.

Section Thm.
  Variables (P : problem) (V : list (nat * nat)).
  Hypotheses (TB : to_base P V) (S0 : s0_found P V) (SE : single_effects P V) (LP : listed_po P).

  Record pgood (S : sproblem) (pgb : nat) (T : cd_task) (v0 r0 : list nat) : Prop := {
    pg_sp : sp_ok P V S;
    pg_nz : length (sp_var S) <> 0;
    pg_rep : rep V (initial_state P) v0;
    pg_agr : agrees pgb r0 (c0 P);
    pg_init : cd_init T = v0 ++ r0;
    pg_goal : forall i d, In (i, d) (cd_goal T) <-> (exists e, In e (sp_goal S) /\ fact_of (sp_var S) i d e) \/ (exists p, p < pgb /\ i = length (sp_var S) + p /\ d = 0);
    pg_op : forall n o, In (n, o) (cd_ops T) -> opl P V S pgb n o;
    pg_act : forall i j, i < length (p_cost P) -> j < pgb -> exists o, In (QPrim i j, o) (cd_ops T);
    pg_meth : forall i m j, nth_error (p_methods P) i = Some m -> length (m_subs m) + j <= pgb -> exists subs o, In (QMeth i j subs, o) (cd_ops T);
    pg_move : forall i j, i < ntasks P -> 1 <= j < pgb -> exists o, In (QMove i j (j - 1), o) (cd_ops T) }.

  Lemma push_good pgb u : 1 <= pgb -> zeroed u -> exists S T v0 r0, push_translate P V pgb true u = Some T /\ pgood S pgb T v0 r0.
  Proof.
    intros PG Z. destruct TB as [WF [IV NV] OV PF AF]. assert (O0 : one_value V (initial_state P)) by (apply (OV []); exact Logic.I). destruct (sas_plus_ok P V WF IV NV O0 S0) as (S & ES & SP).
    assert (NZ : length (sp_var S) <> 0) by (rewrite (so_len _ _ _ SP); destruct V; [congruence|discriminate]).
    destruct (conv_array_some (pvars P S pgb) (mv P S pgb pgb)) as (c & EC); [eapply pv_int; eauto|].
    destruct (ptask_ok P V S pgb c u WF IV SP OV PF SE AF PG EC LP Z NZ) as (ops & T & v0 & r0 & EO & EW & R0 & A0 & EI & EG & A & B & C & D).
    exists S, T, v0, r0. split; [unfold push_translate; rewrite ES; cbn [obind]; rewrite EO; exact EW|]. split; auto.
  Qed.

  (** C114: the translation is defined *)
  Theorem push_defined pgb u : 1 <= pgb -> zeroed u -> exists T, push_translate P V pgb true u = Some T.
  Proof. intros PG Z. destruct (push_good pgb u PG Z) as (S & T & v0 & r0 & E & _). eauto. Qed.

  Lemma goals_po S pgb T v r cf (s : state) : sp_ok P V S -> rep V s v -> agrees pgb r cf ->
    (forall i d, In (i, d) (cd_goal T) <-> (exists e, In e (sp_goal S) /\ fact_of (sp_var S) i d e) \/ (exists p, p < pgb /\ i = length (sp_var S) + p /\ d = 0)) ->
    ((forall p, In p (cd_goal T) -> holds (v ++ r) p) <-> goal_state P s /\ forall p, p < pgb -> cf (ST p) = 0).
  Proof.
    intros SP RP AG EG. assert (Lv : length v = length (sp_var S)) by (destruct RP as [-> _]; symmetry; apply SP). assert (F := so_goal _ _ _ SP).
    assert (HK : forall p, p < pgb -> (holds (v ++ r) (length (sp_var S) + p, 0) <-> cf (ST p) = 0)). { intros p Lp. apply (agrees_holds S pgb v r cf (ST p, 0)); auto. }
    assert (HG : (forall i d e, In e (sp_goal S) -> fact_of (sp_var S) i d e -> holds (v ++ r) (i, d)) <-> goal_state P s).
    { unfold goal_state. assert (X : forall i d b e, fact_of V i d b -> fact_of (sp_var S) i d e -> (s b <-> holds (v ++ r) (i, d))).
      { intros i d b e F1 F2. rewrite holds_front by (rewrite Lv; eapply fact_of_lt; eauto). now apply (rep_fact V). }
      clear EG HK. induction F as [|b e l l' (i & d & F1 & F2) F IH]; cbn [In]; [split; [intros _ f []|intros _ i d e []]|]. split.
      - intros H f [<-|I]; [apply (X i d b e F1 F2); eauto|]. apply (proj1 IH); auto. intros i' d' e' I'. apply H. now right.
      - intros H i' d' e' [<-|I] F'; [|apply (proj2 IH) with (e := e'); auto]. destruct (W_inj P V S SP _ _ _ _ _ F2 F'). subst. apply (X i' d' b e); auto. }
    rewrite <- HG. split.
    - intros H. split; [intros i d e I F'; apply H, EG; left; eauto|]. intros p Lp. apply HK; auto. apply H, EG. right. eauto.
    - intros [H1 H2] [i d] I. apply EG in I as [(e & I & F')|(p & Lp & -> & ->)]; eauto. apply HK; auto.
  Qed.

  (** Runs of the written task and runs of the operators on positions *)
  Lemma cd_to_arun S pgb T v0 r0 : 1 <= pgb -> pgood S pgb T v0 r0 -> forall pl w w', cd_run T w pl w' -> forall s v r cf, w = v ++ r -> Sas_rep.reached P s -> rep V s v -> agrees pgb r cf ->
    exists l s' cf' v' r', arun P pgb s cf l s' cf' /\ w' = v' ++ r' /\ rep V s' v' /\ agrees pgb r' cf' /\ acts l = push_printed (map fst pl) /\ cd_plan_cost pl = plan_cost P (acts l).
  Proof.
    intros PG G. induction 1 as [w|w n o pl w' I A R IH]; intros s v r cf -> RE RP AG; [exists [], s, cf, v, r; split; [apply ar_nil|auto 10]|]. apply (pg_op _ _ _ _ _ G) in I.
    assert (SP := pg_sp _ _ _ _ _ G). assert (NZ := pg_nz _ _ _ _ _ G). destruct n as [i j|i j sb|i j k]; cbn [opl] in I.
    - destruct I as (Li & Lj & LK). destruct (like_step P V S pgb SP PG _ _ _ _ s v r cf LK (agree_one P V i) NZ RE RP AG) as (AP & RS & CO). destruct (proj1 AP A) as [[AA AA2] PR]. destruct RS as (v1 & r1 & RP1 & AG1 & ER); [cbn; auto|].
      destruct (IH (result P s i) v1 r1 _ ER (reached_step P s i RE AA) RP1 AG1) as (l & s' & cf' & v' & r' & AR & EW & RP' & AG' & EA & EC). exists (AAct i j :: l), s', cf', v', r'. split; [econstructor; eauto|]. do 3 (split; [assumption|]).
      unfold acts, push_printed, cd_plan_cost, plan_cost in *. cbn [map concat app fst snd]. split; [now rewrite EA|]. rewrite ?sum_cons. now rewrite EC, CO.
    - destruct I as (m & En & Lj & LK). destruct (like_step P V S pgb SP PG _ _ _ _ s v r cf LK (agree_nil P V) NZ RE RP AG) as (AP & RS & CO). destruct (proj1 AP A) as [AA PR]. destruct RS as (v1 & r1 & RP1 & AG1 & ER); [exact Logic.I|].
      destruct (IH s v1 r1 _ ER RE RP1 AG1) as (l & s' & cf' & v' & r' & AR & EW & RP' & AG' & EA & EC). exists (AMeth i j :: l), s', cf', v', r'. split; [econstructor; eauto|]. do 3 (split; [assumption|]).
      unfold acts, push_printed, cd_plan_cost, plan_cost in *. cbn [map concat app fst snd]. split; [now rewrite EA|]. rewrite ?sum_cons. now rewrite EC, CO.
    - destruct I as (Li & Lj & LK). destruct (like_step P V S pgb SP PG _ _ _ _ s v r cf LK (agree_nil P V) NZ RE RP AG) as (AP & RS & CO). destruct (proj1 AP A) as [AA PR]. destruct RS as (v1 & r1 & RP1 & AG1 & ER); [exact Logic.I|].
      destruct (IH s v1 r1 _ ER RE RP1 AG1) as (l & s' & cf' & v' & r' & AR & EW & RP' & AG' & EA & EC). exists (AMove i j :: l), s', cf', v', r'. split; [econstructor; eauto|]. do 3 (split; [assumption|]).
      unfold acts, push_printed, cd_plan_cost, plan_cost in *. cbn [map concat app fst snd]. split; [now rewrite EA|]. rewrite ?sum_cons. now rewrite EC, CO.
  Qed.

  Lemma arun_to_cd S pgb T v0 r0 : 1 <= pgb -> pgood S pgb T v0 r0 -> forall s cf l s' cf', arun P pgb s cf l s' cf' -> forall v r, Sas_rep.reached P s -> rep V s v -> agrees pgb r cf ->
    exists pl v' r', cd_run T (v ++ r) pl (v' ++ r') /\ rep V s' v' /\ agrees pgb r' cf' /\ push_printed (map fst pl) = acts l /\ cd_plan_cost pl = plan_cost P (acts l).
  Proof.
    intros PG G. assert (SP := pg_sp _ _ _ _ _ G). assert (NZ := pg_nz _ _ _ _ _ G).
    induction 1 as [s cf|s cf i j l s' cf' Li Lj AP PR R IH|s cf i m j l s' cf' EM FIT PR R IH|s cf i j l s' cf' Li Lj PR R IH]; intros v r RE RP AG.
    - exists [], v, r. split; [constructor|auto].
    - destruct (pg_act _ _ _ _ _ G i j Li Lj) as (o & I). assert (I' := I). apply (pg_op _ _ _ _ _ G) in I' as (_ & _ & LK). destruct (like_step P V S pgb SP PG _ _ _ _ s v r cf LK (agree_one P V i) NZ RE RP AG) as (A & RS & CO). destruct RS as (v1 & r1 & RP1 & AG1 & ER); [cbn; auto|].
      destruct (IH v1 r1 (reached_step P s i RE AP) RP1 AG1) as (pl & v' & r' & RR & RP' & AG' & EA & EC). exists ((QPrim i j, o) :: pl), v', r'. split; [constructor; [exact I|apply A; cbn; auto|rewrite ER; exact RR]|]. do 2 (split; [assumption|]).
      unfold acts, push_printed, cd_plan_cost, plan_cost in *. cbn [map concat app fst snd]. split; [now rewrite EA|]. rewrite ?sum_cons. now rewrite EC, CO.
    - destruct (pg_meth _ _ _ _ _ G i m j EM FIT) as (sb & o & I). assert (I' := I). apply (pg_op _ _ _ _ _ G) in I' as (m' & EM' & _ & LK). rewrite EM in EM'. injection EM' as <-. destruct (like_step P V S pgb SP PG _ _ _ _ s v r cf LK (agree_nil P V) NZ RE RP AG) as (A & RS & CO). destruct RS as (v1 & r1 & RP1 & AG1 & ER); [exact Logic.I|].
      destruct (IH v1 r1 RE RP1 AG1) as (pl & v' & r' & RR & RP' & AG' & EA & EC). exists ((QMeth i j sb, o) :: pl), v', r'. split; [constructor; [exact I|apply A; cbn; auto|rewrite ER; exact RR]|]. do 2 (split; [assumption|]).
      unfold acts, push_printed, cd_plan_cost, plan_cost in *. cbn [map concat app fst snd]. split; [now rewrite EA|]. rewrite ?sum_cons. now rewrite EC, CO.
    - destruct (pg_move _ _ _ _ _ G i j Li Lj) as (o & I). assert (I' := I). apply (pg_op _ _ _ _ _ G) in I' as (_ & _ & LK). destruct (like_step P V S pgb SP PG _ _ _ _ s v r cf LK (agree_nil P V) NZ RE RP AG) as (A & RS & CO). destruct RS as (v1 & r1 & RP1 & AG1 & ER); [exact Logic.I|].
      destruct (IH v1 r1 RE RP1 AG1) as (pl & v' & r' & RR & RP' & AG' & EA & EC). exists ((QMove i j (j - 1), o) :: pl), v', r'. split; [constructor; [exact I|apply A; cbn; auto|rewrite ER; exact RR]|]. do 2 (split; [assumption|]).
      unfold acts, push_printed, cd_plan_cost, plan_cost in *. cbn [map concat app fst snd]. split; [now rewrite EA|]. rewrite ?sum_cons. now rewrite EC, CO.
  Qed.

  (** The initial task network *)
  Lemma init_edge pgb k j : ~ edge pgb (c0 P) k j.
  Proof. intros [_ E]. discriminate. Qed.
  Lemma init_ok pgb : Push_sys.ok pgb (c0 P).
  Proof. split; [intros k j E; now apply init_edge in E|intros k q _; cbn; lia]. Qed.
  Lemma init_wf : wf_tn (initial_network P). Proof. split; cbn; try tauto; intros; subst; auto. Qed.
  Lemma init_iso pgb : 1 <= pgb -> exists f, iso f (initial_network P) (net pgb (c0 P)).
  Proof.
    intros PG. exists (fun x y => x = [] /\ y = [0]). split; cbn [initial_network net t_in t_lab t_ord].
    - intros x y [-> ->]. split; auto. exists 0. cbn. repeat split; [lia|discriminate].
    - intros x ->. eauto.
    - intros y ([|p] & -> & _ & N); [eauto|]. now cbn in N.
    - intros x y y' [_ ->] [_ ->]. reflexivity.
    - intros x x' y [-> _] [-> _]. reflexivity.
    - intros x y [-> ->]. cbn. lia.
    - intros x y x' y' _ _. split; [tauto|]. intros (p & q & _ & _ & H). apply path_first in H as (z & E & _). now apply init_edge in E.
  Qed.
  Lemma init_solution pgb plan : 1 <= pgb -> (solution P plan <-> exists k, solvesk P (initial_state P) (net pgb (c0 P)) k plan).
  Proof.
    intros PG. destruct TB as [WF _ _ _ _]. assert (AC := wf_acyclic P WF). unfold solution. rewrite (solves_solvesk P _ _ _ AC init_wf). destruct (init_iso pgb PG) as (f & I). assert (W := net_wf pgb _ (proj1 (init_ok pgb))). split; intros (k & H); exists k.
    - refine (solvesk_iso P _ _ _ _ k plan AC init_wf W _ H). split; [tauto|eauto].
    - refine (solvesk_iso P _ _ _ _ k plan AC W init_wf _ H). split; [tauto|]. exists (fun x y => f y x). now apply iso_sym.
  Qed.

  (** C115: soundness; the plans of the written task name the actions of solutions, at the same cost *)
  Theorem push_sound pgb u T pl : 1 <= pgb -> zeroed u -> push_translate P V pgb true u = Some T -> cd_plan T pl ->
    solution P (push_printed (map fst pl)) /\ cd_plan_cost pl = plan_cost P (push_printed (map fst pl)).
  Proof.
    intros PG Z ET (w & RUN & GO). destruct (push_good pgb u PG Z) as (S & T' & v0 & r0 & ET' & G). rewrite ET in ET'. injection ET' as <-. rewrite (pg_init _ _ _ _ _ G) in RUN.
    destruct (cd_to_arun S pgb T v0 r0 PG G pl _ w RUN (initial_state P) v0 r0 (c0 P) eq_refl (reached_init P) (pg_rep _ _ _ _ _ G) (pg_agr _ _ _ _ _ G)) as (l & s' & cf' & v' & r' & AR & -> & RP & AG & EA & EC).
    apply (goals_po S pgb T v' r' cf' s' (pg_sp _ _ _ _ _ G) RP AG (pg_goal _ _ _ _ _ G)) in GO as [GS GZ]. rewrite <- EA. split; auto. apply (init_solution pgb _ PG). destruct TB as [WF _ _ _ AF].
    eapply arun_sound; eauto using init_ok. intros m I. apply (LP m I).
  Qed.

  (** C116: completeness; every solution is printed, at the same cost, by a plan of the tasks for all bounds that are large enough *)
  Theorem push_complete plan : solution P plan -> exists b, forall pgb u T, b <= pgb -> zeroed u -> push_translate P V pgb true u = Some T ->
    exists pl, cd_plan T pl /\ push_printed (map fst pl) = plan /\ cd_plan_cost pl = plan_cost P plan.
  Proof.
    intros SOL. assert (K : exists k, forall pgb, 1 <= pgb -> solvesk P (initial_state P) (net pgb (c0 P)) k plan).
    { destruct TB as [WF _ _ _ _]. assert (AC := wf_acyclic P WF). unfold solution in SOL. rewrite (solves_solvesk P _ _ _ AC init_wf) in SOL. destruct SOL as (k & H). exists k. intros pgb PG. destruct (init_iso pgb PG) as (f & I). refine (solvesk_iso P _ _ _ _ k plan AC init_wf (net_wf pgb _ (proj1 (init_ok pgb))) _ H). split; [tauto|eauto]. }
    destruct K as (k & K). set (D := list_max (map (fun m => length (m_subs m)) (p_methods P))).
    assert (SZ : forall m, In m (p_methods P) -> length (m_subs m) <= D). { intros m I. assert (X := proj1 (list_max_le (map (fun m => length (m_subs m)) (p_methods P)) D) (le_n _)). rewrite Forall_forall in X. apply X. now apply (in_map (fun m => length (m_subs m))). }
    exists (1 + k * D). intros pgb u T L Z ET. assert (PG : 1 <= pgb) by lia. destruct (push_good pgb u PG Z) as (S & T' & v0 & r0 & ET' & G). rewrite ET in ET'. injection ET' as <-. destruct TB as [WF _ _ _ AF].
    assert (Lt : p_init P < ntasks P) by (apply nth_error_Some; rewrite (wf_init P WF); discriminate).
    assert (OC : forall p, occ (c0 P) p = (p =? 0)) by (intros [|p]; reflexivity).
    assert (IN : inv P pgb (c0 P)). { split; [apply init_ok| | |]. - intros [|p] _; cbn; lia. - intros [|p] _; reflexivity. - left. intros p _. reflexivity. }
    assert (CP : compact pgb (c0 P) 1). { split; [lia|]. split; [|reflexivity]. intros p _. rewrite OC, Nat.eqb_eq. lia. }
    destruct (arun_complete P pgb WF (fun m I => proj1 (LP m I)) D SZ k (initial_state P) (c0 P) 1 plan IN CP L (K pgb PG)) as (l & s' & cf' & AR & EA & GS & GZ).
    destruct (arun_to_cd S pgb T v0 r0 PG G _ _ _ _ _ AR v0 r0 (reached_init P) (pg_rep _ _ _ _ _ G) (pg_agr _ _ _ _ _ G)) as (pl & v' & r' & RR & RP & AG & EP & EC).
    exists pl. rewrite EA in *. split; auto. exists (v' ++ r'). split; [rewrite (pg_init _ _ _ _ _ G); exact RR|]. apply (goals_po S pgb T v' r' cf' s' (pg_sp _ _ _ _ _ G) RP AG (pg_goal _ _ _ _ _ G)). auto.
  Qed.
End Thm.

(** C117: the written task is well-formed: all values lie in the domains of their variables *)
Section Wf.
  Variables (P : problem) (V : list (nat * nat)).
  Hypotheses (TB : to_base P V) (S0 : s0_found P V).

  Theorem push_wf pgb ce u T : 1 <= pgb -> push_translate P V pgb ce u = Some T -> cd_wf T.
  Proof.
    intros PG ET. destruct TB as [WF [IV NV] OV PF AF]. assert (O0 : one_value V (initial_state P)) by (apply (OV []); exact Logic.I). destruct (sas_plus_ok P V WF IV NV O0 S0) as (S & ES & SP).
    unfold push_translate in ET. rewrite ES in ET. cbn [obind] in ET. apply obind_some in ET as (ops & EO & ET). unfold write_push in ET. apply obind_some in ET as (c & EC & ET). apply obind_some in ET as (i1 & E1 & ET). apply obind_some in ET as (i2 & E2 & ET).
    apply obind_some in ET as (g1 & G1 & ET). apply obind_some in ET as (g2 & G2 & ET). apply obind_some in ET as (fs & EF & ET). set (T0 := {| cd_dom := _ |}) in ET. injection ET as ET. assert (IT : intervals 0 (pvars P S pgb) (mv P S pgb pgb)) by (eapply pv_int; eauto).
    assert (FD : forall b i d, conv c b = Some (i, d) -> cd_in_dom T0 (i, d)).
    { intros b i d C. apply (proj1 (conv_ok _ _ _ IT EC b i d)) in C as (f & l & En & <- & L). unfold cd_in_dom. cbn [fst snd]. unfold T0. cbn [cd_dom]. rewrite nth_error_map, En. cbn [option_map fst snd]. eexists. split; [reflexivity|]. lia. }
    assert (OD : forall l l', omap (conv c) l = Some l' -> forall p, In p l' -> cd_in_dom T0 p) by (intros l l' O [i d] J; destruct (omap_in _ _ _ _ O J) as (b & _ & C); eauto).
    destruct (s0_rep P V S IV SP OV (conv c) (PCVW P V S pgb c SP PG EC)) as (i1' & E1' & R0). rewrite E1 in E1'. injection E1' as <-. assert (NZ : length (sp_var S) <> 0) by (rewrite (so_len _ _ _ SP); destruct V; [congruence|discriminate]). destruct (init_agrees P V S pgb c WF SP PG EC NZ) as (r0 & i2' & E2' & Er & A0). rewrite E2 in E2'. injection E2' as <-.
    assert (Lv : length (map snd i1) = length (sp_var S)) by (destruct R0 as [-> _]; symmetry; apply SP).
    assert (OPS : forall n o, In (n, o) fs -> exists q, write_pop c ce q = Some o) by (intros n o I; destruct (omap_in _ _ _ _ EF I) as (q & _ & Eq); apply obind_some in Eq as (f & Ew & Eq); injection Eq as _ <-; eauto).
    rewrite <- ET. clear ET. split.
    - unfold T0. cbn [cd_init cd_dom]. rewrite map_app, Er. split.
      + rewrite app_length, Lv, (proj1 A0), map_length. unfold pvars, nslots. rewrite !app_length, !map_length, !seq_length. lia.
      + fold T0. intros i d E. destruct (Nat.lt_ge_cases i (length (sp_var S))) as [Li|Li].
        * rewrite nth_error_app1 in E by (rewrite Lv; auto). assert (VV := rep_valid P V S SP _ _ R0). destruct (proj2 VV i d E) as (b & F). apply (FD b). now apply (PCVW P V S pgb c SP PG EC).
        * rewrite nth_error_app2 in E by (rewrite Lv; auto). rewrite Lv in E. assert (Lx : i - length (sp_var S) < nslots pgb) by (rewrite <- (proj1 A0); apply nth_error_Some; congruence). destruct (ix_surj pgb _ Lx) as (s & Vs & Es). rewrite <- Es, (proj2 A0 s Vs) in E. injection E as <-.
          assert (Lt : p_init P < ntasks P) by (apply nth_error_Some; rewrite (wf_init P WF); discriminate). assert (C := cv_slot P V S pgb c SP PG EC (s, c0 P s) Vs). cbn [fst snd] in C. unfold tgt in C. cbn [fst snd] in C. replace (length (sp_var S) + ix pgb s) with i in C by lia. apply (FD _ _ _ (C ltac:(destruct s as [[|p]|k j|[|p]|p]; cbn [c0 top]; lia))).
    - intros p I. unfold T0 in I. cbn [cd_goal] in I. apply in_app_or in I as [I|I]; [apply (OD _ _ G1)|apply (OD _ _ G2)]; auto.
    - intros n o p I J. destruct (OPS n o I) as (q & Ew). unfold write_pop in Ew. apply obind_some in Ew as (ps & Ep & Ew). apply obind_some in Ew as (es & Ee & Ew). apply obind_some in Ew as (cs & Ec & Ew). injection Ew as <-. cbn [c_op write_op f_prev] in J. apply filter_In in J as [J _]. apply (OD _ _ Ep); auto.
    - intros n o v x d I J. destruct (OPS n o I) as (q & Ew). unfold write_pop in Ew. apply obind_some in Ew as (ps & Ep & Ew). apply obind_some in Ew as (es & Ee & Ew). apply obind_some in Ew as (cs & Ec & Ew). injection Ew as <-. cbn [c_op write_op f_eff] in J.
      apply in_map_iff in J as ([v' d'] & Ev & J). cbn [fst snd] in Ev. injection Ev as <- Ex <-. split; [apply (OD _ _ Ee); auto|]. intros e ->. apply (OD _ _ Ep). now apply last_val_in.
    - intros n o p q I J. destruct (OPS n o I) as (y & Ew). unfold write_pop in Ew. apply obind_some in Ew as (ps & Ep & Ew). apply obind_some in Ew as (es & Ee & Ew). apply obind_some in Ew as (cs & Ec & Ew). injection Ew as <-. cbn [c_cond] in J.
      destruct (omap_in _ _ _ _ Ec J) as (e & _ & Ey). apply obind_some in Ey as ([ia da] & Ea & Ey). apply obind_some in Ey as ([ib db] & Eb & Ey). injection Ey as <- <-. split; eauto.
  Qed.
End Wf.

(** ** Examples *)

(** Running operators given by their numbers *)
Fixpoint crun_ix (T : cd_task) (w : list nat) (l : list nat) : option (list (pname * cd_op) * list nat) :=
  match l with
  | [] => Some ([], w)
  | i :: r => match nth_error (cd_ops T) i with
              | Some (n, o) => if appb w (c_op o) then '(pl, w') <- crun_ix T (cd_result w o) r ;; Some ((n, o) :: pl, w') else None
              | None => None
              end
  end.
Lemma crun_ix_ok T l : forall w pl w', crun_ix T w l = Some (pl, w') -> cd_run T w pl w'.
Proof.
  induction l as [|i l IH]; intros w pl w'; cbn [crun_ix]; [intros [= <- <-]; constructor|]. destruct (nth_error (cd_ops T) i) as [[n o]|] eqn:E; [|discriminate]. destruct (appb w (c_op o)) eqn:A; [|discriminate].
  intros H. apply obind_some in H as ([pl' w1] & H & E'). injection E' as <- <-. apply andb_true_iff in A as [A1 A2]. rewrite forallb_forall in A1, A2. constructor; [eapply nth_error_In; eauto| |auto]. split.
  - intros p I. apply holdsb_ok. auto.
  - intros v x d I. apply holdsb_ok. now apply A2 in I.
Qed.
Lemma crun_ix_plan T l pl w : crun_ix T (cd_init T) l = Some (pl, w) -> forallb (Sas_thm.holdsb w) (cd_goal T) = true -> cd_plan T pl.
Proof. intros R G. exists w. split; [eapply crun_ix_ok; eauto|]. rewrite forallb_forall in G. intros p I. apply holdsb_ok. auto. Qed.

Lemma no_dels_single P V : (forall l, In l (p_del P) -> l = []) -> single_effects P V.
Proof. intros H a i b _ _ _ (l & E & I). apply nth_error_In, H in E. now subst. Qed.
Lemma no_s0 P n : p_s0 P = [] -> s0_found P (singles (S n)).
Proof. intros E. split; [rewrite E; cbn; lia|]. split; [rewrite E; intros i b []|]. intros N. exfalso. apply (N 0), (singles_single (S n) 0). cbn. lia. Qed.
Lemma po_check P : forallb (fun m => (forallb (fun e => fst e <? snd e) (m_ord m) && match m_ord m with [] => true | _ => existsb (fun e => (fst e =? length (m_subs m) - 2) && (snd e =? length (m_subs m) - 1)) (m_ord m) end)%bool) (p_methods P) = true -> listed_po P.
Proof.
  intros H m I. rewrite forallb_forall in H. apply H, andb_true_iff in I as [A B]. rewrite forallb_forall in A. split; [intros a b J; apply A in J; now apply Nat.ltb_lt in J|]. intros NE. destruct (m_ord m) as [|e l]; [congruence|].
  apply existsb_exists in B as ([a b] & J & E). apply andb_true_iff in E as [E1 E2]. apply Nat.eqb_eq in E1, E2. cbn [fst snd] in *. now subst.
Qed.
Definition zeros : nat -> nat -> nat -> nat * nat := fun _ _ _ => (0, 0).

Module PEx.
  (** A task that has to be executed between two ordered actions: 3 -> 4, 0 < 1; 4 -> 2 *)
  Definition p : problem := mk 3 [true; true; true; false; false] [([], [0], []); ([1], [2], []); ([0], [1], [])]
    [{| m_task := 3; m_subs := [4; 0; 1]; m_ord := [(1, 2)] |}; {| m_task := 4; m_subs := [2]; m_ord := [] |}] [] [2].
  Lemma base : to_base p (singles 3).
  Proof. apply singles_base; [apply problem_check_ok; reflexivity|reflexivity|apply acts_first_check; [reflexivity|cbn; lia]]. Qed.
  Lemma s0 : s0_found p (singles 3). Proof. apply no_s0. reflexivity. Qed.
  Lemma se : single_effects p (singles 3). Proof. apply no_dels_single. intros l [<-|[<-|[<-|[]]]]; reflexivity. Qed.
  Lemma lp : listed_po p. Proof. apply po_check. reflexivity. Qed.

  (** The plan decomposes 3, executes 0, moves and decomposes 4, executes 2 and 1. *)
  Example plan_ex : exists T pl, push_translate p (singles 3) 3 true zeros = Some T /\ cd_plan T pl /\ push_printed (map fst pl) = [0; 2; 1] /\
    map fst pl = [QMeth 0 0 [0; 1; 2]; QPrim 0 1; QMove 4 2 1; QMeth 1 1 [1]; QPrim 2 1; QPrim 1 0] /\ cd_plan_cost pl = 9.
  Proof.
    destruct (push_translate p (singles 3) 3 true zeros) as [T|] eqn:E; [|vm_compute in E; discriminate]. destruct (crun_ix T (cd_init T) [9; 1; 22; 11; 7; 3]) as [[pl w]|] eqn:R; [|run_tac E R].
    exists T, pl. split; auto. split; [apply (crun_ix_plan _ _ _ _ R)|]; run_tac E R; injection R as <- <-; [reflexivity|repeat split; reflexivity].
  Qed.
  Example solution_ex : solution p [0; 2; 1].
  Proof. destruct plan_ex as (T & pl & E & F & PR & _). destruct (push_sound p (singles 3) base s0 se lp 3 zeros T pl ltac:(lia) (fun _ _ _ => eq_refl) E F) as [X _]. now rewrite PR in X. Qed.
  Example complete_ex : exists b, forall pgb T, b <= pgb -> push_translate p (singles 3) pgb true zeros = Some T -> exists pl, cd_plan T pl /\ push_printed (map fst pl) = [0; 2; 1].
  Proof. destruct (push_complete p (singles 3) base s0 se lp _ solution_ex) as (b & H). exists b. intros pgb T L E. destruct (H pgb zeros T L (fun _ _ _ => eq_refl) E) as (pl & A & B & _). eauto. Qed.
  Example wf_ex : exists T, push_translate p (singles 3) 3 true zeros = Some T /\ cd_wf T.
  Proof. destruct (push_defined p (singles 3) base s0 se lp 3 zeros ltac:(lia) (fun _ _ _ => eq_refl)) as (T & E). exists T. split; auto. exact (push_wf p (singles 3) base s0 3 true zeros T ltac:(lia) E). Qed.
End PEx.

(** ** What does not hold *)

(** C118: the translation is defined whatever the uninitialised memory contains *)
Definition any_memory_defined : Prop := forall P V pgb u, to_base P V -> s0_found P V -> single_effects P V -> listed_po P -> 1 <= pgb -> exists T, push_translate P V pgb true u = Some T.
(** C119: soundness for all contents of the uninitialised memory for which the translation is defined *)
Definition any_memory_sound : Prop := forall P V pgb u T pl, to_base P V -> s0_found P V -> single_effects P V -> listed_po P -> 1 <= pgb ->
  push_translate P V pgb true u = Some T -> cd_plan T pl -> solution P (push_printed (map fst pl)).
(** C120: soundness for methods with orderings of some of the subtasks, listed in line with the orderings *)
Definition any_po_listing : Prop := forall P V pgb T pl, to_base P V -> s0_found P V -> single_effects P V ->
  (forall m, In m (p_methods P) -> forall a b, In (a, b) (m_ord m) -> a < b) -> 1 <= pgb ->
  push_translate P V pgb true zeros = Some T -> cd_plan T pl -> solution P (push_printed (map fst pl)).
(** C121: soundness of the encoding "pocond" *)
Definition pocond_sound : Prop := forall P V pgb T pl, to_base P V -> s0_found P V -> single_effects P V -> listed_po P -> 1 <= pgb ->
  push_translate P V pgb false zeros = Some T -> cd_plan T pl -> solution P (push_printed (map fst pl)).

(** The subtasks of a single method with primitive subtasks are in every solution. *)
Lemma flat_contains P m plan t : wf_problem P -> p_methods P = [m] -> (forall t, In t (m_subs m) -> primitive P t) -> solution P plan -> In t (m_subs m) -> In t plan.
Proof.
  intros WF EM HP (tn & L & R & PR & (_ & HL & _) & -> & _) I. assert (NT := wfm_task P m (wf_methods P WF m ltac:(rewrite EM; now left))). inversion R as [|? x m' tn' ? D R']; subst.
  - exfalso. assert (X := PR [] eq_refl). cbn in X. unfold primitive in X. rewrite (wf_init P WF) in X. discriminate.
  - assert (m' = m) by (assert (X := d_method _ _ _ _ _ D); rewrite EM in X; destruct X as [<-|[]]; auto). subst m'. assert (Ix : x = []) by apply (d_in _ _ _ _ _ D). subst x.
    assert (IN : forall y, t_in tn' y <-> exists j, j < length (m_subs m) /\ y = [j]). { intros y. rewrite (d_in' _ _ _ _ _ D). cbn. split; [intros [[-> H]|H]; [congruence|exact H]|auto]. }
    assert (LA : forall j u, nth_error (m_subs m) j = Some u -> t_lab tn' [j] = u) by (intros j u; apply (d_lab_new _ _ _ _ _ D)).
    assert (tn = tn').
    { inversion R' as [|? y m2 ? ? D2 R2]; subst; auto. exfalso. assert (X := d_method _ _ _ _ _ D2). rewrite EM in X. destruct X as [<-|[]]. assert (Y := d_in _ _ _ _ _ D2). apply IN in Y as (j & Lj & ->). destruct (nth_error (m_subs m) j) as [u|] eqn:Eu; [|apply nth_error_None in Eu; lia].
      assert (Z := d_lab _ _ _ _ _ D2). rewrite (LA j u Eu) in Z. subst u. apply nth_error_In, HP in Eu. unfold primitive in Eu. congruence. }
    subst tn'. apply In_nth_error in I as (j & Ej). rewrite <- (LA j t Ej). apply in_map, HL, IN. exists j. split; auto. apply nth_error_Some. congruence.
Qed.

Module PBad.
  Definition p1 : problem := mk 1 [true; true; false] [([], [], []); ([], [], [])] [{| m_task := 2; m_subs := [0; 1]; m_ord := [] |}] [] [0].
  Definition m3 : method := {| m_task := 3; m_subs := [0; 1; 2]; m_ord := [(0, 1)] |}.
  Definition p3 : problem := mk 1 [true; true; true; false] [([0], [], []); ([], [], []); ([], [], [])] [m3] [] [].
  Definition m4 : method := {| m_task := 2; m_subs := [0; 1]; m_ord := [(0, 1)] |}.
  Definition p4 : problem := mk 1 [true; true; false] [([0], [], []); ([], [0], [])] [m4] [] [].
  Lemma base1 : to_base p1 (singles 1).
  Proof. apply singles_base; [apply problem_check_ok; reflexivity|reflexivity|apply acts_first_check; [reflexivity|cbn; lia]]. Qed.
  Lemma base3 : to_base p3 (singles 1).
  Proof. apply singles_base; [apply problem_check_ok; reflexivity|reflexivity|apply acts_first_check; [reflexivity|cbn; lia]]. Qed.
  Lemma base4 : to_base p4 (singles 1).
  Proof. apply singles_base; [apply problem_check_ok; reflexivity|reflexivity|apply acts_first_check; [reflexivity|cbn; lia]]. Qed.
  Lemma se1 : single_effects p1 (singles 1). Proof. apply no_dels_single. intros l [<-|[<-|[]]]; reflexivity. Qed.
  Lemma se3 : single_effects p3 (singles 1). Proof. apply no_dels_single. intros l [<-|[<-|[<-|[]]]]; reflexivity. Qed.
  Lemma se4 : single_effects p4 (singles 1). Proof. apply no_dels_single. intros l [<-|[<-|[]]]; reflexivity. Qed.
End PBad.

Theorem any_memory_defined_refuted : ~ any_memory_defined.
Proof.
  intros H. destruct (H PBad.p1 (singles 1) 2 (fun _ _ _ => (1000, 0)) PBad.base1 (no_s0 PBad.p1 0 eq_refl) PBad.se1) as (T & E); [apply po_check; reflexivity|lia|]. vm_compute in E. discriminate.
Qed.

Theorem any_memory_sound_refuted : ~ any_memory_sound.
Proof.
  intros H. destruct (push_translate PBad.p1 (singles 1) 2 true (fun _ _ _ => (1, 0))) as [T|] eqn:E; [|vm_compute in E; discriminate]. destruct (crun_ix T (cd_init T) [4; 2; 5; 0]) as [[pl w]|] eqn:R; [|run_tac E R].
  assert (FP : cd_plan T pl) by (apply (crun_ix_plan _ _ _ _ R); run_tac E R; injection R as <- <-; reflexivity).
  assert (X := H PBad.p1 (singles 1) 2 _ T pl PBad.base1 (no_s0 PBad.p1 0 eq_refl) PBad.se1 ltac:(apply po_check; reflexivity) ltac:(lia) E FP). destruct X as (tn & L & _ & _ & _ & _ & _ & G). specialize (G 0 (or_introl eq_refl)).
  assert (N : forall plan s, ~ s 0 -> ~ after PBad.p1 s plan 0). { induction plan as [|a r IH]; intros s Ns; cbn; auto. apply IH. intros [(l & El & Il)|[Q _]]; [destruct a as [|[|a]]; [| |destruct a; discriminate]; injection El as <-; destruct Il|auto]. }
  revert G. apply N. intros [].
Qed.

Theorem any_po_listing_refuted : ~ any_po_listing.
Proof.
  intros H. destruct (push_translate PBad.p3 (singles 1) 3 true zeros) as [T|] eqn:E; [|vm_compute in E; discriminate]. destruct (crun_ix T (cd_init T) [9; 5; 4; 6]) as [[pl w]|] eqn:R; [|run_tac E R].
  assert (FP : cd_plan T pl) by (apply (crun_ix_plan _ _ _ _ R); run_tac E R; injection R as <- <-; reflexivity).
  assert (LT : forall m, In m (p_methods PBad.p3) -> forall a b, In (a, b) (m_ord m) -> a < b) by (intros m [<-|[]] a b [[= <- <-]|[]]; lia).
  assert (X := H PBad.p3 (singles 1) 3 T pl PBad.base3 (no_s0 PBad.p3 0 eq_refl) PBad.se3 LT ltac:(lia) E FP). assert (PT : forall t, In t (m_subs PBad.m3) -> primitive PBad.p3 t) by (intros t [<-|[<-|[<-|[]]]]; reflexivity).
  apply (flat_contains PBad.p3 PBad.m3 _ 0 (tb_wf _ _ PBad.base3) eq_refl PT) in X; [|now left]. run_tac E R. injection R as <- <-. vm_compute in X. intuition discriminate.
Qed.

Theorem pocond_sound_refuted : ~ pocond_sound.
Proof.
  intros H. destruct (push_translate PBad.p4 (singles 1) 2 false zeros) as [T|] eqn:E; [|vm_compute in E; discriminate]. destruct (crun_ix T (cd_init T) [4; 2; 5; 0]) as [[pl w]|] eqn:R; [|run_tac E R].
  assert (FP : cd_plan T pl) by (apply (crun_ix_plan _ _ _ _ R); run_tac E R; injection R as <- <-; reflexivity).
  assert (X := H PBad.p4 (singles 1) 2 T pl PBad.base4 (no_s0 PBad.p4 0 eq_refl) PBad.se4 ltac:(apply po_check; reflexivity) ltac:(lia) E FP).
  assert (LM : linear_methods PBad.p4). { intros m [<-|[]]. exists [0; 1]. assert (L := in_order_check PBad.p4 eq_refl PBad.m4 (or_introl eq_refl)). exact L. }
  assert (PR : push_printed (map fst pl) = [1; 0]) by (run_tac E R; injection R as <- <-; reflexivity). rewrite PR in X. assert (WF := tb_wf _ _ PBad.base4).
  apply (proj1 (derives_solution PBad.p4 WF LM _)) in X as ((h & D) & _). assert (PT : forall t, In t (m_subs PBad.m4) -> primitive PBad.p4 t) by (intros t [<-|[<-|[]]]; reflexivity).
  destruct (flat_derives PBad.p4 PBad.m4 h _ WF eq_refl PT D) as (o & (_ & Hin & Hord) & EO). assert (o = [1; 0]).
  { assert (ID : forall j, In j o -> nth j (m_subs PBad.m4) 0 = j) by (intros j I; apply Hin in I; cbn in I; destruct j as [|[|j]]; try reflexivity; lia). assert (Y : map (fun j => nth j (m_subs PBad.m4) 0) o = map (fun j => j) o) by (apply map_ext_in; exact ID). rewrite Y, map_id in EO. auto. }
  subst o. assert (Y := Hord [] 1 [0] 0 eq_refl (or_introl eq_refl)). apply m_lt_step in Y as (c & I & _). destruct I as [|[]]. discriminate.
Qed.

Print Assumptions push_defined.
Print Assumptions push_sound.
Print Assumptions push_complete.
Print Assumptions push_wf.
Print Assumptions any_memory_defined_refuted.
Print Assumptions any_memory_sound_refuted.
Print Assumptions any_po_listing_refuted.
Print Assumptions pocond_sound_refuted.
