(** Properties of the translation of partially ordered HTN problems to tasks without conditional effects (C123-C129). *)
From Coq Require Import Relations NArith.
From Verif Require Import Base Htn_problem Htn_spec Htn_sem Htn_iso Htn_proof Htn_check To_spec To_sem Sas_model Sas_spec Sas_proof Sas_sim Sas_act Sas_rep Sas_stack Sas_ops Sas_thm
  Push_model Push_spec Push_net Push_sys Push_run Push_ops Push_thm Strips_model Strips_spec Strips_comb Strips_net Strips_sys Strips_run Strips_sim Strips_ops.

(** C123: the positions of the subtasks are enumerated; the number of choices is a binomial coefficient, each choice occurs exactly once *)
Theorem choices_enumerated n k : k <= n -> binom n k = Some (choose n k) /\
  (forall i, i < choose n k -> exists l, combination n k i = Some l /\ length l = k /\ increasing l /\ forall x, In x l -> x < n) /\
  (forall l, length l = k -> increasing l -> (forall x, In x l -> x < n) -> exists i, i < choose n k /\ combination n k i = Some l /\ forall i', i' < choose n k -> combination n k i' = Some l -> i' = i).
Proof.
  intros L. split; [rewrite binom_choose; destruct (Nat.ltb_spec n k); [lia|auto]|]. split; [intros i Li; now apply combination_sound|]. intros l A B D. destruct (combination_complete n k l A B D) as (i & Li & E). exists i. split; auto. split; auto. intros i' Li' E'. apply (combination_once n k i' i); auto. congruence.
Qed.
Example choices_ex : binom 5 3 = Some 10 /\ combination 5 3 0 = Some [0; 1; 2] /\ combination 5 3 6 = Some [1; 2; 3] /\ combination 5 3 9 = Some [2; 3; 4] /\ combination 5 3 10 = None.
Proof. repeat split. Qed.

Section Thm.
  Variables (P : problem) (V : list (nat * nat)).
  Hypotheses (TB : to_base P V) (S0 : s0_found P V) (SE : single_effects P V) (LP : listed_po P).

  Record sgood (S : sproblem) (pgb : nat) (T : ss_task) (v0 r0 : list nat) : Prop := {
    sg_sp : sp_ok P V S;
    sg_rep : rep V (initial_state P) v0;
    sg_agr : agrees pgb r0 (c0 P);
    sg_init : ss_init T = v0 ++ r0;
    sg_goal : forall i d, In (i, d) (ss_goal T) <-> (exists e, In e (sp_goal S) /\ fact_of (sp_var S) i d e) \/ (exists p, p < pgb /\ i = length (sp_var S) + p /\ d = 0);
    sg_op : forall n o, In (n, o) (ss_ops T) -> opl P V S pgb n o;
    sg_empty : forall j, j < pgb -> exists o, In (TEmpty j, o) (ss_ops T);
    sg_act : forall i j, i < length (p_cost P) -> j < pgb -> exists o, In (TPrim i j, o) (ss_ops T);
    sg_meth : forall i m j raw, nth_error (p_methods P) i = Some m -> j < pgb -> choice pgb m raw -> exists subs o, In (TMeth i j subs, o) (ss_ops T) /\ like P V S pgb [] (mqop pgb m j raw) 0 o }.

  Lemma strips_good pgb : 1 <= pgb -> empty_cost P <> None -> (forall m, In m (p_methods P) -> n_comb pgb (length (m_subs m)) (nlm m) <> None) -> exists S T v0 r0, strips_translate P V pgb = Some T /\ sgood S pgb T v0 r0.
  Proof.
    intros PG EN NC. destruct TB as [WF [IV NV] OV PF AF]. assert (O0 : one_value V (initial_state P)) by (apply (OV []); exact Logic.I). destruct (sas_plus_ok P V WF IV NV O0 S0) as (S & ES & SP).
    destruct (conv_array_some (svars P S pgb) (Strips_model.st P S pgb pgb)) as (c & EC); [eapply sv_int; eauto|].
    destruct (stask_ok P V S pgb c WF IV SP OV PF SE AF PG EC LP EN NC) as (ops & T & v0 & r0 & EO & EW & R0 & A0 & EI & EG & A & B & C & D).
    exists S, T, v0, r0. split; [unfold strips_translate; rewrite ES; cbn [obind]; rewrite EO; exact EW|]. split; auto.
  Qed.
  Lemma defined_good pgb T : 1 <= pgb -> strips_translate P V pgb = Some T -> exists S v0 r0, sgood S pgb T v0 r0.
  Proof.
    intros PG ET. destruct (strips_good pgb PG) as (S & T' & v0 & r0 & ET' & G).
    - intros E. unfold strips_translate in ET. apply obind_some in ET as (S & _ & ET). unfold strips_ops in ET. rewrite E in ET. discriminate.
    - intros m IM E. unfold strips_translate in ET. apply obind_some in ET as (S & _ & ET). apply obind_some in ET as (ops & EO & _). unfold strips_ops in EO. apply obind_some in EO as (x & _ & EO). apply obind_some in EO as (a & _ & EO). apply obind_some in EO as (ms & EM & _). unfold smeth_ops in EM. apply obind_some in EM as (l & EM & _).
      destruct (In_nth_error _ _ IM) as (i & Ei). destruct (omap_in' _ _ _ (i, m) EM) as (y & _ & Ey); [apply nth_comb; rewrite Nat.sub_0_r; split; [lia|auto]|]. cbn [fst snd] in Ey. destruct TB as [WF _ _ _ _]. rewrite (reordered P WF LP m IM) in Ey. cbn [obind] in Ey. rewrite rev_length in Ey. fold (nlm m) in Ey. rewrite E in Ey. discriminate.
    - rewrite ET in ET'. injection ET' as <-. eauto.
  Qed.

  (** C124: the translation is defined if there are not too many choices of positions *)
  Theorem strips_defined pgb : 1 <= pgb -> (p_cost P <> [] \/ p_methods P <> []) -> few_choices P pgb -> exists T, strips_translate P V pgb = Some T.
  Proof.
    intros PG NE FC. destruct (strips_good pgb PG) as (S & T & v0 & r0 & E & _); eauto.
    - unfold empty_cost. destruct (p_cost P), (p_methods P); try discriminate. destruct NE; congruence.
    - intros m IM. destruct TB as [WF _ _ _ _]. rewrite (n_comb_eq pgb PG m (subs_pos P WF m IM)). destruct (pgb - 1 <? kk m); [discriminate|]. assert (X := FC m IM (kk m) ltac:(unfold kk; destruct (nlm m); auto)). destruct (N.leb_spec 2147483647 (N.of_nat (choose (pgb - 1) (kk m)))) as [Q|Q]; [|discriminate]. exfalso. apply (N.lt_irrefl 2147483647). eapply N.le_lt_trans; eauto.
  Qed.

  Lemma goals_ss S pgb T v r cf (s : state) : sp_ok P V S -> rep V s v -> agrees pgb r cf ->
    (forall i d, In (i, d) (ss_goal T) <-> (exists e, In e (sp_goal S) /\ fact_of (sp_var S) i d e) \/ (exists p, p < pgb /\ i = length (sp_var S) + p /\ d = 0)) ->
    ((forall p, In p (ss_goal T) -> holds (v ++ r) p) <-> goal_state P s /\ forall p, p < pgb -> cf (ST p) = 0).
  Proof.
    intros SP RP AG EG. assert (Lv : length v = length (sp_var S)) by (destruct RP as [-> _]; symmetry; apply SP). assert (F := so_goal _ _ _ SP).
    assert (HK : forall p, p < pgb -> (holds (v ++ r) (length (sp_var S) + p, 0) <-> cf (ST p) = 0)). { intros p Lp. apply (agrees_holds S pgb v r cf (ST p, 0)); auto. }
    assert (HG : (forall i d e, In e (sp_goal S) -> fact_of (sp_var S) i d e -> holds (v ++ r) (i, d)) <-> goal_state P s).
    { unfold goal_state. assert (X : forall i d b e, fact_of V i d b -> fact_of (sp_var S) i d e -> (s b <-> holds (v ++ r) (i, d))).
      { intros i d b e F1 F2. rewrite holds_front by (rewrite Lv; eapply fact_of_lt; eauto). now apply (rep_fact V). }
      clear EG HK. induction F as [|b e l l' (i & d & F1 & F2) F IH]; cbn [In]; [split; [intros _ f []|intros _ i d e []]|]. split.
      - intros H f [<-|I]; [apply (X i d b e F1 F2); eauto|]. apply (proj1 IH); auto. intros i' d' e' I'. apply H. now right.
      - intros H i' d' e' [<-|I] F'; [|apply (proj2 IH) with (e := e'); auto]. destruct (W_inj P V S SP _ _ _ _ _ F2 F'). subst. apply (X i' d' b e); auto. }
    rewrite <- HG. split.
    - intros H. split; [intros i d e I F'; apply H, EG; left; eauto|]. intros p Lp. apply HK; auto. apply H, EG. right. eauto.
    - intros [H1 H2] [i d] I. apply EG in I as [(e & I & F')|(p & Lp & -> & ->)]; eauto. apply HK; auto.
  Qed.

  (** Runs of the written task and runs of the operators on positions *)
  Lemma ss_to_brun S pgb T v0 r0 : sgood S pgb T v0 r0 -> forall pl w w', ss_run T w pl w' -> forall s v r cf, w = v ++ r -> Sas_rep.reached P s -> rep V s v -> agrees pgb r cf ->
    exists l s' cf' v' r', brun P pgb s cf l s' cf' /\ w' = v' ++ r' /\ rep V s' v' /\ agrees pgb r' cf' /\ bacts l = strips_printed (map fst pl) /\ ss_plan_cost pl = plan_cost P (bacts l) + empties (map fst pl) * ecost P.
  Proof.
    intros G. induction 1 as [w|w n o pl w' I A R IH]; intros s v r cf -> RE RP AG; [exists [], s, cf, v, r; split; [apply br_nil|auto 10]|]. apply (sg_op _ _ _ _ _ G) in I.
    assert (SP := sg_sp _ _ _ _ _ G). destruct n as [i j|i j sb|j]; cbn [opl] in I.
    - destruct I as (Li & Lj & LK). destruct (like_step P V S pgb SP _ _ _ _ s v r cf LK (agree_one P V i) RE RP AG) as (AP & RS & CO). destruct (proj1 AP A) as [[AA AA2] PR]. destruct RS as (v1 & r1 & RP1 & AG1 & ER); [cbn; auto|].
      destruct (IH (result P s i) v1 r1 _ ER (reached_step P s i RE AA) RP1 AG1) as (l & s' & cf' & v' & r' & AR & EW & RP' & AG' & EA & EC). exists (BAct i j :: l), s', cf', v', r'. split; [econstructor; eauto|]. do 3 (split; [assumption|]).
      unfold bacts, strips_printed, ss_plan_cost, plan_cost, empties in *. cbn [map concat app fst snd]. split; [now rewrite EA|]. rewrite ?sum_cons. rewrite EC, CO. lia.
    - destruct I as (m & raw & En & Lj & CH & LK). destruct (like_step P V S pgb SP _ _ _ _ s v r cf LK (agree_nil P V) RE RP AG) as (AP & RS & CO). destruct (proj1 AP A) as [AA PR]. destruct RS as (v1 & r1 & RP1 & AG1 & ER); [exact Logic.I|].
      destruct (IH s v1 r1 _ ER RE RP1 AG1) as (l & s' & cf' & v' & r' & AR & EW & RP' & AG' & EA & EC). exists (BMeth i j raw :: l), s', cf', v', r'. split; [econstructor; eauto|]. do 3 (split; [assumption|]).
      unfold bacts, strips_printed, ss_plan_cost, plan_cost, empties in *. cbn [map concat app fst snd]. split; [now rewrite EA|]. rewrite ?sum_cons. rewrite EC, CO. lia.
    - destruct I as (Lj & LK). destruct (like_step P V S pgb SP _ _ _ _ s v r cf LK (agree_nil P V) RE RP AG) as (AP & RS & CO). destruct (proj1 AP A) as [AA PR]. destruct RS as (v1 & r1 & RP1 & AG1 & ER); [exact Logic.I|].
      destruct (IH s v1 r1 _ ER RE RP1 AG1) as (l & s' & cf' & v' & r' & AR & EW & RP' & AG' & EA & EC). exists (BEmpty j :: l), s', cf', v', r'. split; [econstructor; eauto|]. do 3 (split; [assumption|]).
      unfold bacts, strips_printed, ss_plan_cost, plan_cost, empties in *. cbn [map concat app fst snd]. split; [now rewrite EA|]. rewrite ?sum_cons. rewrite EC, CO. lia.
  Qed.

  Lemma brun_to_ss S pgb T v0 r0 : sgood S pgb T v0 r0 -> forall s cf l s' cf', brun P pgb s cf l s' cf' -> forall v r, Sas_rep.reached P s -> rep V s v -> agrees pgb r cf ->
    exists pl v' r', ss_run T (v ++ r) pl (v' ++ r') /\ rep V s' v' /\ agrees pgb r' cf' /\ strips_printed (map fst pl) = bacts l /\ ss_plan_cost pl = plan_cost P (bacts l) + empties (map fst pl) * ecost P.
  Proof.
    intros G. assert (SP := sg_sp _ _ _ _ _ G).
    induction 1 as [s cf|s cf j l s' cf' Lj PR R IH|s cf i j l s' cf' Li Lj AP PR R IH|s cf i m j raw l s' cf' EM Lj CH PR R IH]; intros v r RE RP AG.
    - exists [], v, r. split; [constructor|auto].
    - destruct (sg_empty _ _ _ _ _ G j Lj) as (o & I). assert (I' := I). apply (sg_op _ _ _ _ _ G) in I' as (_ & LK). destruct (like_step P V S pgb SP _ _ _ _ s v r cf LK (agree_nil P V) RE RP AG) as (A & RS & CO). destruct RS as (v1 & r1 & RP1 & AG1 & ER); [exact Logic.I|].
      destruct (IH v1 r1 RE RP1 AG1) as (pl & v' & r' & RR & RP' & AG' & EA & EC). exists ((TEmpty j, o) :: pl), v', r'. split; [constructor; [exact I|apply A; cbn; auto|rewrite ER; exact RR]|]. do 2 (split; [assumption|]).
      unfold bacts, strips_printed, ss_plan_cost, plan_cost, empties in *. cbn [map concat app fst snd]. split; [now rewrite EA|]. rewrite ?sum_cons. rewrite EC, CO. lia.
    - destruct (sg_act _ _ _ _ _ G i j Li Lj) as (o & I). assert (I' := I). apply (sg_op _ _ _ _ _ G) in I' as (_ & _ & LK). destruct (like_step P V S pgb SP _ _ _ _ s v r cf LK (agree_one P V i) RE RP AG) as (A & RS & CO). destruct RS as (v1 & r1 & RP1 & AG1 & ER); [cbn; auto|].
      destruct (IH v1 r1 (reached_step P s i RE AP) RP1 AG1) as (pl & v' & r' & RR & RP' & AG' & EA & EC). exists ((TPrim i j, o) :: pl), v', r'. split; [constructor; [exact I|apply A; cbn; auto|rewrite ER; exact RR]|]. do 2 (split; [assumption|]).
      unfold bacts, strips_printed, ss_plan_cost, plan_cost, empties in *. cbn [map concat app fst snd]. split; [now rewrite EA|]. rewrite ?sum_cons. rewrite EC, CO. lia.
    - destruct (sg_meth _ _ _ _ _ G i m j raw EM Lj CH) as (sb & o & I & LK). destruct (like_step P V S pgb SP _ _ _ _ s v r cf LK (agree_nil P V) RE RP AG) as (A & RS & CO). destruct RS as (v1 & r1 & RP1 & AG1 & ER); [exact Logic.I|].
      destruct (IH v1 r1 RE RP1 AG1) as (pl & v' & r' & RR & RP' & AG' & EA & EC). exists ((TMeth i j sb, o) :: pl), v', r'. split; [constructor; [exact I|apply A; cbn; auto|rewrite ER; exact RR]|]. do 2 (split; [assumption|]).
      unfold bacts, strips_printed, ss_plan_cost, plan_cost, empties in *. cbn [map concat app fst snd]. split; [now rewrite EA|]. rewrite ?sum_cons. rewrite EC, CO. lia.
  Qed.

  (** The initial task network *)
  Lemma sinit_edge pgb k j : ~ edge pgb (c0 P) k j.
  Proof. intros (_ & _ & _ & E). discriminate. Qed.
  Lemma sinit_ok pgb : Strips_sys.ok pgb (c0 P).
  Proof. split; [intros k j E; now apply sinit_edge in E|exists (fun x => x); intros k j E; now apply sinit_edge in E|intros k q _ _ _; cbn; lia]. Qed.
  Lemma sinit_iso pgb : 1 <= pgb -> exists f, iso f (initial_network P) (net pgb (c0 P)).
  Proof.
    intros PG. exists (fun x y => x = [] /\ y = [0]). split; cbn [initial_network net t_in t_lab t_ord].
    - intros x y [-> ->]. split; auto. exists 0. cbn. repeat split; lia.
    - intros x ->. eauto.
    - intros y ([|p] & -> & _ & N); [eauto|]. cbn in N. lia.
    - intros x y y' [_ ->] [_ ->]. reflexivity.
    - intros x x' y [-> _] [-> _]. reflexivity.
    - intros x y [-> ->]. cbn. lia.
    - intros x y x' y' _ _. split; [tauto|]. intros (p & q & _ & _ & _ & _ & H). apply path_first in H as (z & E & _). now apply sinit_edge in E.
  Qed.
  Lemma sinit_solution pgb plan : 1 <= pgb -> (solution P plan <-> exists k, solvesk P (initial_state P) (net pgb (c0 P)) k plan).
  Proof.
    intros PG. destruct TB as [WF _ _ _ _]. assert (AC := wf_acyclic P WF). unfold solution. rewrite (solves_solvesk P _ _ _ AC (init_wf P)). destruct (sinit_iso pgb PG) as (f & I). assert (W := net_wf pgb _ (k_rank _ _ (sinit_ok pgb))). split; intros (k & H); exists k.
    - refine (solvesk_iso P _ _ _ _ k plan AC (init_wf P) W _ H). split; [tauto|eauto].
    - refine (solvesk_iso P _ _ _ _ k plan AC W (init_wf P) _ H). split; [tauto|]. exists (fun x y => f y x). now apply iso_sym.
  Qed.

  Hypothesis (LF : last_after_first P).

  (** C125: soundness; the plans of the written task name the actions of solutions. Their cost is the cost of the solution plus, for each operator for an empty task, the cost of the first action. *)
  Theorem strips_sound pgb T pl : 1 <= pgb -> strips_translate P V pgb = Some T -> ss_plan T pl ->
    solution P (strips_printed (map fst pl)) /\ ss_plan_cost pl = plan_cost P (strips_printed (map fst pl)) + empties (map fst pl) * nth 0 (p_cost P) 0.
  Proof.
    intros PG ET (w & RUN & GO). destruct (defined_good pgb T PG ET) as (S & v0 & r0 & G). rewrite (sg_init _ _ _ _ _ G) in RUN.
    destruct (ss_to_brun S pgb T v0 r0 G pl _ w RUN (initial_state P) v0 r0 (c0 P) eq_refl (reached_init P) (sg_rep _ _ _ _ _ G) (sg_agr _ _ _ _ _ G)) as (l & s' & cf' & v' & r' & AR & -> & RP & AG & EA & EC).
    apply (goals_ss S pgb T v' r' cf' s' (sg_sp _ _ _ _ _ G) RP AG (sg_goal _ _ _ _ _ G)) in GO as [GS GZ]. rewrite <- EA. split; auto. apply (sinit_solution pgb _ PG). destruct TB as [WF _ _ _ AF].
    eapply brun_sound; eauto using sinit_ok. intros m I. apply (LP m I).
  Qed.

  (** C126: completeness; every solution is printed by a plan of the tasks for all bounds that are large enough and for which there is a task *)
  Theorem strips_complete plan : solution P plan -> exists b, forall pgb T, b <= pgb -> strips_translate P V pgb = Some T ->
    exists pl, ss_plan T pl /\ strips_printed (map fst pl) = plan.
  Proof.
    intros SOL. assert (K : exists k, forall pgb, 1 <= pgb -> solvesk P (initial_state P) (net pgb (c0 P)) k plan).
    { destruct TB as [WF _ _ _ _]. assert (AC := wf_acyclic P WF). unfold solution in SOL. rewrite (solves_solvesk P _ _ _ AC (init_wf P)) in SOL. destruct SOL as (k & H). exists k. intros pgb PG. destruct (sinit_iso pgb PG) as (f & I). refine (solvesk_iso P _ _ _ _ k plan AC (init_wf P) (net_wf pgb _ (k_rank _ _ (sinit_ok pgb))) _ H). split; [tauto|eauto]. }
    destruct K as (k & K). set (D := list_max (map (fun m => length (m_subs m)) (p_methods P))).
    assert (SZ : forall m, In m (p_methods P) -> length (m_subs m) <= D). { intros m I. assert (X := proj1 (list_max_le (map (fun m => length (m_subs m)) (p_methods P)) D) (le_n _)). rewrite Forall_forall in X. apply X. now apply (in_map (fun m => length (m_subs m))). }
    exists (1 + k * D). intros pgb T L ET. assert (PG : 1 <= pgb) by lia. destruct (defined_good pgb T PG ET) as (S & v0 & r0 & G). destruct TB as [WF _ _ _ AF].
    assert (Lt : p_init P < ntasks P) by (apply nth_error_Some; rewrite (wf_init P WF); discriminate).
    assert (OC : forall p, occ (c0 P) p = (p =? 0)) by (intros [|p]; unfold occ; cbn [c0]; [destruct (p_init P); reflexivity|reflexivity]).
    assert (IN : inv P pgb (c0 P)). { split; [apply sinit_ok| |]. - intros [|p] _; cbn [c0]; lia. - intros p _. rewrite OC. now destruct p. }
    assert (CT : count pgb (c0 P) <= 1). { unfold count. change 1 with (length [0]). apply NoDup_incl_length; [apply nodup_seq_filter|]. intros p I. apply filter_In in I as [_ I]. rewrite OC in I. apply Nat.eqb_eq in I. now left. }
    destruct (brun_complete P pgb WF (fun m I => proj1 (LP m I)) LF D SZ k (initial_state P) (c0 P) plan IN ltac:(lia) (K pgb PG)) as (l & s' & cf' & AR & EA & GS & GZ).
    destruct (brun_to_ss S pgb T v0 r0 G _ _ _ _ _ AR v0 r0 (reached_init P) (sg_rep _ _ _ _ _ G) (sg_agr _ _ _ _ _ G)) as (pl & v' & r' & RR & RP & AG & EP & EC).
    exists pl. rewrite EA in *. split; auto. exists (v' ++ r'). split; [rewrite (sg_init _ _ _ _ _ G); exact RR|]. apply (goals_ss S pgb T v' r' cf' s' (sg_sp _ _ _ _ _ G) RP AG (sg_goal _ _ _ _ _ G)). auto.
  Qed.
End Thm.

(** C127: the written task is well-formed: all values lie in the domains of their variables *)
Section Wf.
  Variables (P : problem) (V : list (nat * nat)).
  Hypotheses (TB : to_base P V) (S0 : s0_found P V).

  Theorem strips_wf pgb T : 1 <= pgb -> strips_translate P V pgb = Some T -> ss_wf T.
  Proof.
    intros PG ET. destruct TB as [WF [IV NV] OV PF AF]. assert (O0 : one_value V (initial_state P)) by (apply (OV []); exact Logic.I). destruct (sas_plus_ok P V WF IV NV O0 S0) as (S & ES & SP).
    unfold strips_translate in ET. rewrite ES in ET. cbn [obind] in ET. apply obind_some in ET as (ops & EO & ET). unfold write_strips in ET. apply obind_some in ET as (c & EC & ET). apply obind_some in ET as (i1 & E1 & ET). apply obind_some in ET as (i2 & E2 & ET).
    apply obind_some in ET as (g1 & G1 & ET). apply obind_some in ET as (g2 & G2 & ET). apply obind_some in ET as (fs & EF & ET). set (T0 := {| ss_dom := _ |}) in ET. injection ET as ET. assert (IT : intervals 0 (svars P S pgb) (Strips_model.st P S pgb pgb)) by (eapply sv_int; eauto).
    assert (FD : forall b i d, conv c b = Some (i, d) -> ss_in_dom T0 (i, d)).
    { intros b i d C. apply (proj1 (conv_ok _ _ _ IT EC b i d)) in C as (f & l & En & <- & L). unfold ss_in_dom. cbn [fst snd]. unfold T0. cbn [ss_dom]. rewrite nth_error_map, En. cbn [option_map fst snd]. eexists. split; [reflexivity|]. lia. }
    assert (OD : forall l l', omap (conv c) l = Some l' -> forall p, In p l' -> ss_in_dom T0 p) by (intros l l' O [i d] J; destruct (omap_in _ _ _ _ O J) as (b & _ & C); eauto).
    destruct (s0_rep P V S IV SP OV (conv c) (SCVW P V S pgb c SP EC)) as (i1' & E1' & R0). rewrite E1 in E1'. injection E1' as <-. destruct (init_agrees P V S pgb c WF SP PG EC) as (r0 & i2' & E2' & Er & A0). rewrite E2 in E2'. injection E2' as <-.
    assert (Lv : length (map snd i1) = length (sp_var S)) by (destruct R0 as [-> _]; symmetry; apply SP).
    assert (OPS : forall n o, In (n, o) fs -> exists q, write_strop c q = Some o) by (intros n o I; destruct (omap_in _ _ _ _ EF I) as (q & _ & Eq); apply obind_some in Eq as (f & Ew & Eq); injection Eq as _ <-; eauto).
    rewrite <- ET. clear ET. split.
    - unfold T0. cbn [ss_init ss_dom]. rewrite map_app, Er. split.
      + rewrite app_length, Lv, (proj1 A0), map_length. unfold svars, nslots. rewrite !app_length, !map_length, !seq_length. lia.
      + fold T0. intros i d E. destruct (Nat.lt_ge_cases i (length (sp_var S))) as [Li|Li].
        * rewrite nth_error_app1 in E by (rewrite Lv; auto). assert (VV := rep_valid P V S SP _ _ R0). destruct (proj2 VV i d E) as (b & F). apply (FD b). now apply (SCVW P V S pgb c SP EC).
        * rewrite nth_error_app2 in E by (rewrite Lv; auto). rewrite Lv in E. assert (Lx : i - length (sp_var S) < nslots pgb) by (rewrite <- (proj1 A0); apply nth_error_Some; congruence). destruct (ix_surj pgb _ Lx) as (s & Vs & Es). rewrite <- Es, (proj2 A0 s Vs) in E. injection E as <-.
          assert (Lt : p_init P < ntasks P) by (apply nth_error_Some; rewrite (wf_init P WF); discriminate). assert (C := cv_slot P V S pgb c SP EC (s, c0 P s) Vs). cbn [fst snd] in C. unfold tgt in C. cbn [fst snd] in C. replace (length (sp_var S) + ix pgb s) with i in C by lia. apply (FD _ _ _ (C ltac:(destruct s as [[|p]|k j|[|p]|p]; cbn [c0 top]; lia))).
    - intros p I. unfold T0 in I. cbn [ss_goal] in I. apply in_app_or in I as [I|I]; [apply (OD _ _ G1)|apply (OD _ _ G2)]; auto.
    - intros n o p I J. destruct (OPS n o I) as (q & Ew). unfold write_strop in Ew. apply obind_some in Ew as (ps & Ep & Ew). apply obind_some in Ew as (es & Ee & Ew). injection Ew as <-. cbn [write_op f_prev] in J. apply filter_In in J as [J _]. apply (OD _ _ Ep); auto.
    - intros n o v x d I J. destruct (OPS n o I) as (q & Ew). unfold write_strop in Ew. apply obind_some in Ew as (ps & Ep & Ew). apply obind_some in Ew as (es & Ee & Ew). injection Ew as <-. cbn [write_op f_eff] in J.
      apply in_map_iff in J as ([v' d'] & Ev & J). cbn [fst snd] in Ev. injection Ev as <- Ex <-. split; [apply (OD _ _ Ee); auto|]. intros e ->. apply (OD _ _ Ep). now apply last_val_in.
  Qed.
End Wf.

(** ** Examples *)

(** Running operators given by their names *)
Definition sname_eqb (a b : sname) : bool :=
  match a, b with
  | TPrim i j, TPrim i' j' => ((i =? i') && (j =? j'))%bool
  | TMeth i j l, TMeth i' j' l' => ((i =? i') && (j =? j') && (if list_eq_dec Nat.eq_dec l l' then true else false))%bool
  | TEmpty j, TEmpty j' => j =? j'
  | _, _ => false
  end.
Fixpoint srun_ix (T : ss_task) (w : list nat) (l : list sname) : option (list (sname * fd_op) * list nat) :=
  match l with
  | [] => Some ([], w)
  | i :: r => match find (fun o => sname_eqb (fst o) i) (ss_ops T) with
              | Some (n, o) => if appb w o then '(pl, w') <- srun_ix T (fd_result w o) r ;; Some ((n, o) :: pl, w') else None
              | None => None
              end
  end.
Lemma srun_ix_ok T l : forall w pl w', srun_ix T w l = Some (pl, w') -> ss_run T w pl w'.
Proof.
  induction l as [|i l IH]; intros w pl w'; cbn [srun_ix]; [intros [= <- <-]; constructor|]. destruct (find (fun o => sname_eqb (fst o) i) (ss_ops T)) as [[n o]|] eqn:E; [|discriminate]. destruct (appb w o) eqn:A; [|discriminate].
  intros H. apply obind_some in H as ([pl' w1] & H & E'). injection E' as <- <-. apply andb_true_iff in A as [A1 A2]. rewrite forallb_forall in A1, A2. constructor; [now apply find_some in E as [E _]| |auto]. split.
  - intros p I. apply holdsb_ok. auto.
  - intros v x d I. apply holdsb_ok. now apply A2 in I.
Qed.
Lemma srun_ix_plan T l pl w : srun_ix T (ss_init T) l = Some (pl, w) -> forallb (Sas_thm.holdsb w) (ss_goal T) = true -> ss_plan T pl.
Proof. intros R G. exists w. split; [eapply srun_ix_ok; eauto|]. rewrite forallb_forall in G. intros p I. apply holdsb_ok. auto. Qed.

Module SEx.
  (** The method of the first task has no last task: 3 -> 4, 0 < 1; 4 -> 2. *)
  Definition p : problem := PEx.p.
  Lemma lf : last_after_first p.
  Proof.
    assert (X : m_lt (nth 0 (p_methods p) {| m_task := 0; m_subs := []; m_ord := [] |}) 0 1 -> False).
    { intros H. apply clos_trans_t1n in H. inversion H as [y H1|y z H1 _]; subst; destruct H1 as [[=]|[]]. }
    intros m [<-|[<-|[]]] H a L; cbn in L; [|lia]. exfalso. apply X, H. cbn. lia.
  Qed.
  Lemma few : few_choices p 4.
  Proof. intros m [<-|[<-|[]]] k [->| ->]; vm_compute; reflexivity. Qed.

  Example plan_ex : exists T pl, strips_translate p (singles 3) 4 = Some T /\ ss_plan T pl /\ strips_printed (map fst pl) = [0; 2; 1] /\
    map fst pl = [TMeth 0 0 [1; 2; 3]; TMeth 1 3 [3]; TPrim 0 2; TPrim 2 3; TPrim 1 1; TEmpty 0] /\ ss_plan_cost pl = 11.
  Proof.
    destruct (strips_translate p (singles 3) 4) as [T|] eqn:E; [|vm_compute in E; discriminate]. destruct (srun_ix T (ss_init T) [TMeth 0 0 [1; 2; 3]; TMeth 1 3 [3]; TPrim 0 2; TPrim 2 3; TPrim 1 1; TEmpty 0]) as [[pl w]|] eqn:R; [|run_tac E R].
    exists T, pl. split; auto. split; [apply (srun_ix_plan _ _ _ _ R)|]; run_tac E R; injection R as <- <-; [reflexivity|repeat split; reflexivity].
  Qed.
  Example defined_ex : exists T, strips_translate p (singles 3) 4 = Some T.
  Proof. apply (strips_defined p (singles 3) PEx.base PEx.s0 PEx.se PEx.lp 4 ltac:(lia)); [left; discriminate|exact few]. Qed.
  Example solution_ex : solution p [0; 2; 1].
  Proof. destruct plan_ex as (T & pl & E & F & PR & _). destruct (strips_sound p (singles 3) PEx.base PEx.s0 PEx.se PEx.lp lf 4 T pl ltac:(lia) E F) as [X _]. now rewrite PR in X. Qed.
  Example complete_ex : exists b, forall pgb T, b <= pgb -> strips_translate p (singles 3) pgb = Some T -> exists pl, ss_plan T pl /\ strips_printed (map fst pl) = [0; 2; 1].
  Proof. exact (strips_complete p (singles 3) PEx.base PEx.s0 PEx.se PEx.lp lf _ solution_ex). Qed.
  Example wf_ex : exists T, strips_translate p (singles 3) 4 = Some T /\ ss_wf T.
  Proof. destruct defined_ex as (T & E). exists T. split; auto. exact (strips_wf p (singles 3) PEx.base PEx.s0 4 T ltac:(lia) E). Qed.
End SEx.

(** ** What does not hold *)

(** C128: soundness for all methods whose listing is in line with the orderings *)
Definition any_last_sound : Prop := forall P V pgb T pl, to_base P V -> s0_found P V -> single_effects P V -> listed_po P -> 1 <= pgb ->
  strips_translate P V pgb = Some T -> ss_plan T pl -> solution P (strips_printed (map fst pl)).
(** C129: plans cost as much as the solutions that they print *)
Definition strips_same_cost : Prop := forall P V pgb T pl, to_base P V -> s0_found P V -> single_effects P V -> listed_po P -> last_after_first P -> 1 <= pgb ->
  strips_translate P V pgb = Some T -> ss_plan T pl -> ss_plan_cost pl = plan_cost P (strips_printed (map fst pl)).

Theorem strips_same_cost_refuted : ~ strips_same_cost.
Proof.
  intros H. destruct SEx.plan_ex as (T & pl & E & F & PR & _ & C). assert (X := H SEx.p (singles 3) 4 T pl PEx.base PEx.s0 PEx.se PEx.lp SEx.lf ltac:(lia) E F). rewrite PR, C in X. discriminate.
Qed.

Module SBad.
  (** 6 has to be finished before 4 starts; its first subtask precedes all others, but the second need not precede the last one. *)
  Definition m5 : method := {| m_task := 5; m_subs := [6; 4]; m_ord := [(0, 1)] |}.
  Definition m6 : method := {| m_task := 6; m_subs := [0; 1; 2; 3]; m_ord := [(0, 1); (0, 2); (2, 3)] |}.
  Definition p : problem := mk 1 [true; true; true; true; true; false; false] [([], [], []); ([0], [], []); ([], [], []); ([], [], []); ([], [0], [])] [m5; m6] [] [].
  Lemma base : to_base p (singles 1).
  Proof. apply singles_base; [apply problem_check_ok; reflexivity|reflexivity|apply acts_first_check; [reflexivity|cbn; lia]]. Qed.
  Lemma se : single_effects p (singles 1). Proof. apply no_dels_single. intros l I. cbn in I. repeat destruct I as [<-|I]; auto; destruct I. Qed.

  (** In all networks the tasks with label 4 come last. *)
  Definition last4 (tn : tnet) : Prop := forall x y, t_in tn x -> t_in tn y -> t_lab tn x = 4 -> t_lab tn y <> 4 -> t_ord tn y x.
  Definition start (tn : tnet) : Prop := forall x, t_in tn x -> x = [] /\ t_lab tn x = 5.
  Lemma step tn x m tn' : decomposes p tn x m tn' -> wf_tn tn -> start tn \/ (last4 tn /\ forall y, t_in tn y -> t_lab tn y <> 5) -> last4 tn' /\ forall y, t_in tn' y -> t_lab tn' y <> 5.
  Proof.
    intros D W H. assert (IM := d_method _ _ _ _ _ D). assert (LX := d_lab _ _ _ _ _ D). assert (IX := d_in _ _ _ _ _ D).
    assert (NW : forall j, j < length (m_subs m) -> t_lab tn' (x ++ [j]) = nth j (m_subs m) 0) by (intros j L; apply (d_lab_new _ _ _ _ _ D); now apply nth_error_nth').
    destruct IM as [<-|[<-|[]]].
    - destruct H as [H|[_ H]]; [|exfalso; now apply (H x)]. assert (OLD : forall y, t_in tn y -> y <> x -> False) by (intros y Iy N; destruct (H y Iy), (H x IX); congruence).
      assert (CS : forall y, t_in tn' y -> y = x ++ [0] \/ y = x ++ [1]). { intros y Iy. apply (d_in' _ _ _ _ _ D) in Iy as [[Iy N]|(j & Lj & ->)]; [now destruct (OLD y Iy N)|]. cbn in Lj. destruct j as [|[|j]]; auto; lia. }
      assert (L0 := NW 0 ltac:(cbn; lia)). assert (L1 := NW 1 ltac:(cbn; lia)). cbn in L0, L1. split; [|intros y Iy; apply CS in Iy as [->| ->]; congruence].
      intros a b Ia Ib La Lb. apply CS in Ia as [->| ->]; [congruence|]. apply CS in Ib as [->| ->]; [|congruence]. apply (d_ord _ _ _ _ _ D). right. left. exists 0, 1. cbn. repeat split; auto. apply t_step. now left.
    - destruct H as [H|[H1 H2]]; [destruct (H x IX) as [_ Q]; rewrite LX in Q; discriminate|].
      assert (LN : forall j, j < 4 -> t_lab tn' (x ++ [j]) <> 4 /\ t_lab tn' (x ++ [j]) <> 5) by (intros j L; rewrite NW by (cbn; lia); do 4 (destruct j as [|j]; [cbn; split; discriminate|]); lia). cbn [m_task SBad.m6] in LX. split.
      + intros a b Ia Ib La Lb. apply (d_in' _ _ _ _ _ D) in Ia as [[Ia Na]|(j & Lj & ->)]; [|exfalso; exact (proj1 (LN j Lj) La)]. rewrite (d_lab_old _ _ _ _ _ D) in La by auto. apply (d_ord _ _ _ _ _ D). apply (d_in' _ _ _ _ _ D) in Ib as [[Ib Nb]|(j & Lj & ->)].
        * rewrite (d_lab_old _ _ _ _ _ D) in Lb by auto. left. repeat split; auto.
        * right. right. left. exists j. repeat split; auto. apply H1; auto. rewrite LX. discriminate.
      + intros y Iy. apply (d_in' _ _ _ _ _ D) in Iy as [[Iy Ny]|(j & Lj & ->)]; [rewrite (d_lab_old _ _ _ _ _ D) by auto; auto|]. now apply LN.
  Qed.
  Lemma no_solution l1 l2 : In 1 l2 -> ~ solution p (l1 ++ 4 :: l2).
  Proof.
    intros I1 (tn & L & R & PR & (ND & HL & HO) & EP & _).
    assert (X : forall a b, refines p a b -> wf_tn a -> start a \/ (last4 a /\ forall y, t_in a y -> t_lab a y <> 5) -> start b \/ (last4 b /\ forall y, t_in b y -> t_lab b y <> 5)).
    { induction 1 as [|a x m c b D R' IH]; intros W H; auto. apply IH; [refine (decomposes_wf p _ _ _ _ W _ D); apply (wf_acyclic p (tb_wf _ _ base) m (d_method _ _ _ _ _ D))|]. right. eapply step; eauto. }
    destruct (X _ _ R (init_wf p)) as [H|[H _]]; [left; intros x ->; split; reflexivity| |].
    - symmetry in EP. apply map_eq_app in EP as (L1 & L2 & -> & _ & EP). destruct L2 as [|x L2]; [discriminate|]. cbn in EP. injection EP as E4 _. assert (Ix : t_in tn x) by (apply HL; apply in_or_app; right; now left). apply H in Ix as [_ E]. congruence.
    - symmetry in EP. apply map_eq_app in EP as (L1 & L2 & -> & _ & EP). destruct L2 as [|x L2]; [discriminate|]. cbn in EP. injection EP as E4 E2. rewrite <- E2 in I1. apply in_map_iff in I1 as (y & Ey & Iy). assert (Ix : t_in tn x) by (apply HL; apply in_or_app; right; now left). assert (Jy : t_in tn y) by (apply HL; apply in_or_app; right; now right).
      assert (O := H x y Ix Jy E4 ltac:(congruence)). apply In_nth_error in Iy as (j & Ej). assert (Z := HO (length L1 + S j) (length L1) y x). rewrite nth_error_app2, Nat.add_comm, Nat.add_sub in Z by lia. rewrite nth_error_app2, Nat.sub_diag in Z by lia. specialize (Z Ej eq_refl O). lia.
  Qed.
  Lemma bad : exists T pl, strips_translate p (singles 1) 5 = Some T /\ ss_plan T pl /\ strips_printed (map fst pl) = [0; 2; 3; 4; 1].
  Proof.
    destruct (strips_translate p (singles 1) 5) as [T|] eqn:E; [|vm_compute in E; discriminate].
    destruct (srun_ix T (ss_init T) [TMeth 0 0 [0; 1]; TMeth 1 1 [1; 2; 3; 4]; TPrim 0 4; TPrim 2 2; TPrim 3 1; TPrim 4 0; TPrim 1 3]) as [[pl w]|] eqn:R; [|run_tac E R].
    exists T, pl. split; auto. split; [apply (srun_ix_plan _ _ _ _ R)|]; run_tac E R; injection R as <- <-; reflexivity.
  Qed.
End SBad.

Theorem any_last_sound_refuted : ~ any_last_sound.
Proof.
  intros H. destruct SBad.bad as (T & pl & E & F & PR). assert (X := H SBad.p (singles 1) 5 T pl SBad.base ltac:(apply no_s0; reflexivity) SBad.se ltac:(apply po_check; reflexivity) ltac:(lia) E F). rewrite PR in X. revert X. apply (SBad.no_solution [0; 2; 3] [1]). now left.
Qed.

Print Assumptions choices_enumerated.
Print Assumptions strips_defined.
Print Assumptions strips_sound.
Print Assumptions strips_complete.
Print Assumptions strips_wf.
Print Assumptions any_last_sound_refuted.
Print Assumptions strips_same_cost_refuted.
