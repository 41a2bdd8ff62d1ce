(** Properties of the translation with parallel sequences (C130-C136). *)
From Coq Require Import Relations.
From Verif Require Import Base Htn_problem Htn_spec Htn_sem Htn_iso Htn_proof Htn_check To_spec To_sem Sas_model Sas_spec Sas_proof Sas_sim Sas_act Sas_rep Sas_stack Sas_ops Sas_thm
  Push_model Push_spec Push_net Push_sys Push_run Push_ops Push_thm Strips_model Strips_spec Strips_sys Strips_sim Strips_ops Strips_thm Pseq_model Pseq_spec Pseq_net Pseq_run Pseq_sys Pseq_sim Pseq_ops.

Section Thm.
  Variables (P : problem) (V : list (nat * nat)).
  Hypotheses (TB : to_base P V) (S0 : s0_found P V) (SE : single_effects P V) (LP : listed_po P) (SAME : same_width P).

  Record pgood (S : sproblem) (n pgb : nat) (T : ss_task) (v0 r0 : list nat) : Prop := {
    pg_sp : sp_ok P V S;
    pg_width : forall m, In m (p_methods P) -> m_task m = p_init P -> length (m_subs m) = n;
    pg_rep : rep V (initial_state P) v0;
    pg_agr : Pseq_sim.agrees n pgb r0 (cf pgb None);
    pg_init : ss_init T = v0 ++ r0;
    pg_goal : forall i d, In (i, d) (ss_goal T) <-> (exists e, In e (sp_goal S) /\ fact_of (sp_var S) i d e) \/ (exists p, p <= n /\ i = length (sp_var S) + p /\ d = 0);
    pg_op : forall nm o, In (nm, o) (ss_ops T) -> Pseq_ops.opl P V S n pgb nm o;
    pg_act : forall i j k, i < length (p_cost P) -> j < pgb -> k < n -> exists o, In (TPrim i (k * pgb + j), o) (ss_ops T) /\ Pseq_sim.like P V S n pgb [i] (pact_q n pgb i j k) (cost_of P i) o;
    pg_top : forall i m, nth_error (p_methods P) i = Some m -> m_task m = p_init P -> exists sb o, In (TMeth i 0 sb, o) (ss_ops T) /\ Pseq_sim.like P V S n pgb [] (ptop_q n pgb m) 0 o;
    pg_meth : forall i m j k, nth_error (p_methods P) i = Some m -> m_task m <> p_init P -> j < pgb -> k < n -> length (m_subs m) + j <= pgb ->
      exists sb o, In (TMeth i (k * pgb + j) sb, o) (ss_ops T) /\ Pseq_sim.like P V S n pgb [] (pmeth_q n pgb m j k) 0 o }.

  Lemma width_of m : find (fun m => m_task m =? p_init P) (p_methods P) = Some m -> 1 <= length (m_subs m) /\ forall m', In m' (p_methods P) -> m_task m' = p_init P -> length (m_subs m') = length (m_subs m).
  Proof.
    intros E. apply find_some in E as [I E]. apply Nat.eqb_eq in E. split; [apply (subs_pos P (tb_wf _ _ TB) m I)|]. intros m' I' E'. now apply SAME.
  Qed.
  Lemma pseq_good pgb m : 1 <= pgb -> find (fun m => m_task m =? p_init P) (p_methods P) = Some m -> exists S T v0 r0, pseq_translate P V pgb = Some T /\ pgood S (length (m_subs m)) pgb T v0 r0.
  Proof.
    intros PG EM. destruct (width_of m EM) as [N1 SW]. set (n := length (m_subs m)) in *. destruct TB as [WF [IV NV] OV PF AF]. assert (O0 : one_value V (initial_state P)) by (apply (OV []); exact Logic.I). destruct (sas_plus_ok P V WF IV NV O0 S0) as (S & ES & SP).
    destruct (conv_array_some (pvars P S n pgb) (ptk P S n pgb (n * pgb))) as (c & EC); [eapply pv_int; eauto|].
    destruct (ptask_ok P V S n pgb c WF IV SP OV PF SE AF PG N1 EC LP SW) as (ops & T & v0 & r0 & EO & EW & R0 & A0 & EI & EG & A & B & C & D).
    exists S, T, v0, r0. split; [unfold pseq_translate; rewrite EM; cbn [obind]; fold n; rewrite ES; cbn [obind]; rewrite EO; exact EW|]. split; auto.
  Qed.
  Lemma pseq_good' pgb T : 1 <= pgb -> pseq_translate P V pgb = Some T -> exists S n v0 r0, pgood S n pgb T v0 r0.
  Proof.
    intros PG ET. assert (ET' := ET). unfold pseq_translate in ET'. apply obind_some in ET' as (m & EM & _). destruct (pseq_good pgb m PG EM) as (S & T' & v0 & r0 & E & G). rewrite ET in E. injection E as <-. eauto.
  Qed.

  (** C130: the translation is defined *)
  Theorem pseq_defined pgb : 1 <= pgb -> init_decomposable P -> exists T, pseq_translate P V pgb = Some T.
  Proof.
    intros PG (m & IM & ET). destruct (find (fun m => m_task m =? p_init P) (p_methods P)) as [m'|] eqn:E.
    - destruct (pseq_good pgb m' PG E) as (S & T & v0 & r0 & X & _). eauto.
    - assert (X := find_none _ _ E m IM). cbn beta in X. rewrite ET, Nat.eqb_refl in X. discriminate.
  Qed.

  Lemma goals_ps S n pgb T v r A (s : state) : sp_ok P V S -> rep V s v -> Pseq_sim.agrees n pgb r (cf pgb A) ->
    (forall i d, In (i, d) (ss_goal T) <-> (exists e, In e (sp_goal S) /\ fact_of (sp_var S) i d e) \/ (exists p, p <= n /\ i = length (sp_var S) + p /\ d = 0)) ->
    ((forall p, In p (ss_goal T) -> holds (v ++ r) p) <-> goal_state P s /\ adone n A).
  Proof.
    intros SP RP AG EG. assert (Lv : length v = length (sp_var S)) by (destruct RP as [-> _]; symmetry; apply SP). assert (F := so_goal _ _ _ SP).
    assert (HK : (forall p, p <= n -> holds (v ++ r) (length (sp_var S) + p, 0)) <-> adone n A).
    { assert (X : forall p, p < n -> (holds (v ++ r) (length (sp_var S) + (1 + p), 0) <-> cf pgb A (SK p) = 0)) by (intros p Lp; apply (Pseq_sim.agrees_holds S n pgb v r _ (SK p, 0)); auto).
      assert (Y : holds (v ++ r) (length (sp_var S) + 0, 0) <-> cf pgb A (SM 0) = 0) by (apply (Pseq_sim.agrees_holds S n pgb v r _ (SM 0, 0)); cbn; auto). split.
      - intros H. assert (Z := proj1 Y (H 0 (Nat.le_0_l _))). destruct A as [[o r']|]; [|discriminate]. intros k Lk. assert (Q := proj1 (X k Lk) (H (1 + k) Lk)). cbn in Q. now apply length_zero_iff_nil.
      - destruct A as [[o r']|]; [|intros []]. intros H [|p] Lp; [now apply Y|]. apply (X p Lp). cbn. now rewrite (H p Lp). }
    assert (HG : (forall i d e, In e (sp_goal S) -> fact_of (sp_var S) i d e -> holds (v ++ r) (i, d)) <-> goal_state P s).
    { unfold goal_state. assert (X : forall i d b e, fact_of V i d b -> fact_of (sp_var S) i d e -> (s b <-> holds (v ++ r) (i, d))).
      { intros i d b e F1 F2. rewrite holds_front by (rewrite Lv; eapply fact_of_lt; eauto). now apply (rep_fact V). }
      clear EG HK. induction F as [|b e l l' (i & d & F1 & F2) F IH]; cbn [In]; [split; [intros _ f []|intros _ i d e []]|]. split.
      - intros H f [<-|I]; [apply (X i d b e F1 F2); eauto|]. apply (proj1 IH); auto. intros i' d' e' I'. apply H. now right.
      - intros H i' d' e' [<-|I] F'; [|apply (proj2 IH) with (e := e'); auto]. destruct (W_inj P V S SP _ _ _ _ _ F2 F'). subst. apply (X i' d' b e); auto. }
    rewrite <- HG, <- HK. split.
    - intros H. split; [intros i d e I F'; apply H, EG; left; eauto|]. intros p Lp. apply H, EG. right. eauto.
    - intros [H1 H2] [i d] I. apply EG in I as [(e & I & F')|(p & Lp & -> & ->)]; eauto.
  Qed.

  Lemma top_pre n pgb m A : qpre (ptop_q n pgb m) (cf pgb A) <-> A = None.
  Proof. exact (top_iff n pgb A). Qed.

  (** Runs of the written task and runs on sequences *)
  Lemma ss_to_prun S n pgb T v0 r0 : 1 <= pgb -> pgood S n pgb T v0 r0 -> forall pl w w', ss_run T w pl w' -> forall s v r A, w = v ++ r -> Sas_rep.reached P s -> rep V s v -> Pseq_sim.agrees n pgb r (cf pgb A) -> aok n A ->
    exists l s' A' v' r', prun P n pgb s A l s' A' /\ w' = v' ++ r' /\ rep V s' v' /\ Pseq_sim.agrees n pgb r' (cf pgb A') /\ pacts l = strips_printed (map fst pl) /\ ss_plan_cost pl = plan_cost P (pacts l).
  Proof.
    intros PG G. assert (SP := pg_sp _ _ _ _ _ _ G). assert (WF := tb_wf _ _ TB). assert (MO := mord_ok P n WF (fun m I => proj1 (LP m I)) (pg_width _ _ _ _ _ _ G)).
    induction 1 as [w|w nm o pl w' I A R IH]; intros s v r Z -> RE RP AG OK; [exists [], s, Z, v, r; split; [constructor|auto 10]|]. apply (pg_op _ _ _ _ _ _ G) in I. destruct nm as [i q|i q sb|q]; cbn [Pseq_ops.opl] in I; [| |destruct I].
    - destruct I as (j & k & -> & Li & Lj & Lk & LK). destruct (Pseq_sim.like_step P V S n pgb SP _ _ _ _ s v r _ LK (agree_one P V i) RE RP AG) as (AP & RS & CO). destruct (proj1 AP A) as [[AA AA2] PR]. destruct RS as (v1 & r1 & RP1 & AG1 & ER); [cbn; auto|].
      destruct (proj1 (ready_iff n pgb Z i j k OK Lk Lj) PR) as (o' & r' & t & -> & Er & <- & FR). assert (AG2 := agrees_ext n pgb _ _ _ AG1 (fun x Vx => act_eff n pgb o' r' i k t x OK Lk Lj Er Vx)).
      destruct (IH (result P s i) v1 r1 _ ER (reached_step P s i RE AA) RP1 AG2 OK) as (l & s' & A' & v' & r2 & AR & EW & RP' & AG' & EA & EC). exists (PAct i (length t) k :: l), s', A', v', r2. split; [now apply pr_act|]. do 3 (split; [assumption|]).
      unfold pacts, strips_printed, ss_plan_cost, plan_cost in *. cbn [map concat app fst snd]. split; [now rewrite EA|]. rewrite ?sum_cons. rewrite EC, CO. reflexivity.
    - destruct I as (m & En & [(ET & LK)|(NT & j & k & -> & Lj & Lk & LE & LK)]); assert (IM : In m (p_methods P)) by (eapply nth_error_In; eauto); destruct (Pseq_sim.like_step P V S n pgb SP _ _ _ _ s v r _ LK (agree_nil P V) RE RP AG) as (AP & RS & CO); destruct (proj1 AP A) as [AA PR]; (destruct RS as (v1 & r1 & RP1 & AG1 & ER); [exact Logic.I|]).
      + apply top_pre in PR. subst Z. assert (AG2 := agrees_ext n pgb _ _ _ AG1 (fun x Vx => top_eff n pgb m x PG (pg_width _ _ _ _ _ _ G m IM ET) (MO m IM ET) Vx)).
        destruct (IH s v1 r1 _ ER RE RP1 AG2 (MO m IM ET)) as (l & s' & A' & v' & r2 & AR & EW & RP' & AG' & EA & EC). exists (PTop i :: l), s', A', v', r2. split; [now apply pr_top with m|]. do 3 (split; [assumption|]).
        unfold pacts, strips_printed, ss_plan_cost, plan_cost in *. cbn [map concat app fst snd]. split; [now rewrite EA|]. rewrite ?sum_cons. rewrite EC, CO. reflexivity.
      + destruct (proj1 (ready_iff n pgb Z (m_task m) j k OK Lk Lj) PR) as (o' & r' & t & -> & Er & <- & FR). assert (AG2 := agrees_ext n pgb _ _ _ AG1 (fun x Vx => meth_eff n pgb o' r' m k t x OK Lk (subs_pos P WF m IM) LE Er Vx)).
        destruct (IH s v1 r1 _ ER RE RP1 AG2 OK) as (l & s' & A' & v' & r2 & AR & EW & RP' & AG' & EA & EC). exists (PMeth i (length t) k :: l), s', A', v', r2. split; [now apply pr_meth with m|]. do 3 (split; [assumption|]).
        unfold pacts, strips_printed, ss_plan_cost, plan_cost in *. cbn [map concat app fst snd]. split; [now rewrite EA|]. rewrite ?sum_cons. rewrite EC, CO. reflexivity.
  Qed.

  Definition rows_fit (pgb : nat) (A : astate) : Prop := match A with None => True | Some (_, r) => forall k, length (r k) <= pgb end.
  Lemma prun_to_ss S n pgb T v0 r0 : 1 <= pgb -> pgood S n pgb T v0 r0 -> forall s A l s' A', prun P n pgb s A l s' A' -> forall v r, Sas_rep.reached P s -> rep V s v -> Pseq_sim.agrees n pgb r (cf pgb A) -> aok n A -> rows_fit pgb A ->
    exists pl v' r', ss_run T (v ++ r) pl (v' ++ r') /\ rep V s' v' /\ Pseq_sim.agrees n pgb r' (cf pgb A') /\ strips_printed (map fst pl) = pacts l.
  Proof.
    intros PG G. assert (SP := pg_sp _ _ _ _ _ _ G). assert (WF := tb_wf _ _ TB). assert (MO := mord_ok P n WF (fun m I => proj1 (LP m I)) (pg_width _ _ _ _ _ _ G)).
    assert (PF : forall r k t, (forall q, length (r q) <= pgb) -> length t <= pgb -> forall q, length (put r k t q) <= pgb) by (intros r k t H L q; destruct (Nat.eq_dec q k) as [->|N]; [now rewrite put_eq|now rewrite put_ne]).
    induction 1 as [s A|s i m l s' A' EM ET R IH|s o r1 i k t l s' A' Li Lk ER FR AP R IH|s o r1 i m k t l s' A' EM ET Lk ER FR LE R IH]; intros v r RE RP AG OK FIT.
    - exists [], v, r. split; [constructor|auto].
    - assert (IM : In m (p_methods P)) by (eapply nth_error_In; eauto). destruct (pg_top _ _ _ _ _ _ G i m EM ET) as (sb & f & I & LK). destruct (Pseq_sim.like_step P V S n pgb SP _ _ _ _ s v r _ LK (agree_nil P V) RE RP AG) as (B & RS & CO). destruct RS as (v1 & r2 & RP1 & AG1 & EF); [exact Logic.I|].
      assert (AG2 := agrees_ext n pgb _ _ _ AG1 (fun x Vx => top_eff n pgb m x PG (pg_width _ _ _ _ _ _ G m IM ET) (MO m IM ET) Vx)). destruct (IH v1 r2 RE RP1 AG2 (MO m IM ET)) as (pl & v' & r' & RR & RP' & AG' & EA).
      + intros k. unfold start. destruct (k <? length (m_subs m)); cbn [length]; lia.
      + exists ((TMeth i 0 sb, f) :: pl), v', r'. split; [constructor; [exact I|apply B; split; [exact Logic.I|now apply top_pre]|rewrite EF; exact RR]|]. do 2 (split; [assumption|]). unfold pacts, strips_printed in *. cbn [map concat app fst snd]. now rewrite EA.
    - assert (Lj : length t < pgb) by (specialize (FIT k); rewrite ER in FIT; exact FIT). destruct (pg_act _ _ _ _ _ _ G i (length t) k Li Lj Lk) as (f & I & LK). destruct (Pseq_sim.like_step P V S n pgb SP _ _ _ _ s v r _ LK (agree_one P V i) RE RP AG) as (B & RS & CO). destruct RS as (v1 & r2 & RP1 & AG1 & EF); [cbn; auto|].
      assert (AG2 := agrees_ext n pgb _ _ _ AG1 (fun x Vx => act_eff n pgb o r1 i k t x OK Lk Lj ER Vx)). destruct (IH v1 r2 (reached_step P s i RE AP) RP1 AG2 OK) as (pl & v' & r' & RR & RP' & AG' & EA).
      + cbn. apply PF; auto. lia.
      + exists ((TPrim i (k * pgb + length t), f) :: pl), v', r'. split; [constructor; [exact I|apply B; split; [cbn; auto|refine (proj2 (ready_iff n pgb (Some (o, r1)) i (length t) k OK Lk Lj) _); eauto 10]|rewrite EF; exact RR]|]. do 2 (split; [assumption|]). unfold pacts, strips_printed in *. cbn [map concat app fst snd]. now rewrite EA.
    - assert (IM : In m (p_methods P)) by (eapply nth_error_In; eauto). assert (N1 := subs_pos P WF m IM). assert (Lj : length t < pgb) by lia. destruct (pg_meth _ _ _ _ _ _ G i m (length t) k EM ET Lj Lk LE) as (sb & f & I & LK). destruct (Pseq_sim.like_step P V S n pgb SP _ _ _ _ s v r _ LK (agree_nil P V) RE RP AG) as (B & RS & CO). destruct RS as (v1 & r2 & RP1 & AG1 & EF); [exact Logic.I|].
      assert (AG2 := agrees_ext n pgb _ _ _ AG1 (fun x Vx => meth_eff n pgb o r1 m k t x OK Lk N1 LE ER Vx)). destruct (IH v1 r2 RE RP1 AG2 OK) as (pl & v' & r' & RR & RP' & AG' & EA).
      + cbn. apply PF; auto. rewrite app_length. lia.
      + exists ((TMeth i (k * pgb + length t) sb, f) :: pl), v', r'. split; [constructor; [exact I|apply B; split; [exact Logic.I|refine (proj2 (ready_iff n pgb (Some (o, r1)) (m_task m) (length t) k OK Lk Lj) _); eauto 10]|rewrite EF; exact RR]|]. do 2 (split; [assumption|]). unfold pacts, strips_printed in *. cbn [map concat app fst snd]. now rewrite EA.
  Qed.

  (** The plans of the written task are runs on sequences. *)
  Lemma plan_prun pgb T pl : 1 <= pgb -> pseq_translate P V pgb = Some T -> ss_plan T pl ->
    exists n l s' A', (forall m, In m (p_methods P) -> m_task m = p_init P -> length (m_subs m) = n) /\ prun P n pgb (initial_state P) None l s' A' /\ goal_state P s' /\ adone n A' /\ pacts l = strips_printed (map fst pl) /\ ss_plan_cost pl = plan_cost P (pacts l).
  Proof.
    intros PG ET (w & RUN & GO). destruct (pseq_good' pgb T PG ET) as (S & n & v0 & r0 & G). rewrite (pg_init _ _ _ _ _ _ G) in RUN.
    destruct (ss_to_prun S n pgb T v0 r0 PG G pl _ w RUN (initial_state P) v0 r0 None eq_refl (reached_init P) (pg_rep _ _ _ _ _ _ G) (pg_agr _ _ _ _ _ _ G) Logic.I) as (l & s' & A' & v' & r' & AR & -> & RP & AG & EA & EC).
    apply (goals_ps S n pgb T v' r' A' s' (pg_sp _ _ _ _ _ _ G) RP AG (pg_goal _ _ _ _ _ _ G)) in GO as [GS GZ]. exists n, l, s', A'. split; [exact (pg_width _ _ _ _ _ _ G)|auto].
  Qed.

  (** C131: soundness; the plans of the written task name the actions of solutions and cost as much as these *)
  Theorem pseq_sound pgb T pl : 1 <= pgb -> pseq_translate P V pgb = Some T -> ss_plan T pl ->
    solution P (strips_printed (map fst pl)) /\ ss_plan_cost pl = plan_cost P (strips_printed (map fst pl)).
  Proof.
    intros PG ET PL. destruct (plan_prun pgb T pl PG ET PL) as (n & l & s' & A' & SW & R & GS & GZ & EA & EC). destruct TB as [WF _ _ _ AF]. rewrite <- EA. split; auto. apply (solves_solvesk P _ _ _ (wf_acyclic P WF) (init_wf P)).
    exact (prun_sound P n pgb WF AF (fun m I => proj1 (LP m I)) SW _ _ _ _ _ R Logic.I GZ GS).
  Qed.

  (** C132: completeness; every solution is printed by a plan of the tasks for all bounds that are large enough *)
  Theorem pseq_complete plan : sequences P -> init_once P -> solution P plan -> exists b, forall pgb, b <= pgb ->
    exists T pl, pseq_translate P V pgb = Some T /\ ss_plan T pl /\ strips_printed (map fst pl) = plan.
  Proof.
    intros SQ ONCE SOL. assert (WF := tb_wf _ _ TB). apply (solves_solvesk P _ _ _ (wf_acyclic P WF) (init_wf P)) in SOL as (k & SOL).
    assert (ID : init_decomposable P). { destruct (solvesk_dec_complete P _ _ [] k plan (wf_acyclic P WF) (init_wf P) eq_refl ltac:(unfold primitive; cbn; rewrite (wf_init P WF); discriminate) SOL) as (m & tn & k' & _ & DC & _). exists m. split; [apply DC|]. symmetry. apply DC. }
    set (D := list_max (map (fun m => length (m_subs m)) (p_methods P))).
    assert (SZ : forall m, In m (p_methods P) -> length (m_subs m) <= D). { intros m I. assert (X := proj1 (list_max_le (map (fun m => length (m_subs m)) (p_methods P)) D) (le_n _)). rewrite Forall_forall in X. apply X. now apply (in_map (fun m => length (m_subs m))). }
    exists (1 + k * D). intros pgb L. assert (PG : 1 <= pgb) by lia. destruct (pseq_defined pgb PG ID) as (T & ET). destruct (pseq_good' pgb T PG ET) as (S & n & v0 & r0 & G).
    destruct (prun_complete_init P n pgb WF (fun m I => proj1 (LP m I)) (pg_width _ _ _ _ _ _ G) SQ ONCE D SZ k (initial_state P) plan L SOL) as (l & s' & A' & R & EA & GS & GZ).
    destruct (prun_to_ss S n pgb T v0 r0 PG G _ _ _ _ _ R v0 r0 (reached_init P) (pg_rep _ _ _ _ _ _ G) (pg_agr _ _ _ _ _ _ G) Logic.I Logic.I) as (pl & v' & r' & RR & RP & AG & EP).
    exists T, pl. split; auto. rewrite EP. split; auto. exists (v' ++ r'). split; [rewrite (pg_init _ _ _ _ _ _ G); exact RR|]. apply (goals_ps S n pgb T v' r' A' s' (pg_sp _ _ _ _ _ _ G) RP AG (pg_goal _ _ _ _ _ _ G)). auto.
  Qed.
End Thm.

(** C133: the written task is well-formed: all values lie in the domains of their variables *)
Section Wf.
  Variables (P : problem) (V : list (nat * nat)).
  Hypotheses (TB : to_base P V) (S0 : s0_found P V).

  Theorem pseq_wf pgb T : 1 <= pgb -> pseq_translate P V pgb = Some T -> ss_wf T.
  Proof.
    intros PG ET. destruct TB as [WF [IV NV] OV PF AF]. assert (O0 : one_value V (initial_state P)) by (apply (OV []); exact Logic.I). destruct (sas_plus_ok P V WF IV NV O0 S0) as (S & ES & SP).
    unfold pseq_translate in ET. apply obind_some in ET as (m & EM & ET). assert (N1 : 1 <= length (m_subs m)) by (apply find_some in EM as [IM _]; apply (subs_pos P WF m IM)). set (n := length (m_subs m)) in *. rewrite ES in ET. cbn [obind] in ET. apply obind_some in ET as (ops & EO & ET). unfold write_pseq in ET. apply obind_some in ET as (c & EC & ET). apply obind_some in ET as (i1 & E1 & ET). apply obind_some in ET as (i2 & E2 & ET).
    apply obind_some in ET as (g1 & G1 & ET). apply obind_some in ET as (g2 & G2 & ET). apply obind_some in ET as (fs & EF & ET). set (T0 := {| ss_dom := _ |}) in ET. injection ET as ET. assert (IT : intervals 0 (pvars P S n pgb) (ptk P S n pgb (n * pgb))) by (eapply pv_int; eauto).
    assert (FD : forall b i d, conv c b = Some (i, d) -> ss_in_dom T0 (i, d)).
    { intros b i d C. apply (proj1 (conv_ok _ _ _ IT EC b i d)) in C as (f & l & En & <- & L). unfold ss_in_dom. cbn [fst snd]. unfold T0. cbn [ss_dom]. rewrite nth_error_map, En. cbn [option_map fst snd]. eexists. split; [reflexivity|]. lia. }
    assert (OD : forall l l', omap (conv c) l = Some l' -> forall p, In p l' -> ss_in_dom T0 p) by (intros l l' O [i d] J; destruct (omap_in _ _ _ _ O J) as (b & _ & C); eauto).
    destruct (s0_rep P V S IV SP OV (conv c) (Pseq_sim.SCVW P V S n pgb c SP EC)) as (i1' & E1' & R0). rewrite E1 in E1'. injection E1' as <-. destruct (Pseq_ops.init_agrees P V S n pgb c SP PG N1 EC) as (r0 & i2' & E2' & Er & A0). rewrite E2 in E2'. injection E2' as <-.
    assert (Lv : length (map snd i1) = length (sp_var S)) by (destruct R0 as [-> _]; symmetry; apply SP).
    assert (OPS : forall nm o, In (nm, o) fs -> exists q, write_strop c q = Some o) by (intros nm o I; destruct (omap_in _ _ _ _ EF I) as (q & _ & Eq); apply obind_some in Eq as (f & Ew & Eq); injection Eq as _ <-; eauto).
    rewrite <- ET. clear ET. split.
    - unfold T0. cbn [ss_init ss_dom]. rewrite map_app, Er. split.
      + rewrite app_length, Lv, (proj1 A0), map_length. unfold pvars, Pseq_sim.nslots. rewrite !app_length, !map_length, !seq_length. cbn [length]. lia.
      + fold T0. intros i d E. destruct (Nat.lt_ge_cases i (length (sp_var S))) as [Li|Li].
        * rewrite nth_error_app1 in E by (rewrite Lv; auto). assert (VV := rep_valid P V S SP _ _ R0). destruct (proj2 VV i d E) as (b & F). apply (FD b). now apply (Pseq_sim.SCVW P V S n pgb c SP EC).
        * rewrite nth_error_app2 in E by (rewrite Lv; auto). rewrite Lv in E. assert (Lx : i - length (sp_var S) < Pseq_sim.nslots n pgb) by (rewrite <- (proj1 A0); apply nth_error_Some; congruence). destruct (Pseq_sim.ix_surj n pgb _ Lx) as (s & Vs & Es). rewrite <- Es, (proj2 A0 s Vs) in E. injection E as <-.
          assert (C := Pseq_sim.cv_slot P V S n pgb c SP EC (s, cf pgb None s) Vs). cbn [fst snd] in C. unfold Pseq_sim.tgt in C. cbn [fst snd] in C. replace (length (sp_var S) + Pseq_sim.ix n s) with i in C by lia. apply (FD _ _ _ (C ltac:(destruct s; cbn; lia))).
    - intros p I. unfold T0 in I. cbn [ss_goal] in I. apply in_app_or in I as [I|I]; [apply (OD _ _ G1)|apply (OD _ _ G2)]; auto.
    - intros nm o p I J. destruct (OPS nm o I) as (q & Ew). unfold write_strop in Ew. apply obind_some in Ew as (ps & Ep & Ew). apply obind_some in Ew as (es & Ee & Ew). injection Ew as <-. cbn [write_op f_prev] in J. apply filter_In in J as [J _]. apply (OD _ _ Ep); auto.
    - intros nm o v x d I J. destruct (OPS nm o I) as (q & Ew). unfold write_strop in Ew. apply obind_some in Ew as (ps & Ep & Ew). apply obind_some in Ew as (es & Ee & Ew). injection Ew as <-. cbn [write_op f_eff] in J.
      apply in_map_iff in J as ([v' d'] & Ev & J). cbn [fst snd] in Ev. injection Ev as <- Ex <-. split; [apply (OD _ _ Ee); auto|]. intros e ->. apply (OD _ _ Ep). now apply last_val_in.
  Qed.
End Wf.

(** ** Examples *)
Module QEx.
  (** 4 -> 5, 2 < 3; 5 -> 0 < 1: three sequences, the one of 2 has to be finished before that of 3 starts. *)
  Definition p : problem := mk 4 [true; true; true; true; false; false] [([], [0], []); ([1], [2], []); ([0], [1], []); ([1], [3], [])]
    [{| m_task := 4; m_subs := [5; 2; 3]; m_ord := [(1, 2)] |}; {| m_task := 5; m_subs := [0; 1]; m_ord := [(0, 1)] |}] [] [2; 3].
  Lemma base : to_base p (singles 4).
  Proof. apply singles_base; [apply problem_check_ok; reflexivity|reflexivity|apply acts_first_check; [reflexivity|cbn; lia]]. Qed.
  Lemma s0 : s0_found p (singles 4). Proof. apply no_s0. reflexivity. Qed.
  Lemma se : single_effects p (singles 4). Proof. apply no_dels_single. intros l [<-|[<-|[<-|[<-|[]]]]]; reflexivity. Qed.
  Lemma lp : listed_po p. Proof. apply po_check. reflexivity. Qed.
  Lemma same : same_width p. Proof. intros m m' [<-|[<-|[]]] [<-|[<-|[]]]; cbn; congruence. Qed.
  Lemma sq : sequences p. Proof. intros m [<-|[<-|[]]]; cbn; [congruence|]. intros _ a b L. cbn in L. replace a with 0 by lia. replace b with 1 by lia. apply t_step. now left. Qed.
  Lemma once : init_once p. Proof. intros m [<-|[<-|[]]]; cbn; lia. Qed.

  Example plan_ex : exists T pl, pseq_translate p (singles 4) 2 = Some T /\ ss_plan T pl /\ strips_printed (map fst pl) = [0; 2; 3; 1] /\
    map fst pl = [TMeth 0 0 [0; 2; 4]; TMeth 1 4 [4; 5]; TPrim 0 5; TPrim 2 2; TPrim 3 0; TPrim 1 4] /\ ss_plan_cost pl = 14.
  Proof.
    destruct (pseq_translate p (singles 4) 2) as [T|] eqn:E; [|vm_compute in E; discriminate]. destruct (srun_ix T (ss_init T) [TMeth 0 0 [0; 2; 4]; TMeth 1 4 [4; 5]; TPrim 0 5; TPrim 2 2; TPrim 3 0; TPrim 1 4]) as [[pl w]|] eqn:R; [|run_tac E R].
    exists T, pl. split; auto. split; [apply (srun_ix_plan _ _ _ _ R)|]; run_tac E R; injection R as <- <-; [reflexivity|repeat split; reflexivity].
  Qed.
  (** The sequence of 3 cannot start before that of 2 is finished. *)
  Example blocked_ex : match pseq_translate p (singles 4) 2 with Some T => srun_ix T (ss_init T) [TMeth 0 0 [0; 2; 4]; TMeth 1 4 [4; 5]; TPrim 0 5; TPrim 3 0] | None => None end = None.
  Proof. vm_compute. reflexivity. Qed.
  Example defined_ex : exists T, pseq_translate p (singles 4) 2 = Some T.
  Proof. apply (pseq_defined p (singles 4) base s0 se lp same 2 ltac:(lia)). eexists. split; [now left|reflexivity]. Qed.
  Example solution_ex : solution p [0; 2; 3; 1].
  Proof. destruct plan_ex as (T & pl & E & F & PR & _). destruct (pseq_sound p (singles 4) base s0 se lp same 2 T pl ltac:(lia) E F) as [X _]. now rewrite PR in X. Qed.
  Example complete_ex : exists b, forall pgb, b <= pgb -> exists T pl, pseq_translate p (singles 4) pgb = Some T /\ ss_plan T pl /\ strips_printed (map fst pl) = [0; 2; 3; 1].
  Proof. exact (pseq_complete p (singles 4) base s0 se lp same _ sq once solution_ex). Qed.
  Example wf_ex : exists T, pseq_translate p (singles 4) 2 = Some T /\ ss_wf T.
  Proof. destruct defined_ex as (T & E). exists T. split; auto. exact (pseq_wf p (singles 4) base s0 2 T ltac:(lia) E). Qed.
End QEx.

(** ** What does not hold *)

(** C134: soundness for methods of the initial task with different numbers of subtasks *)
Definition any_width_sound : Prop := forall P V pgb T pl, to_base P V -> s0_found P V -> single_effects P V -> listed_po P -> sequences P -> init_once P -> 1 <= pgb ->
  pseq_translate P V pgb = Some T -> ss_plan T pl -> solution P (strips_printed (map fst pl)).
(** C135: completeness if the initial task is a subtask *)
Definition any_init_complete : Prop := forall P V plan, to_base P V -> s0_found P V -> single_effects P V -> listed_po P -> same_width P -> sequences P -> solution P plan ->
  exists b, forall pgb, b <= pgb -> exists T pl, pseq_translate P V pgb = Some T /\ ss_plan T pl /\ strips_printed (map fst pl) = plan.
(** C136: completeness for methods that are not totally ordered *)
Definition any_order_complete : Prop := forall P V plan, to_base P V -> s0_found P V -> single_effects P V -> listed_po P -> same_width P -> init_once P -> solution P plan ->
  exists b, forall pgb, b <= pgb -> exists T pl, pseq_translate P V pgb = Some T /\ ss_plan T pl /\ strips_printed (map fst pl) = plan.

Module QBad.
  (** The second method of 3 has more subtasks than the first one. *)
  Definition p1 : problem := mk 1 [true; true; true; false] [([], [], []); ([], [], []); ([], [], [])] [{| m_task := 3; m_subs := [0]; m_ord := [] |}; {| m_task := 3; m_subs := [1; 2]; m_ord := [] |}] [] [].
  Lemma base1 : to_base p1 (singles 1).
  Proof. apply singles_base; [apply problem_check_ok; reflexivity|reflexivity|apply acts_first_check; [reflexivity|cbn; lia]]. Qed.
  Lemma se1 : single_effects p1 (singles 1). Proof. apply no_dels_single. intros l I. cbn in I. repeat destruct I as [<-|I]; auto; destruct I. Qed.
  Lemma sq1 : sequences p1. Proof. intros m [<-|[<-|[]]]; cbn; congruence. Qed.
  Lemma once1 : init_once p1. Proof. intros m [<-|[<-|[]]]; cbn; lia. Qed.
  (** Every solution contains 0 or 1. *)
  Definition has (tn : tnet) : Prop := exists x, t_in tn x /\ (t_lab tn x = 3 \/ t_lab tn x = 0 \/ t_lab tn x = 1).
  Lemma has_step tn x m tn' : decomposes p1 tn x m tn' -> has tn -> has tn'.
  Proof.
    intros D (y & I & L). destruct (list_eq_dec Nat.eq_dec y x) as [->|N].
    - assert (IM := d_method _ _ _ _ _ D). assert (J : 0 < length (m_subs m)) by (destruct IM as [<-|[<-|[]]]; cbn; lia). exists (x ++ [0]). split; [apply (d_in' _ _ _ _ _ D); right; eauto|]. rewrite (d_lab_new _ _ _ _ _ D 0 (nth 0 (m_subs m) 0)) by (now apply nth_error_nth'). destruct IM as [<-|[<-|[]]]; cbn; auto.
    - exists y. split; [apply (d_in' _ _ _ _ _ D); auto|]. now rewrite (d_lab_old _ _ _ _ _ D).
  Qed.
  Lemma solution_has plan : solution p1 plan -> In 0 plan \/ In 1 plan.
  Proof.
    intros (tn & L & R & PR & (ND & HL & HO) & -> & _). assert (H : forall a b, refines p1 a b -> has a -> has b) by (induction 1; eauto using has_step). destruct (H _ _ R) as (x & I & X); [exists []; cbn; auto|]. assert (Y := PR x I). apply HL in I. destruct X as [X|[X|X]]; [rewrite X in Y; discriminate| |]; rewrite <- X; [left|right]; now apply in_map.
  Qed.
  Lemma bad1 : exists T pl, pseq_translate p1 (singles 1) 2 = Some T /\ ss_plan T pl /\ strips_printed (map fst pl) = [2].
  Proof.
    destruct (pseq_translate p1 (singles 1) 2) as [T|] eqn:E; [|vm_compute in E; discriminate]. destruct (srun_ix T (ss_init T) [TMeth 1 0 [0; 2]; TPrim 2 0]) as [[pl w]|] eqn:R; [|run_tac E R].
    exists T, pl. split; auto. split; [apply (srun_ix_plan _ _ _ _ R)|]; run_tac E R; injection R as <- <-; reflexivity.
  Qed.

  (** The initial task 1 is its own subtask. *)
  Definition p2 : problem := mk 1 [true; false] [([], [], [])] [{| m_task := 1; m_subs := [0; 1]; m_ord := [] |}; {| m_task := 1; m_subs := [0; 0]; m_ord := [] |}] [] [].
  Lemma base2 : to_base p2 (singles 1).
  Proof. apply singles_base; [apply problem_check_ok; reflexivity|reflexivity|apply acts_first_check; [reflexivity|cbn; lia]]. Qed.
  Lemma se2 : single_effects p2 (singles 1). Proof. apply no_dels_single. intros l I. cbn in I. repeat destruct I as [<-|I]; auto; destruct I. Qed.
  Lemma lp2 : listed_po p2. Proof. apply po_check. reflexivity. Qed.
  Lemma sq2 : sequences p2. Proof. intros m [<-|[<-|[]]]; cbn; congruence. Qed.
  Lemma same2 : same_width p2. Proof. intros m m' [<-|[<-|[]]] [<-|[<-|[]]]; cbn; congruence. Qed.
  Lemma solution2 : solution p2 [0; 0; 0].
  Proof.
    assert (X : exists T pl, strips_translate p2 (singles 1) 4 = Some T /\ ss_plan T pl /\ strips_printed (map fst pl) = [0; 0; 0]).
    { destruct (strips_translate p2 (singles 1) 4) as [T|] eqn:E; [|vm_compute in E; discriminate]. destruct (srun_ix T (ss_init T) [TMeth 0 0 [1; 2]; TPrim 0 2; TMeth 1 1 [2; 3]; TPrim 0 3; TPrim 0 2; TEmpty 1; TEmpty 0]) as [[pl w]|] eqn:R; [|run_tac E R].
      exists T, pl. split; auto. split; [apply (srun_ix_plan _ _ _ _ R)|]; run_tac E R; injection R as <- <-; reflexivity. }
    destruct X as (T & pl & E & F & PR). rewrite <- PR. apply (strips_sound p2 (singles 1) base2 ltac:(apply no_s0; reflexivity) se2 lp2) with 4 T; auto; try lia.
    intros m [<-|[<-|[]]] H a L; cbn in L; exfalso; assert (X := H 1 ltac:(cbn; lia)); clear - X; apply clos_trans_t1n in X; inversion X as [y H1|y z H1 _]; subst; destruct H1.
  Qed.
  (** After the initial task no method can be applied. *)
  Lemma short n pgb s A l s' A' : prun p2 n pgb s A l s' A' -> forall o r, A = Some (o, r) -> length (pacts l) <= list_sum (map (fun k => length (r k)) (seq 0 n)).
  Proof.
    induction 1 as [s A|s i m l s' A' EM ET R IH|s o r i k t l s' A' Li Lk ER FR AP R IH|s o r i m k t l s' A' EM ET Lk ER FR LE R IH]; intros o' r' E; [cbn; lia|discriminate| |].
    - injection E as <- <-. specialize (IH _ _ eq_refl). unfold pacts in *. cbn [map concat app length]. eapply Nat.le_trans; [apply le_n_S, IH|]. clear - Lk ER.
      assert (G : forall q a, a <= k < a + q -> S (list_sum (map (fun x => length (put r k t x)) (seq a q))) <= list_sum (map (fun x => length (r x)) (seq a q))); [|apply G; lia].
      assert (E : forall q a, k < a -> map (fun x => length (put r k t x)) (seq a q) = map (fun x => length (r x)) (seq a q)) by (intros q a L; apply map_ext_in; intros x I; apply in_seq in I; rewrite put_ne; [auto|lia]).
      induction q as [|q IH]; intros a L; [lia|]. cbn [seq map]. rewrite !sum_cons. destruct (Nat.eq_dec a k) as [->|N]; [rewrite E by lia; rewrite put_eq, ER; cbn [length]; lia|]. rewrite put_ne by auto. specialize (IH (S a) ltac:(lia)). lia.
    - exfalso. apply nth_error_In in EM as [<-|[<-|[]]]; apply ET; reflexivity.
  Qed.

  (** The method of 3 is not ordered. *)
  Definition p3 : problem := mk 1 [true; true; false; false] [([], [], []); ([], [], [])] [{| m_task := 2; m_subs := [3]; m_ord := [] |}; {| m_task := 3; m_subs := [0; 1]; m_ord := [] |}] [] [].
  Lemma base3 : to_base p3 (singles 1).
  Proof. apply singles_base; [apply problem_check_ok; reflexivity|reflexivity|apply acts_first_check; [reflexivity|cbn; lia]]. Qed.
  Lemma se3 : single_effects p3 (singles 1). Proof. apply no_dels_single. intros l I. cbn in I. repeat destruct I as [<-|I]; auto; destruct I. Qed.
  Lemma lp3 : listed_po p3. Proof. apply po_check. reflexivity. Qed.
  Lemma once3 : init_once p3. Proof. intros m [<-|[<-|[]]]; cbn; lia. Qed.
  Lemma same3 : same_width p3. Proof. intros m m' [<-|[<-|[]]] [<-|[<-|[]]]; cbn; congruence. Qed.
  Lemma solution3 : solution p3 [1; 0].
  Proof.
    assert (X : exists T pl, strips_translate p3 (singles 1) 4 = Some T /\ ss_plan T pl /\ strips_printed (map fst pl) = [1; 0]).
    { destruct (strips_translate p3 (singles 1) 4) as [T|] eqn:E; [|vm_compute in E; discriminate]. destruct (srun_ix T (ss_init T) [TMeth 0 0 [0]; TMeth 1 0 [1; 2]; TPrim 1 1; TPrim 0 2; TEmpty 0]) as [[pl w]|] eqn:R; [|run_tac E R].
      exists T, pl. split; auto. split; [apply (srun_ix_plan _ _ _ _ R)|]; run_tac E R; injection R as <- <-; reflexivity. }
    destruct X as (T & pl & E & F & PR). rewrite <- PR. apply (strips_sound p3 (singles 1) base3 ltac:(apply no_s0; reflexivity) se3 lp3) with 4 T; auto; try lia.
    intros m [<-|[<-|[]]] H a L; cbn in L; [lia|]. exfalso; assert (X := H 1 ltac:(cbn; lia)); clear - X; apply clos_trans_t1n in X; inversion X as [y H1|y z H1 _]; subst; destruct H1.
  Qed.
  (** The only sequence is processed in the order of the listing. *)
  Definition todo (l : list nat) : list nat := match l with [3] => [0; 1] | _ => l end.
  Lemma in_order pgb s A l s' A' : prun p3 1 pgb s A l s' A' -> forall o r, A = Some (o, r) -> In (r 0) [[3]; [0; 1]; [1]; []] -> exists q, todo (r 0) = pacts l ++ q.
  Proof.
    induction 1 as [s A|s i m l s' A' EM ET R IH|s o r i k t l s' A' Li Lk ER FR AP R IH|s o r i m k t l s' A' EM ET Lk ER FR LE R IH]; intros o' r' E C; [eexists; reflexivity|discriminate| |]; injection E as <- <-; replace k with 0 in * by lia; specialize (IH _ _ eq_refl); rewrite put_eq in IH; cbn [In] in C, IH; rewrite ER in *.
    - unfold pacts in *. cbn [map concat app]. destruct C as [[= <- <-]|[[= <- <-]|[[= <- <-]|[[=]|[]]]]]; [cbn in Li; lia| |]; cbn [todo] in *; destruct IH as (q & IH); auto; exists q; f_equal; exact IH.
    - unfold pacts in *. cbn [map concat app]. apply nth_error_In in EM as [<-|[<-|[]]]; [now destruct ET|]. cbn [m_task m_subs] in *. destruct C as [[= <-]|[[=]|[[=]|[[=]|[]]]]]. cbn [todo app] in *. apply IH. auto.
  Qed.
End QBad.

Theorem any_width_sound_refuted : ~ any_width_sound.
Proof.
  intros H. destruct QBad.bad1 as (T & pl & E & F & PR). assert (X := H QBad.p1 (singles 1) 2 T pl QBad.base1 ltac:(apply no_s0; reflexivity) QBad.se1 ltac:(apply po_check; reflexivity) QBad.sq1 QBad.once1 ltac:(lia) E F). rewrite PR in X. apply QBad.solution_has in X as [[X|[]]|[X|[]]]; discriminate.
Qed.
Theorem any_init_complete_refuted : ~ any_init_complete.
Proof.
  intros H. destruct (H QBad.p2 (singles 1) [0; 0; 0] QBad.base2 ltac:(apply no_s0; reflexivity) QBad.se2 QBad.lp2 QBad.same2 QBad.sq2 QBad.solution2) as (b & HB). destruct (HB (1 + b) ltac:(lia)) as (T & pl & ET & PL & PR).
  destruct (plan_prun QBad.p2 (singles 1) QBad.base2 ltac:(apply no_s0; reflexivity) QBad.se2 QBad.lp2 QBad.same2 (1 + b) T pl ltac:(lia) ET PL) as (n & l & s' & A' & SW & R & _ & _ & EA & _). rewrite PR in EA.
  assert (n = 2) by (symmetry; apply (SW {| m_task := 1; m_subs := [0; 1]; m_ord := [] |}); [now left|reflexivity]). subst n. inversion R as [|s i m l' s1 A1 EM EI R1| |]; subst; [discriminate|]. apply QBad.short with (o := mord m) (r := start m) in R1; auto. unfold pacts in *. cbn [map concat app] in EA. rewrite EA in R1.
  assert (IM : In m (p_methods QBad.p2)) by (eapply nth_error_In; eauto). destruct IM as [<-|[<-|[]]]; cbn in R1; lia.
Qed.
Theorem any_order_complete_refuted : ~ any_order_complete.
Proof.
  intros H. destruct (H QBad.p3 (singles 1) [1; 0] QBad.base3 ltac:(apply no_s0; reflexivity) QBad.se3 QBad.lp3 QBad.same3 QBad.once3 QBad.solution3) as (b & HB). destruct (HB (1 + b) ltac:(lia)) as (T & pl & ET & PL & PR).
  destruct (plan_prun QBad.p3 (singles 1) QBad.base3 ltac:(apply no_s0; reflexivity) QBad.se3 QBad.lp3 QBad.same3 (1 + b) T pl ltac:(lia) ET PL) as (n & l & s' & A' & SW & R & _ & _ & EA & _). rewrite PR in EA.
  assert (n = 1) by (symmetry; apply (SW {| m_task := 2; m_subs := [3]; m_ord := [] |}); [now left|reflexivity]). subst n. inversion R as [|s i m l' s1 A1 EM EI R1| |]; subst; [discriminate|].
  assert (IM : In m (p_methods QBad.p3)) by (eapply nth_error_In; eauto). destruct IM as [<-|[<-|[]]]; [|discriminate]. destruct (QBad.in_order _ _ _ _ _ _ R1 _ _ eq_refl) as (q & X); [now left|]. cbn [map concat app] in EA. unfold pacts in *. cbn [map concat app] in EA. rewrite EA in X. discriminate.
Qed.

Print Assumptions pseq_defined.
Print Assumptions pseq_sound.
Print Assumptions pseq_complete.
Print Assumptions pseq_wf.
Print Assumptions any_width_sound_refuted.
Print Assumptions any_init_complete_refuted.
Print Assumptions any_order_complete_refuted.
