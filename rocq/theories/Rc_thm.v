(** C34: the dead ends of the relaxed-composition heuristic are real; C58: with LM-cut and cost estimates it never overestimates;
    C59: its stored landmarks are landmarks of the node. Also: the STRIPS model meets the assumptions of C35, C37 and C38. *)
From Coq Require Import Relations Sorted.
From Verif Require Import Base Rel Htn_model Htn_spec Htn_sem Htn_rep Htn_proof Htn_history Htn_search Htn_hist Htn_thm.
From Verif Require Import IntUtil_model Tab_model Tab_proof Tab_thm Scc_spec Scc_model Scc_proof Reach_proof ReachHeap_proof Reach_thm.
From Verif Require Import Heap_model Heap_proof Relax_spec Relax_model Dij Aff_proof FF_proof HMax_proof LmCut_proof Relax_thm Rc_model Rc_spec Rc_proof.

(** The model of RCModelFactory is well-formed and has no action without precondition, as assumed by the theorems about the
    delete-relaxation heuristics. *)
Theorem rc_model_wf : forall P cma cra, wf_problem P -> rc_input P ->
  exists m, rc_strips P cma cra = Some m /\ strips_wf m /\ no_precless m.
Proof. intros P cma cra WP RI. destruct (rc_strips_ok P cma cra WP RI) as (m & E & W & N & _). eauto. Qed.

(** [M] holds the rows of the plan steps after updateReachability has been called for the new node [n]. *)
Definition rows_updated (P : problem) (C : config) (last : nat) (w : world) (n : node) (M : list (option (list nat))) : Prop :=
  exists dfsI lowlink SC R M0, length dfsI = length (p_prim P) /\ length lowlink = length (p_prim P) /\
    calcSCCs (task_graph P) (p_init P) dfsI lowlink = Some SC /\ reach_table (task_graph P) SC last = Some R /\
    step_rows P C R last w M0 /\ update_reach R last (w_heap w) (length (w_heap w)) M0 n = Some M.

(** The inner heuristic reports UNREACHABLE only if some goal is not relaxed reachable. *)
Definition inner_safe (m : strips) (H : inner) : Prop :=
  forall s g, sets_ok m s g -> H m s g = Some None -> exists f, In f g /\ ~ m_reach m s f.

Lemma aff_safe al m k q0 rb0 : alloc_ok al -> strips_wf m -> no_precless m -> HInv q0 -> length rb0 = st_nf m -> inner_safe m (in_aff al k q0 rb0).
Proof.
  intros A W N Q L s g SO E. unfold in_aff in E. apply obind_some in E as (h & E & H). destruct h; [discriminate|].
  eapply unreachable_exact; eauto.
Qed.
Lemma filter_safe al m k q0 rb0 : alloc_ok al -> strips_wf m -> no_precless m -> HInv q0 -> length rb0 = st_nf m -> inner_safe m (in_filter al k q0 rb0).
Proof.
  intros A W N Q L s g SO E. unfold in_filter, filter_value in E. apply obind_some in E as (h & E & H). apply obind_some in E as (h' & E & H').
  destruct h' as [x|]; injection H' as <-; [discriminate|]. eapply unreachable_exact; eauto.
Qed.
Lemma lmcut_safe al m q0 : alloc_ok al -> strips_wf m -> no_precless m -> HInv q0 -> inner_safe m (in_lmcut al q0).
Proof.
  intros A W N Q s g SO E. unfold in_lmcut in E. destruct (lmcut_admissible al m q0 s g A W N SO Q) as [[H _]|(_ & h & cuts & E' & _)]; auto. congruence.
Qed.

(** ** State and goal of a node *)
Section Node.
  Variables (P : problem) (C : config) (last : nat) (w : world) (l : list node) (n : node) (s : state) (tn : tnet) (pi : nat -> tid) (M : list (option (list nat))).
  Hypothesis WP : wf_problem P.
  Hypothesis RI : rc_input P.
  Hypothesis CN : connected P.
  Hypothesis HC : config_ok C.
  Hypothesis LA : n_acts P <= last.
  Hypothesis Hh : history P C w l.
  Hypothesis Hn : In n l.
  Hypothesis RP : Rep P (w_heap w) n s tn pi.
  Hypothesis RU : rows_updated P C last w n M.

  Lemma node_s0 : exists s0, rc_s0 P M n = Some s0 /\ NoDup s0 /\ (forall f, In f s0 -> f < p_nfacts P + n_acts P + n_tasks P) /\
    (forall f, s f -> In f s0) /\ (forall ms plan, solves_by P s tn ms plan -> forall a, In a plan -> In (t2tdr P a) s0).
  Proof using All.
    destruct RU as (d & lo & SC & R & M0 & Ld & Ll & ES & ER & SR & EU).
    destruct (step_rows_exact P C d lo last SC R w l M0 n s tn pi) as (M' & EU' & _ & HM); auto. assert (M' = M) by congruence. subst M'.
    destruct (rc_s0_ok P M n) as (s0 & E0 & N0 & I0); [apply RP|intros i Hi; destruct (HM i Hi) as (r & Er & _); eauto|].
    exists s0. split; auto. split; auto. split; [|split].
    - intros f Hf. apply I0 in Hf as [Hf|(i & r & t & _ & _ & _ & Lt & ->)].
      + assert (f < length (n_state n)) by (apply nth_error_Some; unfold get in Hf; congruence). rewrite (r_len _ _ _ _ _ _ RP) in H. lia.
      + unfold t2tdr. lia.
    - intros f Hf. apply I0. left. now apply (r_state _ _ _ _ _ _ RP).
    - intros ms plan (tn' & L & Rf & PR & (NL & IL & _) & -> & _) a Ha. apply in_map_iff in Ha as (y & <- & Hy). apply IL in Hy.
      destruct (history_ok P C WP HC w l Hh) as (WH & _).
      assert (LB : forall x, t_in tn x -> t_lab tn x < length (p_prim P)).
      { intros x Hx. apply (r_in _ _ _ _ _ _ RP) in Hx as (j & Lj & <-). assert (LT : j < length (w_heap w)) by (eapply live_lt; eauto; apply RP).
        destruct (get_some (w_heap w) j LT) as (ps & Gj). rewrite (r_lab _ _ _ _ _ _ RP j ps Lj Gj). eapply (wh_task _ _ WH); eauto. }
      destruct (refines_labels P tn tn' WP LB (refines_by_refines _ _ _ _ Rf) y Hy) as (x & Hx & Rx).
      pose proof Hx as Hx'. apply (r_in _ _ _ _ _ _ RP) in Hx' as (j & Lj & Ej). destruct Lj as (i & Hi & Rij).
      destruct (HM i Hi) as (r & Er & _ & Ir). assert (La := wf_prim _ WP _ (PR y Hy)). apply I0. right. exists i, r, (t_lab tn' y).
      split; auto. split; auto. split; [|split; auto]. apply Ir. split; [unfold n_acts in *; lia|]. exists x. split; auto. split.
      + apply rtc_cases in Rij as [->|Rij]; auto. right. rewrite <- Ej. apply (r_ord _ _ _ _ _ _ RP); auto.
        * now apply live_head.
        * exists i. split; auto. apply rtc_cases. auto.
      + apply occurs_reach; auto.
  Qed.

  Lemma node_goal : exists T L, contained P n = Some T /\ NoDup L /\ (forall x, In x L <-> t_in tn x) /\ NoDup (map (fun e => Z.to_nat (fst e)) T) /\
    (forall z c, In (z, c) T -> exists t, z = Z.of_nat t /\ In t (map (t_lab tn) L) /\ c = Z.of_nat (count_occ Nat.eq_dec (map (t_lab tn) L) t)) /\
    NoDup (rc_goal P T) /\ (forall f, In f (rc_goal P T) -> f < p_nfacts P + n_acts P + n_tasks P) /\
    (forall f, In f (rc_goal P T) -> In f (p_goal P) \/ exists x, t_in tn x /\ f = t2bur P (t_lab tn x)).
  Proof using All.
    destruct (contained_exact P C w l n s tn pi WP HC Hh Hn RP) as (T & L & ET & NL & IL & A & IT).
    assert (FT : forall z c, In (z, c) T -> exists t, z = Z.of_nat t /\ In t (map (t_lab tn) L) /\ c = Z.of_nat (count_occ Nat.eq_dec (map (t_lab tn) L) t)).
    { intros z c H. now apply IT. }
    exists T, L. split; auto. split; auto. split; auto. split.
    { assert (NZ : forall z, In z (map fst T) -> (0 <= z)%Z). { intros z Hz. apply in_map_iff in Hz as ((z' & c) & <- & H). apply FT in H as (t & -> & _). cbn. lia. }
      rewrite <- (map_map fst Z.to_nat). unfold ascending in A. revert A NZ. generalize (map fst T) as Z. clear. induction 1 as [|z l S IH F]; intros NZ; cbn; constructor.
      - intros H. apply in_map_iff in H as (y & E & Hy). rewrite Forall_forall in F. specialize (F y Hy). pose proof (NZ y (or_intror Hy)). pose proof (NZ z (or_introl eq_refl)). lia.
      - apply IH. intros y Hy. apply NZ. now right. }
    split; auto. destruct (rc_goal_ok P T) as [NG IG]. split; auto.
    assert (GG : forall f, In f (rc_goal P T) -> In f (p_goal P) \/ exists x, t_in tn x /\ f = t2bur P (t_lab tn x)).
    { intros f Hf. apply IG in Hf as [H|(z & c & H & ->)]; auto. right. apply FT in H as (t & -> & It & _). rewrite Nat2Z.id.
      apply in_map_iff in It as (x & <- & Hx). exists x. split; auto. now apply IL. }
    split; auto. intros f Hf. apply GG in Hf as [H|(x & Hx & ->)].
    - apply (wf_goal _ WP) in H. lia.
    - destruct (history_ok P C WP HC w l Hh) as (WH & _). apply (r_in _ _ _ _ _ _ RP) in Hx as (j & Lj & <-).
      assert (LT : j < length (w_heap w)) by (eapply live_lt; eauto; apply RP).
      destruct (get_some (w_heap w) j LT) as (ps & Gj). rewrite (r_lab _ _ _ _ _ _ RP j ps Lj Gj). apply (wh_task _ _ WH) in Gj. unfold t2bur, n_tasks. lia.
  Qed.
End Node.

(** ** C34 *)

(** If the value of a node is UNREACHABLE then no plan solves the node, whatever the inner heuristic (h-add, h-FF, filter, LM-cut) and
    whatever the costs used. *)
Theorem rc_dead_end_safe : forall P C last w l n s tn pi M cma cra m H k,
  wf_problem P -> rc_input P -> connected P -> config_ok C -> n_acts P <= last ->
  history P C w l -> In n l -> Rep P (w_heap w) n s tn pi -> rows_updated P C last w n M ->
  rc_strips P cma cra = Some m -> inner_safe m H ->
  rc_value P m H k M n = Some None -> forall plan, ~ solves P s tn plan.
Proof.
  intros P C last w l n s tn pi M cma cra m H k WP RI CN HC LA Hh Hn RP RU EM HS EV plan SV.
  destruct (rc_strips_ok P cma cra WP RI) as (m' & EM' & W & NP & K). assert (m' = m) by congruence. subst m'.
  destruct (node_s0 P C last w l n s tn pi M) as (s0 & E0 & N0 & B0 & S0 & T0); auto.
  destruct (node_goal P C last w l n s tn pi M) as (T & L & ET & _ & _ & _ & _ & NG & BG & GG); auto.
  unfold rc_value in EV. rewrite E0, ET in EV. cbn [obind] in EV. apply obind_some in EV as (r & ER & EV).
  destruct r as [[h cuts]|]; [apply obind_some in EV as (cs & _ & EV); apply obind_some in EV as (v & _ & EV); discriminate|].
  destruct (HS s0 (rc_goal P T)) as (f & If & Nf); auto.
  { split; auto. split; [rewrite (k_nf _ _ _ _ K); auto|]. split; auto. rewrite (k_nf _ _ _ _ K). auto. }
  apply solves_solves_by in SV as (ms & SV). apply Nf.
  destruct (solution_rplan P cma cra m WP RI K s tn ms plan s0 (rc_goal P T) SV S0 (T0 ms plan SV) GG) as [RPl _].
  eapply rplan_reach; eauto.
Qed.

(** Hence the search may discard the dead ends found by the heuristic. *)
Theorem rc_dead_ends_ok : forall V P C (E : search_env V) last cma cra m H k,
  wf_problem P -> rc_input P -> connected P -> config_ok C -> n_acts P <= last ->
  rc_strips P cma cra = Some m -> inner_safe m H ->
  (forall w l n, history P C w l -> In n l -> h_dead E w n = true -> exists M, rows_updated P C last w n M /\ rc_value P m H k M n = Some None) ->
  dead_ends_ok P C E.
Proof.
  intros V P C E last cma cra m H k WP RI CN HC LA EM HS HD w l n s tn pi Hh Hn _ RP D plan.
  destruct (HD w l n Hh Hn D) as (M & RU & EV). eapply rc_dead_end_safe; eauto.
Qed.

(** ** C58, C59: LM-cut as inner heuristic *)
Section LmCut.
  Variables (P : problem) (C : config) (last : nat) (w : world) (l : list node) (n : node) (s : state) (tn : tnet) (pi : nat -> tid) (M : list (option (list nat))).
  Variables (cma cra : nat) (m : strips) (al : nat -> list Z) (q0 : heap) (k : correction).
  Hypothesis WP : wf_problem P.
  Hypothesis RI : rc_input P.
  Hypothesis CN : connected P.
  Hypothesis HC : config_ok C.
  Hypothesis LA : n_acts P <= last.
  Hypothesis Hh : history P C w l.
  Hypothesis Hn : In n l.
  Hypothesis RP : Rep P (w_heap w) n s tn pi.
  Hypothesis RU : rows_updated P C last w n M.
  Hypothesis EM : rc_strips P cma cra = Some m.
  Hypothesis AO : alloc_ok al.
  Hypothesis QO : HInv q0.
  Hypothesis KO : match k with CTable mi => length mi = length (p_prim P) | _ => True end.

  Lemma correct_ok T : (forall z c, In (z, c) T -> exists t, z = Z.of_nat t /\ t < length (p_prim P)) -> forall h, exists v, rc_correct P k T h = Some v /\ h <= v /\
    (k = CNone -> v = h) /\
    (k = CAdm -> v = h + list_sum (map (fun e => (if Nat.ltb (fst e) (n_acts P) then cost_of P (fst e) else 0) * (snd e - 1)) (map (fun e => (Z.to_nat (fst e), Z.to_nat (snd e))) T))).
  Proof using KO.
    clear RU LA. intros HT. destruct k as [| |mi]; cbn [rc_correct].
    - intros h. exists h. split; auto. split; auto. split; auto. discriminate.
    - induction T as [|[z c] T IH]; intros h.
      + exists h. split; [reflexivity|]. split; [lia|]. split; [discriminate|]. intros _; cbn; lia.
      + cbn [ofold]. destruct (HT z c (or_introl eq_refl)) as (t & -> & Lt). cbn [fst snd map]. unfold list_sum. cbn [fold_right]. fold (list_sum). rewrite Nat2Z.id.
        match goal with |- context [obind ?X _] => assert (EX : X = Some (h + (if Nat.ltb t (n_acts P) then cost_of P t else 0) * (Z.to_nat c - 1))) end.
        { destruct (Z.ltb_spec 1 c) as [L1|L1].
          - destruct (Nat.ltb_spec t (n_acts P)) as [L2|L2].
            + rewrite (get_nth_d 0) by (unfold n_acts in L2; auto). cbn [obind]. unfold cost_of. do 3 f_equal. lia.
            + f_equal. lia.
          - f_equal. replace (Z.to_nat c - 1) with 0 by lia. rewrite Nat.mul_0_r. lia. }
        rewrite EX. cbn [obind]. destruct (IH ltac:(intros; eapply HT; right; eauto) (h + (if Nat.ltb t (n_acts P) then cost_of P t else 0) * (Z.to_nat c - 1))) as (v & Ev & Lv & _ & Qv).
        exists v. split; auto. split; [eapply Nat.le_trans; [apply Nat.le_add_r|exact Lv]|]. split; [discriminate|]. intros _. rewrite (Qv eq_refl). unfold list_sum. rewrite Nat.add_assoc. reflexivity.
    - intros h. revert h. induction T as [|[z c] T IH]; intros h.
      + exists h. split; [reflexivity|]. split; [lia|]. split; discriminate.
      + cbn [ofold]. destruct (HT z c (or_introl eq_refl)) as (t & -> & Lt). rewrite Nat2Z.id.
        assert (EX : exists h', h <= h' /\ (if Z.ltb 1 c then x <- get mi t ;; Some (h + x * Z.to_nat (c - 1)) else Some h) = Some h').
        { destruct (Z.ltb 1 c); [|exists h; auto]. rewrite (get_nth_d 0) by lia. cbn [obind]. eexists. split; [|reflexivity]. apply Nat.le_add_r. }
        destruct EX as (h' & Lh & ->). cbn [obind]. destruct (IH ltac:(intros; eapply HT; right; eauto) h') as (v & Ev & Lv & _).
        exists v. split; auto. split; [lia|]. split; discriminate.
  Qed.

  (** The value: either UNREACHABLE and no solution, or a number and landmarks. *)
  Lemma lmcut_node : exists r, rc_value P m (in_lmcut al q0) k M n = Some r /\
    match r with
    | None => forall plan, ~ solves P s tn plan
    | Some (v, cs) =>
        (forall ms plan, solves_by P s tn ms plan -> k = CNone ->
           v <= list_sum (map (fun a => if Nat.eqb cra 0 then cost_of P a else cra) plan) + cma * length ms) /\
        (forall ms plan, solves_by P s tn ms plan -> k = CAdm -> cma = 0 -> cra = 0 -> v <= plan_cost P plan) /\
        (forall fm lm ms plan, In (fm, lm) cs -> solves_by P s tn ms plan ->
           exists i x, nth_error lm i = Some (Z.of_nat x) /\ (i < fm /\ In x plan \/ fm <= i /\ In x ms))
    end.
  Proof using All.
    destruct (rc_strips_ok P cma cra WP RI) as (m' & EM' & W & NP & K). assert (m' = m) by congruence. subst m'.
    destruct (node_s0 P C last w l n s tn pi M) as (s0 & E0 & N0 & B0 & S0 & T0); auto.
    destruct (node_goal P C last w l n s tn pi M) as (T & L & ET & NL & IL & NT & FT & NG & BG & GG); auto.
    assert (SO : sets_ok m s0 (rc_goal P T)). { split; auto. split; [rewrite (k_nf _ _ _ _ K); auto|]. split; auto. rewrite (k_nf _ _ _ _ K). auto. }
    assert (SR : forall ms plan, solves_by P s tn ms plan -> rplan (st_nops m) (m_pre m) (m_add m) s0 (plan ++ method_ops P ms) (rc_goal P T) /\
                   rplan (st_nops m) (m_pre m) (m_add m) s0 (dedup (plan ++ method_ops P ms)) (rc_goal P T)).
    { intros ms plan SV. eapply solution_rplan; eauto. }
    unfold rc_value. rewrite E0, ET. cbn [obind]. unfold in_lmcut.
    destruct (lmcut_admissible al m q0 s0 (rc_goal P T) AO W NP SO QO) as [((f & If & Nf) & ->)|(RG & h & cuts & -> & AD & _ & LM)]; cbn [obind].
    { exists None. split; auto. intros plan SV. apply solves_solves_by in SV as (ms & SV). apply Nf. eapply rplan_reach; [apply (SR ms plan SV)|auto]. }
    assert (CE : forall c, In c cuts -> c <> []).
    { intros c Hc ->. destruct (rplan_all (st_nops m) (m_pre m) (m_add m) s0 (rc_goal P T)) as (ops & Ho).
      - intros f Hf. apply rreach_plan. auto.
      - destruct (LM [] Hc ops Ho) as (op & _ & []). }
    destruct (omap_some (split_cut (n_acts P)) cuts) as (cs & ECS).
    { intros c Hc. destruct (split_cut_ok (n_acts P) c (CE c Hc)) as (fm & lm & -> & _). eauto. }
    rewrite ECS. cbn [obind].
    assert (LB : forall t, In t (map (t_lab tn) L) -> t < length (p_prim P)).
    { intros t Ht. apply in_map_iff in Ht as (x & <- & Hx). apply IL in Hx. destruct (history_ok P C WP HC w l Hh) as (WH & _).
      apply (r_in _ _ _ _ _ _ RP) in Hx as (j & Lj & <-). assert (LT : j < length (w_heap w)) by (eapply live_lt; eauto; apply RP).
      destruct (get_some (w_heap w) j LT) as (ps & Gj). rewrite (r_lab _ _ _ _ _ _ RP j ps Lj Gj). eapply (wh_task _ _ WH); eauto. }
    destruct (correct_ok T) with (h := h) as (v & Ev & Lv & V1 & V2).
    { intros z c H. apply FT in H as (t & -> & It & _). eauto. }
    rewrite Ev. cbn [obind]. eexists. split; [reflexivity|]. split; [|split].
    - intros ms plan SV Ek. rewrite (V1 Ek). destruct (SR ms plan SV) as [R1 _]. apply AD in R1.
      etransitivity; [exact R1|]. unfold pcost. rewrite map_app, list_sum_app. apply Nat.add_le_mono.
      + destruct SV as (tn' & L' & Rf & PR & (NL' & IL' & _) & -> & _). apply Nat.eq_le_incl. f_equal. apply map_ext_in. intros a Ha.
        apply (k_cost _ _ _ _ K). apply in_map_iff in Ha as (x & <- & Hx). apply (wf_prim _ WP). apply PR. now apply IL'.
      + destruct SV as (tn' & L' & Rf & _). unfold method_ops. rewrite map_map. replace (length ms) with (length (rev ms)) by apply rev_length.
        assert (B : forall i, In i (rev ms) -> i < length (p_methods P)).
        { intros i Hi. apply in_rev in Hi. clear - Rf Hi. induction Rf as [|tn x j mm tn1 ms tn2 Ej D R IH]; [destruct Hi|].
          destruct Hi as [<-|Hi]; [apply nth_error_Some; congruence|auto]. }
        induction (rev ms) as [|i r IH]; cbn; [lia|]. rewrite (k_mcost _ _ _ _ K i) by (apply B; now left).
        specialize (IH ltac:(intros; apply B; now right)). unfold list_sum in IH. lia.
    - intros ms plan SV Ek -> ->. rewrite (V2 Ek). destruct (SR ms plan SV) as [_ R1]. apply AD in R1.
      destruct SV as (tn' & L' & Rf & PR & (NL' & IL' & _) & EP & _). unfold plan_cost.
      set (wt := fun a => if Nat.ltb a (n_acts P) then cost_of P a else 0).
      assert (MI : forall i, In i ms -> i < length (p_methods P)).
      { intros i Hi. clear - Rf Hi. induction Rf as [|tn x j mm tn1 ms tn2 Ej D R IH]; [destruct Hi|].
        destruct Hi as [<-|Hi]; [apply nth_error_Some; congruence|auto]. }
      assert (PA : forall a, In a plan -> a < n_acts P).
      { intros a Ha. rewrite EP in Ha. apply in_map_iff in Ha as (x & <- & Hx). apply (wf_prim _ WP). apply PR. now apply IL'. }
      assert (OPW : forall o, In o (dedup (plan ++ method_ops P ms)) -> m_cost m o = wt o /\ (0 < wt o -> In o plan)).
      { intros o Ho. rewrite (dedup_in (st_nops m) (m_pre m) (m_add m)) in Ho. unfold wt. apply in_app_or in Ho as [Ho|Ho].
        - specialize (PA o Ho) as Lo. rewrite (proj2 (Nat.ltb_lt _ _) Lo). rewrite (k_cost _ _ _ _ K o Lo). cbn. auto.
        - apply in_map_iff in Ho as (i & <- & Hi). apply in_rev in Hi. rewrite (k_mcost _ _ _ _ K i (MI i Hi)).
          destruct (Nat.ltb_spec (n_acts P + i) (n_acts P)); [lia|]. split; auto. lia. }
      assert (E1 : pcost (m_cost m) (dedup (plan ++ method_ops P ms)) = list_sum (map wt (dedup (plan ++ method_ops P ms)))).
      { unfold pcost. f_equal. apply map_ext_in. intros o Ho. now apply OPW. }
      assert (E2 : list_sum (map (cost_of P) plan) = list_sum (map wt plan)).
      { f_equal. apply map_ext_in. intros a Ha. unfold wt. now rewrite (proj2 (Nat.ltb_lt _ _) (PA a Ha)). }
      rewrite E2. rewrite E1 in R1.
      assert (SC' : list_sum (map wt (dedup (plan ++ method_ops P ms))) +
         list_sum (map (fun e => wt (fst e) * (snd e - 1)) (map (fun e => (Z.to_nat (fst e), Z.to_nat (snd e))) T)) <= list_sum (map wt plan)).
      { apply sum_correction.
        - apply setins_nodup. constructor.
        - intros x Hx. now apply OPW.
        - rewrite map_map. cbn. exact NT.
        - intros t c H. apply in_map_iff in H as ((z & c') & [= <- <-] & H). apply FT in H as (t & -> & It & ->). cbn. rewrite !Nat2Z.id.
          intros W0. unfold wt in W0. destruct (Nat.ltb_spec t (n_acts P)) as [Lt|Lt]; [|lia]. apply (ri_prim _ RI) in Lt.
          rewrite EP. clear - NL IL NL' IL' Rf Lt WP.
          assert (ST : forall x, t_in tn x -> t_lab tn x = t -> t_in tn' x /\ t_lab tn' x = t).
          { clear - Rf Lt WP. induction Rf as [|tn x j mm tn1 ms tn2 Ej D R IH]; auto. intros y Hy Ly. apply IH.
            - apply (d_in' _ _ _ _ _ D). left. split; auto. intros ->. rewrite (d_lab _ _ _ _ _ D) in Ly.
              pose proof (wfm_task _ _ (wf_methods _ WP mm (nth_error_In _ _ Ej))) as Q. rewrite Ly in Q. congruence.
            - rewrite (d_lab_old _ _ _ _ _ D); auto. intros ->. rewrite (d_lab _ _ _ _ _ D) in Ly.
              pose proof (wfm_task _ _ (wf_methods _ WP mm (nth_error_In _ _ Ej))) as Q. rewrite Ly in Q. congruence. }
          assert (CF : forall (lab : tid -> nat) L0, count_occ Nat.eq_dec (map lab L0) t = length (filter (fun x => Nat.eqb (lab x) t) L0)).
          { intros lab L0. induction L0 as [|x L0 IH]; cbn; auto. destruct (Nat.eq_dec (lab x) t) as [->|NE].
            - rewrite Nat.eqb_refl. cbn. auto.
            - apply Nat.eqb_neq in NE. rewrite NE. auto. }
          rewrite !CF. apply NoDup_incl_length; [now apply NoDup_filter|]. intros x Hx. apply filter_In in Hx as [Hx Ex]. apply Nat.eqb_eq in Ex.
          apply filter_In. destruct (ST x) as [Q1 Q2]; [now apply IL|auto|]. split; [now apply IL'|]. now apply Nat.eqb_eq. }
      change (list_sum (map (fun e => (if Nat.ltb (fst e) (n_acts P) then cost_of P (fst e) else 0) * (snd e - 1)) (map (fun z => (Z.to_nat (fst z), Z.to_nat (snd z))) T)))
        with (list_sum (map (fun e => wt (fst e) * (snd e - 1)) (map (fun z => (Z.to_nat (fst z), Z.to_nat (snd z))) T))). lia.
    - intros fm lm ms plan Hc SV. apply In_nth_error in Hc as (j & Ej). apply omap_nth in ECS as (_ & _ & FC). destruct (FC j (fm, lm) Ej) as (c & Ec & Es).
      assert (Ic : In c cuts) by (eapply nth_error_In; eauto). destruct (split_cut_ok (n_acts P) c (CE c Ic)) as (fm' & lm' & Es' & Ll & Lf & _ & _ & A1 & A2).
      assert (fm' = fm /\ lm' = lm) as [-> ->] by (split; congruence). destruct (SR ms plan SV) as [R1 _]. destruct (LM c Ic _ R1) as (op & Io & Ic').
      apply in_app_or in Io as [Io|Io].
      + assert (Lo : op < n_acts P).
        { destruct SV as (tn' & L' & Rf & PR & (NL' & IL' & _) & -> & _). apply in_map_iff in Io as (x & <- & Hx). apply (wf_prim _ WP). apply PR. now apply IL'. }
        destruct (A1 op Ic' Lo) as (i & Li & Ei). exists i, op. auto.
      + apply in_map_iff in Io as (i & <- & Hi). apply in_rev in Hi. destruct (A2 i Ic') as (q & Lq & Eq). exists q, i. auto.
  Qed.
End LmCut.

(** C58: with LM-cut and the costs of the actions (estCOSTS, with the admissible correction or without it) the value of a node is
    defined, UNREACHABLE only if no plan solves the node, and otherwise at most the cost of every plan that solves the node. *)
Theorem rc_lmcut_admissible : forall P C last w l n s tn pi M m al q0 k,
  wf_problem P -> rc_input P -> connected P -> config_ok C -> n_acts P <= last ->
  history P C w l -> In n l -> Rep P (w_heap w) n s tn pi -> rows_updated P C last w n M ->
  rc_strips P 0 0 = Some m -> alloc_ok al -> HInv q0 -> k = CNone \/ k = CAdm ->
  exists r, rc_value P m (in_lmcut al q0) k M n = Some r /\
    match r with None => forall plan, ~ solves P s tn plan | Some (v, _) => forall plan, solves P s tn plan -> v <= plan_cost P plan end.
Proof.
  intros P C last w l n s tn pi M m al q0 k WP RI CN HC LA Hh Hn RP RU EM AO QO HK.
  destruct (lmcut_node P C last w l n s tn pi M 0 0 m al q0 k) as (r & E & H); auto; [destruct HK as [-> | ->]; exact I|].
  exists r. split; auto. destruct r as [[v cs]|]; auto. destruct H as (H1 & H2 & _). intros plan SV. apply solves_solves_by in SV as (ms & SV).
  destruct HK as [-> | ->]; [|eapply H2; eauto]. specialize (H1 ms plan SV eq_refl). change (v <= plan_cost P plan + 0) in H1. lia.
Qed.

(** The same for the other estimates, without correction: the value is at most the number of actions and method applications
    (cma = cra = 1, estDISTANCE), or the costs of the actions plus the number of method applications (cma = 1, cra = 0, estMIXED). *)
Theorem rc_lmcut_bound : forall P C last w l n s tn pi M cma cra m al q0 v cs ms plan,
  wf_problem P -> rc_input P -> connected P -> config_ok C -> n_acts P <= last ->
  history P C w l -> In n l -> Rep P (w_heap w) n s tn pi -> rows_updated P C last w n M ->
  rc_strips P cma cra = Some m -> alloc_ok al -> HInv q0 ->
  rc_value P m (in_lmcut al q0) CNone M n = Some (Some (v, cs)) -> solves_by P s tn ms plan ->
  v <= list_sum (map (fun a => if Nat.eqb cra 0 then cost_of P a else cra) plan) + cma * length ms.
Proof.
  intros P C last w l n s tn pi M cma cra m al q0 v cs ms plan WP RI CN HC LA Hh Hn RP RU EM AO QO EV SV.
  destruct (lmcut_node P C last w l n s tn pi M cma cra m al q0 CNone) as (r & E & H); auto.
  assert (r = Some (v, cs)) by congruence. subst r. destruct H as (H1 & _). auto.
Qed.

(** C59: every stored landmark (first method, entries) is a landmark of the node: each solution contains an action that is stored before
    the first method, or applies a method that is stored from there on. *)
Theorem rc_landmarks_sound : forall P C last w l n s tn pi M cma cra m al q0 k v cs fm lm ms plan,
  wf_problem P -> rc_input P -> connected P -> config_ok C -> n_acts P <= last ->
  history P C w l -> In n l -> Rep P (w_heap w) n s tn pi -> rows_updated P C last w n M ->
  rc_strips P cma cra = Some m -> alloc_ok al -> HInv q0 ->
  match k with CTable mi => length mi = length (p_prim P) | _ => True end ->
  rc_value P m (in_lmcut al q0) k M n = Some (Some (v, cs)) -> In (fm, lm) cs -> solves_by P s tn ms plan ->
  exists i x, nth_error lm i = Some (Z.of_nat x) /\ (i < fm /\ In x plan \/ fm <= i /\ In x ms).
Proof.
  intros P C last w l n s tn pi M cma cra m al q0 k v cs fm lm ms plan WP RI CN HC LA Hh Hn RP RU EM AO QO KO EV IC SV.
  destruct (lmcut_node P C last w l n s tn pi M cma cra m al q0 k) as (r & E & H); auto.
  assert (r = Some (v, cs)) by congruence. subst r. destruct H as (_ & _ & H). eauto.
Qed.

Module Ex.
  Import Reach_thm.Ex Relax_thm.Ex.

  Lemma input : rc_input prob.
  Proof.
    split.
    - intros t H. cbn in H. do 3 (destruct t as [|t]; [reflexivity|]). lia.
    - intros l [<-|[<-|[<-|[]]]]; constructor.
  Qed.
  Lemma conf_ok : config_ok conf.
  Proof. intros l. apply Permutation.Permutation_refl. Qed.

  (** Initial task 3 decomposed into [4; 3; 4]. *)
  Definition run : option (world * node * list (option (list nat))) :=
    SC <- calcSCCs (task_graph prob) 3 (repeat 0 6) (repeat 0 6) ;;
    R <- reach_table (task_graph prob) SC 3 ;;
    '(w0, n0) <- init_node prob ;;
    M0 <- update_reach R 3 (w_heap w0) (length (w_heap w0)) (repeat None (length (w_heap w0))) n0 ;;
    '(w1, n1) <- decompose prob conf 5 w0 n0 0 0 ;;
    M1 <- update_reach R 3 (w_heap w1) (length (w_heap w1)) (M0 ++ repeat None 3) n1 ;;
    Some (w1, n1, M1).

  Definition value (cma cra : nat) (k : correction) : option (option (nat * list (nat * list Z))) :=
    '(_, n, M) <- run ;; m <- rc_strips prob cma cra ;; rc_value prob m (in_lmcut al q0) k M n.

  (** Two landmarks {action 2}, {action 0, action 1}; with method costs also {methods 2, 3}, {methods 0, 1}. *)
  Example value_costs : value 0 0 CAdm = Some (Some (2, [(1, [2%Z]); (2, [0%Z; 1%Z])])).
  Proof. vm_compute. reflexivity. Qed.
  Example value_distance : value 1 1 CNone = Some (Some (4, [(1, [2%Z]); (2, [0%Z; 1%Z]); (0, [2%Z; 3%Z]); (0, [0%Z; 1%Z])])).
  Proof. vm_compute. reflexivity. Qed.
  (** The two tasks named 4 count twice. *)
  Example value_table : option_map (option_map fst) (value 1 1 (CTable [1; 1; 1; 2; 2; 2])) = Some (Some 6).
  Proof. vm_compute. reflexivity. Qed.

  (** All hypotheses of the theorems hold for this node. *)
  Lemma node_ex : exists w n M l s tn pi, run = Some (w, n, M) /\ history prob conf w l /\ In n l /\ Rep prob (w_heap w) n s tn pi /\
    rows_updated prob conf 3 w n M.
  Proof.
    destruct run as [[[w1 n1] M1]|] eqn:ER; [|vm_compute in ER; discriminate].
    pose proof ER as E. unfold run in E. apply obind_some in E as (SC & ES & E). apply obind_some in E as (R & ERT & E).
    apply obind_some in E as ([w0 n0] & E0 & E). apply obind_some in E as (M0 & EM0 & E). apply obind_some in E as ([w1' n1'] & ED & E).
    apply obind_some in E as (M1' & EM1 & E). injection E as -> -> ->.
    assert (H0 : history prob conf w0 [n0]) by now apply h_init.
    assert (H1 : history prob conf w1 [n1; n0]).
    { apply (h_decompose prob conf w0 [n0] n0 0 0 3 0 5); auto; try (injection E0 as <- <-; reflexivity); [now left|now left]. }
    destruct (history_represents prob conf w0 [n0] n0 wf conf_ok H0 (or_introl eq_refl)) as (s0 & tn0 & pi0 & RP0 & _).
    destruct (history_represents prob conf w1 [n1; n0] n1 wf conf_ok H1 (or_introl eq_refl)) as (s & tn & pi & RP & _).
    exists w1, n1, M1, [n1; n0], s, tn, pi. split; auto. split; auto. split; [now left|]. split; auto.
    exists (repeat 0 6), (repeat 0 6), SC, R, (M0 ++ repeat None 3). split; auto. split; auto. split; auto. split; auto. split; auto.
    assert (G : w_heap w1 = w_heap w0 ++ skipn 1 (w_heap w1) /\ length (skipn 1 (w_heap w1)) = 3).
    { injection E0 as <- <-. vm_compute in ED. injection ED as <- _. split; reflexivity. }
    destruct G as [G1 G2]. replace (repeat (@None (list nat)) 3) with (repeat (@None (list nat)) (length (skipn 1 (w_heap w1)))) by now rewrite G2. eapply sr_grow; eauto. eapply sr_update; eauto. eapply sr_start; eauto.
  Qed.

  Example admissible_applies : exists w n M l s tn pi r m, run = Some (w, n, M) /\ history prob conf w l /\ Rep prob (w_heap w) n s tn pi /\
    rc_strips prob 0 0 = Some m /\ rc_value prob m (in_lmcut al q0) CAdm M n = Some r /\
    match r with None => forall plan, ~ solves prob s tn plan | Some (v, _) => forall plan, solves prob s tn plan -> v <= plan_cost prob plan end.
  Proof.
    destruct node_ex as (w & n & M & l & s & tn & pi & E & Hh & Hn & RP & RU). destruct (rc_model_wf prob 0 0 wf input) as (m & Em & _).
    destruct (rc_lmcut_admissible prob conf 3 w l n s tn pi M m al q0 CAdm) as (r & Er & H); auto using wf, input, prob_connected, conf_ok, al_ok, q0_ok.
    exists w, n, M, l, s, tn, pi, r, m. auto 10.
  Qed.

  (** A dead end: the goal fact 0 is not added by the actions. *)
  Definition prob_d : problem :=
    {| p_nfacts := 1; p_prim := p_prim prob; p_prec := p_prec prob; p_add := [[]; []; []]; p_del := p_del prob; p_cost := p_cost prob;
       p_methods := p_methods prob; p_init := 3; p_s0 := []; p_goal := [0] |}.
  Example dead_ex : ('(_, n, M) <- run ;; m <- rc_strips prob_d 1 1 ;; rc_value prob_d m (in_aff al sasFF q0 (repeat None 10)) CNone M n) = Some None.
  Proof. vm_compute. reflexivity. Qed.
End Ex.

Print Assumptions rc_model_wf.
Print Assumptions rc_dead_end_safe.
Print Assumptions rc_dead_ends_ok.
Print Assumptions rc_lmcut_admissible.
Print Assumptions rc_lmcut_bound.
Print Assumptions rc_landmarks_sound.
