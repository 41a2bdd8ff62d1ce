(** The formula with a cost bound, and the optimisation loop. *)
From Coq Require Import ZArith Permutation.
From Verif Require Import Base Htn_problem Htn_spec Htn_proof To_spec To_sem Sat_model Sat_spec Sat_proof Sf_model Sf_spec Sf_proof Inv_model Inv_spec Inv_close Inv_thm Pdt_model Pdt_spec Pdt_tree Pdt_expand Pdt_leafs Pdt_prune Pdt_round Pdt_main Pdt_thm Mx_model Mx_spec Mx_prune Mx_main Mx_thm
  Opt_spec Opt_model Opt_proof.
Local Open Scope Z_scope.

Section Start.
  Existing Instance to_kind.
Lemma sinv_mono P T nv nv' : nv <= nv' -> sinv P (T, nv) -> sinv P (T, nv').
Proof. intros L [I1 I2 I3 I4 I5 I6]. cbn [fst snd] in *. constructor; cbn [fst snd]; auto; [|lia]. intros x Hx. specialize (I4 x Hx). lia. Qed.
Lemma start_from P nv : nth_error (p_prim P) (p_init P) = Some false -> 0 <= nv -> sinv P (pdt_root P, nv).
Proof. intros AB L. apply (sinv_mono P (pdt_root P) 0 nv L). now apply start_ok. Qed.

End Start.

Section Main.
  Existing Instance to_kind.
  Variables (P : problem) (C : sconf) (M : mconf) (cost : list nat).
  Hypothesis WF : wf_problem P.
  Hypothesis CO : conf_ok P C.
  Hypothesis AB : nth_error (p_prim P) (p_init P) = Some false.
  Hypothesis ORD : forall l, Permutation (m_order M l) l.
  Hypothesis IO : input_fine P M.
  Hypothesis VEC : m_mode M = PH2 -> m_mutex M = true.
  Variable bi : list (list Z).
  Hypothesis BI : all_invariants (m_order M) P (m_input M) (m_mutex M) = Some bi.
  Hypothesis CL : length cost = length (p_cost P).
  Lemma OB : bi_ok (p_nfacts P) bi.
  Proof. exact (table_ok P M WF ORD IO bi BI). Qed.

  (** At most one action per leaf is true; the variables of the leaves are in use. *)
  Lemma full_leaves depth st T' nv cl : sinv P st -> create_full P C M bi depth st = Some (T', nv, Some cl) ->
    (forall l, In l (atoms T') -> leaf_ok cost nv l) /\ forall v, satisfies v cl -> one_each v (atoms T').
  Proof.
    destruct st as [t0 nv0]. intros SI E. destruct (round_expand P C WF CO depth t0 nv0 SI) as (T & E1 & SI' & DP). destruct (prune_full_ok P T WF (si_to _ _ SI') (m_mode M) (m_mutex M) bi OB VEC) as (F & al & E2 & OA & CLO & LA & KEEP).
    assert (RD := round_assign P T nv0 F SI' CLO LA). unfold create_full in E. rewrite E1 in E. cbn [obind] in E. rewrite E2 in E. cbn [obind] in E.
    destruct (marked F (IA [] 0)) eqn:EM; [discriminate|]. apply marked_out in EM. destruct (assign P F T [] nv0) as [T1 n0] eqn:EA. destruct (RD T1 n0 eq_refl) as [R LE].
    destruct (clauses_ok P C WF CO T F T1 n0 R (m_bc M) EM) as (c1 & nv2 & r & blocks & c3 & nv3 & Q1 & Q2 & Q3 & Q4 & Q5 & N2 & STT & V & SND & CPL). rewrite Q1 in E. cbn [obind] in E. rewrite Q2 in E. cbn [obind] in E. fold (atoms T1) in E. rewrite Q3 in E. cbn [obind] in E. rewrite Q4 in E. cbn [obind vlit] in E.
    assert (N3 : nv3 = sf_base P nv2 (S (length blocks)) - 1). { unfold state_formula in Q4. destruct blocks; [discriminate|]. apply obind_some in Q4 as (cs & _ & Q4). apply some_eq, pair_equal_spec in Q4 as [_ Q4]. exact Q4. }
    destruct (if m_mutex M then mutex_formula P (s_bits C) (m_order M) (m_input M) bi al nv2 (length blocks) nv3 else ([], nv3)) as [c4 nv4] eqn:E4.
    assert (L4 : nv3 <= nv4).
    { assert (OB' := OB). clear BI. destruct (m_mutex M).
      - destruct (Mx_clause.mutex_encodes P (s_bits C) (m_order M) (m_input M) bi al nv2 (length blocks) nv3 c4 nv4 (ok_bits _ _ CO) ORD IO OB' OA N2) as [L4 _ _ _]; auto. lia.
      - apply pair_equal_spec in E4 as [_ <-]. lia. }
    apply some_eq, pair_equal_spec in E as [E Ecl]. apply pair_equal_spec in E as [ET EN]. subst T1 nv. apply some_eq in Ecl. subst cl. split.
    - intros l Hl x Hx. destruct (atoms_act P T F T' n0 R l x Hl Hx) as (B & PR & _). split; [lia|]. rewrite CL. now apply (wf_prim _ WF).
    - intros v S. rewrite !app_assoc, sat_app, <- !app_assoc in S. destruct S as [S _]. destruct (SND v S) as (U & N & _). exact (unique_leaf P T F T' n0 R v U N).
  Qed.

  (** A plan that is derived with at most [depth] nested methods, and works. *)
  Definition good_plan (depth : nat) (plan : list nat) : Prop :=
    (exists h, (h <= depth)%nat /\ derives P h (p_init P) plan) /\ executable P (initial_state P) plan /\ goal_state P (after P (initial_state P) plan) /\ consistent P plan /\ input_true P M plan.

  Lemma cost_ok K cf depth st : (0 < cf)%nat -> -1 <= Z.quot K (Z.of_nat cf) -> sinv P st -> exists T' nv o, create_cost P C M cost bi K cf depth st = Some (T', nv, o) /\ sinv P (T', nv) /\
    (forall cl, o = Some cl -> (forall c l, In c cl -> In l c -> 1 <= Z.abs l <= nv) /\
       forall v, satisfies v cl -> solution P (sat_plan v T') /\ (0 <= Z.quot K (Z.of_nat cf) -> Z.of_nat (unit_cost cf cost (sat_plan v T')) <= Z.quot K (Z.of_nat cf))) /\
    (forall plan, good_plan depth plan -> Z.quot K (Z.of_nat cf) < 0 \/ Z.of_nat (unit_cost cf cost plan) <= Z.quot K (Z.of_nat cf) -> exists cl v, o = Some cl /\ satisfies v cl /\ sat_plan v T' = plan).
  Proof.
    intros CF KQ SI. destruct (full_ok P C M bi WF CO ORD IO OB VEC depth st SI) as (T & nv & o & E & SI' & [SA SC]). unfold create_cost. rewrite E. cbn [obind]. destruct o as [cl|].
    - destruct (full_leaves depth st T nv cl SI E) as [LO OE]. assert (N0 := si_nv _ _ SI'). cbn [snd] in N0. change (map (fun x => leaf_atoms (snd x)) (leafs T [])) with (atoms T).
      destruct (bound_ok cost cf nv CF N0 (Z.quot K (Z.of_nat cf)) (atoms T) nv KQ (Z.le_refl _) LO) as (cs & vs & nv5 & ck & nv6 & E1 & E2 & L6 & V6 & S6 & K6). rewrite E1. cbn [obind]. rewrite E2.
      eexists _, _, _. split; [reflexivity|]. split; [apply (sinv_mono P T nv); auto|]. split.
      + intros cl' Ecl. apply some_eq in Ecl. subst cl'. destruct SA as [SV SS]. split.
        * intros c l Hc Hl. apply in_app_or in Hc as [Hc|Hc]; [specialize (SV c l Hc Hl); lia|exact (V6 c l Hc Hl)].
        * intros v S. apply sat_app in S as [S1 S2]. split; [apply (derives_solution P WF (conf_linear P C CO)); exact (SS v S1)|]. intros KP. rewrite <- plan_chosen. apply (S6 KP v S2). now apply OE.
      + intros plan ((h & Lh & D) & EX & GO & CN & IT) B. destruct (SC plan h Lh D CN EX GO (plan_believes P M WF ORD IO bi BI plan EX CN IT)) as (cl' & v & Ecl & S & Ep). apply some_eq in Ecl. subst cl'.
        destruct (K6 v (OE v S)) as (w & W1 & W2); [now rewrite plan_chosen, Ep|]. assert (AG : agree nv v w) by (intros x Hx; symmetry; apply W1; lia). eexists _, w. split; [reflexivity|]. split.
        * apply sat_app. split; auto. apply (sat_agree nv v w); auto. exact (proj1 SA).
        * rewrite <- Ep, <- !plan_chosen. symmetry. apply (chosen_same cost nv); auto.
    - exists T, nv, None. split; auto. split; auto. split; [discriminate|]. intros plan ((h & Lh & D) & EX & GO & CN & IT) _. destruct (SC plan h Lh D CN EX GO (plan_believes P M WF ORD IO bi BI plan EX CN IT)) as (cl' & v & Ecl & _). discriminate.
  Qed.

  (** ** The loop *)
  Record oinv (s : ostate) : Prop := {
    oi_st : sinv P (o_st s);
    oi_cf : o_cf s = 1%nat \/ o_cf s = 1000%nat;
    oi_max : -1 <= o_max s;
    oi_last : (o_last s <= o_depth s)%nat }.
  Lemma quot_bound s : oinv s -> -1 <= Z.quot (o_max s) (Z.of_nat (o_cf s)).
  Proof.
    intros [_ [->| ->] Q _]; [now rewrite Z.quot_1_r|]. destruct (Z.eq_dec (o_max s) (-1)) as [->|]; [cbn; lia|]. assert (0 <= Z.quot (o_max s) (Z.of_nat 1000)); [|lia]. apply Z.quot_pos; lia.
  Qed.

  Variable solver : list clause -> option (Z -> bool).
  Hypothesis SO : solver_ok solver.

  (** One iteration. *)
  Lemma step_ok s : oinv s -> exists s' o, opt_step P C M cost solver bi s = Some (s', o) /\ oinv s' /\
    match o with
    | Some plan => solution P plan /\ o_depth s' = o_depth s /\ o_last s' = o_depth s /\ o_cf s' = (if (plan_cost cost plan <? 1000)%nat then 1%nat else o_cf s) /\ o_max s' = Z.of_nat (plan_cost cost plan) - Z.of_nat (o_cf s') /\
        (0 <= Z.quot (o_max s) (Z.of_nat (o_cf s)) -> Z.of_nat (unit_cost (o_cf s) cost plan) <= Z.quot (o_max s) (Z.of_nat (o_cf s)))
    | None => o_depth s' = S (o_depth s) /\ o_cf s' = o_cf s /\ o_max s' = o_max s /\ o_last s' = o_last s /\
        forall plan, good_plan (o_depth s) plan -> 0 <= Z.quot (o_max s) (Z.of_nat (o_cf s)) < Z.of_nat (unit_cost (o_cf s) cost plan)
    end.
  Proof.
    intros I. assert (CF : (0 < o_cf s)%nat) by (destruct (oi_cf _ I) as [->| ->]; lia).
    destruct (cost_ok (o_max s) (o_cf s) (o_depth s) (o_st s) CF (quot_bound s I) (oi_st _ I)) as (T & nv & o & E & SI & SND & CPL). unfold opt_step. rewrite E. cbn [obind].
    destruct (match o with Some cl => solver cl | None => None end) as [v|] eqn:EV.
    - destruct o as [cl|]; [|discriminate]. assert (S := SO cl). rewrite EV in S. destruct (proj2 (SND cl eq_refl) v S) as [S1 S2]. rewrite !solution_plan_cost. eexists _, _. split; [reflexivity|].
      assert (OC : (if (plan_cost cost (sat_plan v T) <? 1000)%nat then 1%nat else o_cf s) = 1%nat \/ (if (plan_cost cost (sat_plan v T) <? 1000)%nat then 1%nat else o_cf s) = 1000%nat /\ (1000 <= plan_cost cost (sat_plan v T))%nat).
      { destruct (Nat.ltb_spec (plan_cost cost (sat_plan v T)) 1000) as [L|L]; [now left|]. destruct (oi_cf _ I) as [->| ->]; auto. }
      split; [constructor; cbn [o_st o_cf o_max o_last o_depth]|].
      + apply start_from; [exact AB|exact (si_nv _ _ SI)].
      + destruct OC as [->|[-> _]]; auto.
      + destruct OC as [->|[-> L]]; lia.
      + lia.
      + cbn [o_depth o_last o_cf o_max]. auto 10.
    - assert (NS : (S (o_depth s) + 15 <? o_last s)%nat = false). { apply Nat.ltb_ge. assert (Q := oi_last _ I). lia. } rewrite NS. eexists _, _. split; [reflexivity|]. split; [constructor; cbn [o_st o_cf o_max o_last o_depth]|].
      + exact SI.
      + apply I.
      + apply I.
      + assert (Q := oi_last _ I). lia.
      + cbn [o_depth o_last o_cf o_max]. split; auto. split; auto. split; auto. split; auto. intros plan G.
        destruct (Z.lt_ge_cases (Z.quot (o_max s) (Z.of_nat (o_cf s))) 0) as [KN|KP]; [|destruct (Z.lt_ge_cases (Z.quot (o_max s) (Z.of_nat (o_cf s))) (Z.of_nat (unit_cost (o_cf s) cost plan))) as [KL|KG]; auto].
        * exfalso. destruct (CPL plan G (or_introl KN)) as (cl & v & -> & S & _). assert (Q := SO cl). rewrite EV in Q. exact (Q v S).
        * exfalso. destruct (CPL plan G (or_intror KG)) as (cl & v & -> & S & _). assert (Q := SO cl). rewrite EV in Q. exact (Q v S).
  Qed.
  (** With unit 1 the latest bound is the cost of a printed plan minus one; once a printed plan costs less than 1000, the unit is 1. *)
  Definition known (s : ostate) (ps : list (list nat)) : Prop :=
    (o_cf s = 1%nat -> exists plan, In plan ps /\ o_max s = Z.of_nat (plan_cost cost plan) - 1) /\
    (forall plan, In plan ps -> (plan_cost cost plan < 1000)%nat -> o_cf s = 1%nat).
  Lemma run_ok rounds s0 : oinv s0 -> o_cf s0 = 1000%nat -> exists s ps, opt_run P C M cost solver bi rounds s0 = Some (s, ps) /\ oinv s /\ known s ps /\ (o_depth s0 <= o_depth s)%nat /\ forall plan, In plan ps -> solution P plan.
  Proof.
    intros I0 CF0. induction rounds as [|n (s & ps & E & I & [KN1 KN2] & LD & SOL)]; [exists s0, []; split; auto; split; auto; split; [|split; auto; intros plan []]; split; [intros X; rewrite CF0 in X; discriminate|intros plan []]|].
    cbn [opt_run]. rewrite E. cbn [obind]. destruct (step_ok s I) as (s' & o & E' & I' & K). rewrite E'. cbn [obind]. eexists _, _. split; [reflexivity|]. split; auto. destruct o as [plan|].
    - destruct K as (K1 & K2 & K3 & K4 & K5 & K6). split; [split|split; [lia|]].
      + intros X. exists plan. split; [now left|]. rewrite K5, X. reflexivity.
      + intros q [<-|Hq] Lq; rewrite K4; [apply Nat.ltb_lt in Lq; now rewrite Lq|]. destruct (plan_cost cost plan <? 1000)%nat; auto. exact (KN2 q Hq Lq).
      + intros q [<-|Hq]; auto.
    - destruct K as (K1 & K2 & K3 & K4 & K5). split; [split|split; [lia|auto]].
      + rewrite K2, K3. exact KN1.
      + rewrite K2. exact KN2.
  Qed.
  Lemma run_more k rounds s0 s ps : opt_run P C M cost solver bi rounds s0 = Some (s, ps) -> opt_run P C M cost solver bi (k + rounds) s0 = ('(s', ps') <- opt_run P C M cost solver bi k s ;; Some (s', ps' ++ ps)).
  Proof.
    intros E. induction k as [|k IH]; [exact E|]. cbn [Nat.add opt_run]. rewrite IH. destruct (opt_run P C M cost solver bi k s) as [[s1 ps1]|]; auto. cbn [obind]. destruct (opt_step P C M cost solver bi s1) as [[s2 [p|]]|]; auto.
  Qed.
  Lemma run_grows k rounds s0 : oinv s0 -> o_cf s0 = 1000%nat -> (rounds <= k)%nat -> exists s ps s' ps', opt_run P C M cost solver bi rounds s0 = Some (s, ps) /\ opt_run P C M cost solver bi k s0 = Some (s', ps') /\ incl ps ps'.
  Proof.
    intros I0 CF L. induction L as [|k L (s & ps & s' & ps' & E & E' & IN)].
    - destruct (run_ok rounds s0 I0 CF) as (s & ps & E & _). exists s, ps, s, ps. split; auto. split; auto. apply incl_refl.
    - destruct (run_ok (S k) s0 I0 CF) as (s1 & ps1 & E1 & _). exists s, ps, s1, ps1. split; auto. split; auto. cbn [opt_run] in E1. rewrite E' in E1. cbn [obind] in E1. destruct (opt_step P C M cost solver bi s') as [[s2 o]|]; [|discriminate]. cbn [obind] in E1. injection E1 as <- <-. destruct o; auto. intros x Hx. right. auto.
  Qed.
  (** From a state with unit 1 every solution is eventually matched. *)
  Lemma run_matches goal depth : good_plan depth goal -> forall w rounds s0 s ps, oinv s0 -> o_cf s0 = 1000%nat -> opt_run P C M cost solver bi rounds s0 = Some (s, ps) -> o_cf s = 1%nat ->
    ((depth - o_depth s) + Z.to_nat (o_max s + 1) <= w)%nat ->
    exists r s' ps', opt_run P C M cost solver bi r s0 = Some (s', ps') /\ exists plan, In plan ps' /\ (plan_cost cost plan <= plan_cost cost goal)%nat.
  Proof.
    intros G. induction w as [|w IH]; intros rounds s0 s ps I0 C0 E C1 LW; destruct (run_ok rounds s0 I0 C0) as (s1 & ps1 & E1 & I & [KN _] & _); rewrite E in E1; apply some_eq, pair_equal_spec in E1 as [Q1 Q2]; subst s1 ps1; destruct (KN C1) as (best & B1 & B2).
    - exists rounds, s, ps. split; auto. exists best. split; auto. assert (Q := oi_max _ I). lia.
    - destruct (Z.lt_ge_cases (o_max s) (Z.of_nat (plan_cost cost goal))) as [L|L]; [exists rounds, s, ps; split; auto; exists best; split; auto; lia|].
      destruct (step_ok s I) as (s' & o & E' & I' & K).
      assert (E2 : opt_run P C M cost solver bi (S rounds) s0 = Some (s', match o with Some plan => plan :: ps | None => ps end)) by (cbn [opt_run]; rewrite E; cbn [obind]; rewrite E'; reflexivity).
      destruct o as [plan|].
      + destruct K as (K1 & K2 & K3 & K4 & K5 & K6). assert (C2 : o_cf s' = 1%nat) by (rewrite K4, C1; destruct (_ <? _)%nat; auto). rewrite C1, Z.quot_1_r, unit_one in K6. specialize (K6 ltac:(lia)).
        apply (IH (S rounds) s0 s' _ I0 C0 E2 C2). rewrite K5, C2, K2. lia.
      + destruct K as (K1 & K2 & K3 & K4 & K5). apply (IH (S rounds) s0 s' _ I0 C0 E2); [congruence|]. rewrite K1, K3. destruct (Nat.le_gt_cases depth (o_depth s)) as [D|D]; [|lia]. exfalso.
        assert (G' : good_plan (o_depth s) goal). { destruct G as ((h & Lh & D') & G'). split; auto. exists h. split; auto. lia. }
        specialize (K5 goal G'). rewrite C1, Z.quot_1_r, unit_one in K5. lia.
  Qed.

  (** ** The first plan *)
  Lemma first_is_full rounds : forall depth st, full_search P C M solver bi rounds depth st = (r <- first_search P C M solver bi rounds depth st ;; Some (option_map (fun x => fst (fst x)) r)).
  Proof.
    induction rounds as [|n IH]; intros depth st; auto. cbn [full_search first_search]. destruct (create_full P C M bi depth st) as [[[T nv] o]|]; auto. cbn [obind]. destruct (match o with Some cl => solver cl | None => None end); auto.
  Qed.
  Lemma first_nv rounds : forall depth st plan d nv, sinv P st -> first_search P C M solver bi rounds depth st = Some (Some (plan, d, nv)) -> 0 <= nv.
  Proof.
    induction rounds as [|n IH]; intros depth st plan d nv SI E; [discriminate|]. cbn [first_search] in E. destruct (full_ok P C M bi WF CO ORD IO OB VEC depth st SI) as (T & nv1 & o & E1 & SI' & _). rewrite E1 in E. cbn [obind] in E.
    destruct (match o with Some cl => solver cl | None => None end).
    - apply some_eq in E. injection E as _ _ <-. exact (si_nv _ _ SI').
    - exact (IH _ _ plan d nv SI' E).
  Qed.
  Lemma opt_start_ok nv d c : 0 <= nv -> oinv (opt_start P nv d c).
  Proof. clear -AB. intros N. constructor; cbn [opt_start o_st o_cf o_max o_last o_depth]; auto; [now apply start_from|lia]. Qed.
End Main.
