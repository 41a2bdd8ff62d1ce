(** Properties C169-C176: the cost bound of the SAT encoding and the optimisation loop. *)
From Coq Require Import ZArith Permutation Sorting.Sorted Relation_Operators.
From Verif Require Import Base Htn_problem Htn_spec Htn_proof Htn_check To_spec To_sem Sat_model Sat_spec Sf_model Sf_spec Sf_proof Inv_model Inv_spec Inv_close Inv_thm Pdt_model Pdt_spec Pdt_expand Pdt_round Pdt_main Pdt_thm Mx_model Mx_spec Mx_main Mx_thm Opt_spec Opt_model Opt_proof Opt_main.
#[local] Existing Instance to_kind.

(** What is assumed about the input: a well-formed totally ordered problem, a sound set of mutex groups (as in C73 and C74), a cost for every action. *)
Definition planner_input (P : problem) (C : sconf) (M : mconf) (cost : list nat) (bi : list (list Z)) : Prop :=
  wf_problem P /\ conf_ok P C /\ nth_error (p_prim P) (p_init P) = Some false /\ (forall l, Permutation (m_order M l) l) /\ input_fine P M /\ (m_mode M = PH2 -> m_mutex M = true) /\
  all_invariants (m_order M) P (m_input M) (m_mutex M) = Some bi /\ length cost = length (p_cost P).

(** C169: the formula with a cost bound is defined, and the plan of a model solves the problem and costs, every action rounded down to whole units, at most the bound; with unit 1 the
    plan costs at most the bound, otherwise at most the bound and a unit minus one for every action. *)
Theorem cost_formula_sound P C M cost bi K cf depth nv :
  planner_input P C M cost bi -> (0 < cf) -> (0 <= nv)%Z ->
  exists T nv' o, create_cost P C M cost bi (Z.of_nat K) cf depth (pdt_root P, nv) = Some (T, nv', o) /\
    forall cl, o = Some cl -> (forall c l, In c cl -> In l c -> (1 <= Z.abs l <= nv')%Z) /\
      forall v, satisfies v cl -> solution P (sat_plan v T) /\ unit_cost cf cost (sat_plan v T) <= K / cf /\ plan_cost cost (sat_plan v T) <= K + (cf - 1) * length (sat_plan v T) /\
        (cf = 1 -> plan_cost cost (sat_plan v T) <= K).
Proof.
  intros (WF & CO & AB & ORD & IO & VEC & BI & CL) CF NV. assert (Q : Z.quot (Z.of_nat K) (Z.of_nat cf) = Z.of_nat (K / cf)) by (rewrite Z.quot_div_nonneg by lia; now rewrite Nat2Z.inj_div).
  destruct (cost_ok P C M cost WF CO ORD IO VEC bi BI CL (Z.of_nat K) cf depth (pdt_root P, nv) CF ltac:(lia) (start_from P nv AB NV)) as (T & nv' & o & E & _ & S & _). exists T, nv', o. split; auto. intros cl Ecl. destruct (S cl Ecl) as [S1 S2]. split; auto.
  intros v H. destruct (S2 v H) as [S3 S4]. rewrite Q in S4. specialize (S4 ltac:(lia)). split; auto. split; [lia|]. assert (UA := unit_above cf cost (sat_plan v T) CF). assert (DM := Nat.mul_div_le K cf ltac:(lia)). split; [nia|]. intros ->. rewrite unit_one, Nat.div_1_r in S4. lia.
Qed.

(** C170: a plan that is derived within the depth and costs at most the bound is the plan of a model: if the formula has no model, all such plans cost more. *)
Theorem cost_formula_complete P C M cost bi K cf depth nv plan h :
  planner_input P C M cost bi -> (0 < cf) -> (0 <= nv)%Z ->
  h <= depth -> derives P h (p_init P) plan -> executable P (initial_state P) plan -> goal_state P (after P (initial_state P) plan) -> consistent P plan -> input_true P M plan ->
  plan_cost cost plan <= K ->
  exists T nv' cl v, create_cost P C M cost bi (Z.of_nat K) cf depth (pdt_root P, nv) = Some (T, nv', Some cl) /\ satisfies v cl /\ sat_plan v T = plan.
Proof.
  intros (WF & CO & AB & ORD & IO & VEC & BI & CL) CF NV Lh D EX GO CN IT LK. assert (Q : Z.quot (Z.of_nat K) (Z.of_nat cf) = Z.of_nat (K / cf)) by (rewrite Z.quot_div_nonneg by lia; now rewrite Nat2Z.inj_div).
  destruct (cost_ok P C M cost WF CO ORD IO VEC bi BI CL (Z.of_nat K) cf depth (pdt_root P, nv) CF ltac:(lia) (start_from P nv AB NV)) as (T & nv' & o & E & _ & _ & S).
  destruct (S plan) as (cl & v & -> & S1 & S2); [split; eauto|right; rewrite Q; apply inj_le; assert (UB := unit_below cf cost plan CF); apply Nat.div_le_lower_bound; lia|]. exists T, nv', cl, v. auto.
Qed.

(** C171: every plan that the optimising planner prints solves the problem, however long it runs; the first one is the plan that is printed without optimisation. *)
Theorem optimiser_sound P C M cost bi solver r1 r2 :
  planner_input P C M cost bi -> solver_ok solver ->
  exists ps, solve_opt P C M cost solver r1 r2 = Some ps /\ (forall plan, In plan ps -> solution P plan) /\
    forall first, solve_full P C M solver r1 = Some (Some first) -> exists qs, ps = qs ++ [first].
Proof.
  intros (WF & CO & AB & ORD & IO & VEC & BI & CL) SO. destruct (full_search_ok P C M WF CO ORD IO VEC bi BI solver r1 SO 1 (pdt_root P, 0%Z) (start_ok P AB)) as (r & E & S & _). unfold solve_opt, solve_full. rewrite BI. cbn [obind]. rewrite E. rewrite first_is_full in E.
  destruct (first_search P C M solver bi r1 1 (pdt_root P, 0%Z)) as [[[[plan d] nv]|]|] eqn:EF; [| |discriminate]; cbn [obind option_map] in E |- *; apply some_eq in E; subst r; cbn [fst] in *.
  - assert (NV := first_nv P C M WF CO ORD IO VEC bi BI solver r1 1 _ plan d nv (start_ok P AB) EF).
    destruct (run_ok P C M cost WF CO AB ORD IO VEC bi BI CL solver SO r2 (opt_start P nv d (solution_cost cost plan)) (opt_start_ok P AB nv d _ NV) eq_refl) as (s & ps & E2 & _ & _ & _ & SOL). rewrite E2. cbn [obind]. eexists. split; [reflexivity|]. split.
    + intros q Hq. apply in_app_or in Hq as [Hq|[<-|[]]]; auto.
    + intros first Ef. apply some_eq, some_eq in Ef. subst first. eauto.
  - exists []. split; auto. split; [intros plan []|]. intros first Ef. discriminate.
Qed.

(** C172: if all solutions cost less than 1000, the optimising planner eventually prints a plan that costs at most as much as any given solution; so the cheapest printed plan becomes optimal
    (for the costs that it uses). *)
Theorem optimiser_optimal P C M cost bi solver goal :
  planner_input P C M cost bi -> solver_ok solver ->
  (forall plan, solution P plan -> plan_cost cost plan < 1000) ->
  solution P goal -> consistent P goal -> input_true P M goal ->
  exists r0, forall r1, r0 <= r1 -> exists r, forall r2, r <= r2 -> exists ps, solve_opt P C M cost solver r1 r2 = Some ps /\ exists plan, In plan ps /\ plan_cost cost plan <= plan_cost cost goal.
Proof.
  intros (WF & CO & AB & ORD & IO & VEC & BI & CL) SO SM SG CN IT. destruct (full_planner_complete P C M bi solver goal WF CO AB ORD IO VEC BI SO SG CN IT) as (r0 & R0). exists r0. intros r1 L1. destruct (R0 r1 L1) as (first & EF & _).
  unfold solve_full in EF. rewrite BI in EF. cbn [obind] in EF. rewrite first_is_full in EF. unfold solve_opt. rewrite BI. cbn [obind].
  destruct (first_search P C M solver bi r1 1 (pdt_root P, 0%Z)) as [[[[plan d] nv]|]|] eqn:EF'; [|discriminate|discriminate]. cbn [obind option_map fst] in EF |- *. apply some_eq, some_eq in EF. subst plan.
  assert (NV := first_nv P C M WF CO ORD IO VEC bi BI solver r1 1 _ first d nv (start_ok P AB) EF'). set (s0 := opt_start P nv d (solution_cost cost first)). assert (I0 : oinv P s0) by exact (opt_start_ok P AB nv d _ NV).
  apply (derives_solution P WF (conf_linear P C CO)) in SG as SG'. destruct SG' as ((h & D) & EX & GO). assert (GP : good_plan P M h goal) by (split; eauto).
  assert (Z : exists r s ps, opt_run P C M cost solver bi r s0 = Some (s, ps) /\ exists plan, In plan ps /\ plan_cost cost plan <= plan_cost cost goal).
  { assert (RUN := run_ok P C M cost WF CO AB ORD IO VEC bi BI CL solver SO).
    assert (F : forall w r s ps, opt_run P C M cost solver bi r s0 = Some (s, ps) -> h - o_depth s <= w -> exists r s ps, opt_run P C M cost solver bi r s0 = Some (s, ps) /\ o_cf s = 1).
    { induction w as [|w IH]; intros r s ps E LW; destruct (RUN r s0 I0 eq_refl) as (s1 & ps1 & E1 & I & [_ KN] & _ & SOL); rewrite E in E1; apply some_eq, pair_equal_spec in E1 as [Q1 Q2]; subst s1 ps1;
      (destruct (step_ok P C M cost WF CO AB ORD IO VEC bi BI CL solver SO s I) as (s' & o & E' & I' & K);
      assert (E2 : opt_run P C M cost solver bi (S r) s0 = Some (s', match o with Some plan => plan :: ps | None => ps end)) by (cbn [opt_run]; rewrite E; cbn [obind]; rewrite E'; reflexivity);
      destruct o as [plan|]; [exists (S r); eexists _, _; split; [exact E2|]; destruct K as (K1 & _ & _ & K4 & _); specialize (SM plan K1); apply Nat.ltb_lt in SM; now rewrite SM in K4|]; destruct K as (K1 & K2 & K3 & _ & K5)).
      - destruct (oi_cf _ _ I) as [C1|C1]; [eauto|]. exfalso. assert (G' : good_plan P M (o_depth s) goal). { destruct GP as ((h' & Lh & D') & G'). split; auto. exists h'. split; auto. lia. }
        specialize (K5 goal G'). assert (U := unit_below 1000 cost goal ltac:(lia)). rewrite C1 in K5. assert (B := SM goal SG). lia.
      - destruct (oi_cf _ _ I) as [C1|C1]; [eauto|]. destruct (Nat.le_gt_cases h (o_depth s)) as [L|L].
        + exfalso. assert (G' : good_plan P M (o_depth s) goal). { destruct GP as ((h' & Lh & D') & G'). split; auto. exists h'. split; auto. lia. }
          specialize (K5 goal G'). assert (U := unit_below 1000 cost goal ltac:(lia)). rewrite C1 in K5. assert (B := SM goal SG). lia.
        + apply (IH (S r) s' ps E2). lia. }
    destruct (F (h - d) 0 s0 [] eq_refl) as (r & s & ps & E & C1); [cbn; lia|].
    exact (run_matches P C M cost WF CO AB ORD IO VEC bi BI CL solver SO goal h GP _ r s0 s ps I0 eq_refl E C1 (Nat.le_refl _)). }
  destruct Z as (r & s & ps & E & plan & H1 & H2). exists r. intros r2 L2. destruct (run_grows P C M cost WF CO AB ORD IO VEC bi BI CL solver SO r2 r s0 I0 eq_refl L2) as (s1 & ps1 & s2 & ps2 & E1 & E2 & IN). rewrite E in E1. apply some_eq, pair_equal_spec in E1 as [Q1 Q2]. subst s1 ps1.
  rewrite E2. cbn [obind]. eexists. split; [reflexivity|]. exists plan. split; auto. apply in_or_app. left. auto.
Qed.

(** C173: in every state of the optimisation with cost unit 1, a plan that is printed next is cheaper than one that was printed before, unless that one costs nothing. *)
Theorem optimiser_progress P C M cost bi solver nv depth c rounds s ps s' plan :
  planner_input P C M cost bi -> solver_ok solver -> (0 <= nv)%Z ->
  opt_run P C M cost solver bi rounds (opt_start P nv depth c) = Some (s, ps) -> opt_step P C M cost solver bi s = Some (s', Some plan) ->
  (exists q, In q ps /\ plan_cost cost q < 1000) -> exists q, In q ps /\ (plan_cost cost q = 0 \/ plan_cost cost plan < plan_cost cost q).
Proof.
  intros (WF & CO & AB & ORD & IO & VEC & BI & CL) SO NV E E' (q & Q1 & Q2). destruct (run_ok P C M cost WF CO AB ORD IO VEC bi BI CL solver SO rounds (opt_start P nv depth c) (opt_start_ok P AB nv depth c NV) eq_refl) as (s1 & ps1 & E1 & I & [K1 K2] & _). rewrite E in E1. apply some_eq, pair_equal_spec in E1 as [X1 X2]. subst s1 ps1.
  assert (C1 := K2 q Q1 Q2). destruct (K1 C1) as (best & B1 & B2). exists best. split; auto. destruct (step_ok P C M cost WF CO AB ORD IO VEC bi BI CL solver SO s I) as (s2 & o & E2 & _ & K). rewrite E' in E2. apply some_eq, pair_equal_spec in E2 as [X1 X2]. subst s2 o. destruct K as (_ & _ & _ & _ & _ & K6).
  rewrite C1, Z.quot_1_r, unit_one in K6. destruct (Nat.eq_dec (plan_cost cost best) 0) as [Z|Z]; [now left|right]. specialize (K6 ltac:(lia)). lia.
Qed.

(** C174 is false: the bound of the formula need not bound the cost. If all actions cost less than the unit, every plan is the plan of a model, whatever the bound; and likewise for
    unit 1 and bound -1, which is the bound after a plan without costs. *)
Theorem cost_bound_refuted P C M cost bi K cf depth nv plan h :
  planner_input P C M cost bi -> (0 <= nv)%Z -> (0 < cf) -> (-1 <= K)%Z /\ (forall c, In c cost -> c < cf) \/ K = (-1)%Z /\ cf = 1 ->
  h <= depth -> derives P h (p_init P) plan -> executable P (initial_state P) plan -> goal_state P (after P (initial_state P) plan) -> consistent P plan -> input_true P M plan ->
  exists T nv' cl v, create_cost P C M cost bi K cf depth (pdt_root P, nv) = Some (T, nv', Some cl) /\ satisfies v cl /\ sat_plan v T = plan.
Proof.
  intros (WF & CO & AB & ORD & IO & VEC & BI & CL) NV CF KC Lh D EX GO CN IT.
  assert (Q : (-1 <= Z.quot K (Z.of_nat cf))%Z /\ ((Z.quot K (Z.of_nat cf) < 0)%Z \/ (Z.of_nat (unit_cost cf cost plan) <= Z.quot K (Z.of_nat cf))%Z)).
  { destruct KC as [[KP SM]|[-> ->]]; [|rewrite Z.quot_1_r; lia]. rewrite (unit_zero cf cost plan SM). destruct (Z.eq_dec K (-1)) as [-> |N]; [|assert (B := Z.quot_pos K (Z.of_nat cf) ltac:(lia) ltac:(lia)); lia].
    destruct (Nat.eq_dec cf 1) as [-> |N]; [rewrite Z.quot_1_r; lia|]. assert (QQ : Z.quot (-1) (Z.of_nat cf) = 0%Z) by (change (-1)%Z with (Z.opp 1); rewrite Z.quot_opp_l by lia; rewrite Z.quot_small by lia; reflexivity). rewrite QQ. lia. }
  destruct Q as [Q1 Q2]. destruct (cost_ok P C M cost WF CO ORD IO VEC bi BI CL K cf depth (pdt_root P, nv) CF Q1 (start_from P nv AB NV)) as (T & nv' & o & E & _ & _ & S).
  destruct (S plan) as (cl & v & -> & S1 & S2); auto; [split; eauto|]. exists T, nv', cl, v. auto.
Qed.

(** C175 is false: the branch that returns to a finer unit after 15 depths without a new plan (sat_planner.cpp 772-776) is never taken, because the depth of the latest improvement is never
    larger than the depth; the unit becomes 1 exactly when a plan that costs less than 1000 is printed. *)
Theorem finer_unit_refuted P C M cost bi solver nv depth c rounds :
  planner_input P C M cost bi -> solver_ok solver -> (0 <= nv)%Z ->
  exists s ps, opt_run P C M cost solver bi rounds (opt_start P nv depth c) = Some (s, ps) /\ ~ (S (o_depth s) + 15 < o_last s) /\
    (o_cf s = 1 <-> exists plan, In plan ps /\ plan_cost cost plan < 1000) /\ (o_cf s = 1 \/ o_cf s = 1000).
Proof.
  intros (WF & CO & AB & ORD & IO & VEC & BI & CL) SO NV. assert (RUN := run_ok P C M cost WF CO AB ORD IO VEC bi BI CL solver SO). assert (I0 := opt_start_ok P AB nv depth c NV).
  destruct (RUN rounds _ I0 eq_refl) as (s & ps & E & I & [K1 K2] & _). exists s, ps. split; auto. split; [assert (Q := oi_last _ _ I); lia|]. split; [|exact (oi_cf _ _ I)]. split; [|intros (plan & H1 & H2); eauto].
  clear I K1 K2. revert s ps E. induction rounds as [|n IH]; intros s ps E C1; [apply some_eq, pair_equal_spec in E as [E _]; rewrite E in C1; discriminate|]. cbn [opt_run] in E. destruct (RUN n _ I0 eq_refl) as (s1 & ps1 & E1 & I & _). rewrite E1 in E. cbn [obind] in E.
  destruct (step_ok P C M cost WF CO AB ORD IO VEC bi BI CL solver SO s1 I) as (s2 & o & E2 & _ & K). rewrite E2 in E. cbn [obind] in E. apply some_eq, pair_equal_spec in E as [X1 X2]. subst s ps. destruct o as [plan|].
  - destruct K as (_ & _ & _ & K4 & _). destruct (plan_cost cost plan <? 1000) eqn:L; [apply Nat.ltb_lt in L; exists plan; split; auto; now left|]. rewrite C1 in K4. destruct (IH s1 ps1 E1 (eq_sym K4)) as (q & H1 & H2). exists q. split; auto. now right.
  - destruct K as (_ & K2 & _). apply (IH s1 ps1 E1). congruence.
Qed.

Module Ex.
  (** The task 2 is decomposed into the action 0, which costs 7, or three times the action 1, which costs 1. *)
  Definition prob : problem :=
    {| p_nfacts := 1; p_prim := [true; true; false]; p_prec := [[]; []]; p_add := [[]; []]; p_del := [[]; []]; p_cost := [7; 1];
       p_methods := [{| m_task := 2; m_subs := [0]; m_ord := [] |}; {| m_task := 2; m_subs := [1; 1; 1]; m_ord := [(0, 1); (1, 2)] |}]; p_init := 2; p_s0 := []; p_goal := [] |}.
  Lemma prob_wf : wf_problem prob.
  Proof. apply problem_check_ok. reflexivity. Qed.
  Fixpoint insert (x : nat * nat * nat) (l : list (nat * nat * nat)) : list (nat * nat * nat) :=
    match l with [] => [x] | y :: r => if subs_len prob (fst (fst y)) <=? subs_len prob (fst (fst x)) then x :: l else y :: insert x r end.
  Definition sort (l : list (nat * nat * nat)) := fold_right insert [] l.
  Lemma sort_ok l : Permutation (sort l) l /\ StronglySorted (fun x y => subs_len prob (fst (fst y)) <= subs_len prob (fst (fst x))) (sort l).
  Proof.
    assert (IP : forall x l, Permutation (insert x l) (x :: l)). { intros x. induction l0 as [|y r IH]; cbn [insert]; auto. destruct (_ <=? _); auto. rewrite IH. apply perm_swap. }
    induction l as [|x l [IH1 IH2]]; cbn [sort fold_right]; [split; constructor|]. fold (sort l). split; [rewrite IP; auto|]. clear IH1. induction IH2 as [|y r S1 IH S2]; cbn [insert]; [constructor; constructor|]. destruct (Nat.leb_spec (subs_len prob (fst (fst y))) (subs_len prob (fst (fst x)))) as [L|L].
    - constructor; [constructor; auto|]. constructor; auto. rewrite Forall_forall in *. intros z Hz. specialize (S2 z Hz). lia.
    - constructor; auto. apply Forall_forall. intros z Hz. apply (Permutation_in _ (IP x r)) in Hz. destruct Hz as [<-|Hz]; [lia|]. rewrite Forall_forall in S2. auto.
  Qed.
  Definition conf : sconf := {| s_mto := [[0]; [0; 1; 2]]; s_sort := sort; s_bits := fun n => n |}.
  Lemma seq1 t : total_seq {| m_task := t; m_subs := [0]; m_ord := [] |} [0].
  Proof. split; [repeat constructor; auto|]. split; [intros j; cbn; split; [intros [<-|[]]; lia|lia]|]. intros l1 a l2 b E. destruct l1 as [|x l1]; [injection E as <- <-; intros []|]. destruct l1; discriminate. Qed.
  Lemma seq3 : total_seq {| m_task := 2; m_subs := [1; 1; 1]; m_ord := [(0, 1); (1, 2)] |} [0; 1; 2].
  Proof.
    split; [repeat constructor; cbn; intuition discriminate|]. split; [intros j; cbn; split; [intros [<-|[<-|[<-|[]]]]; lia|intros L; assert (Q : j = 0 \/ j = 1 \/ j = 2) by lia; destruct Q as [->|[->| ->]]; auto]|].
    assert (L01 : m_lt {| m_task := 2; m_subs := [1; 1; 1]; m_ord := [(0, 1); (1, 2)] |} 0 1) by (apply t_step; cbn; auto). assert (L12 : m_lt {| m_task := 2; m_subs := [1; 1; 1]; m_ord := [(0, 1); (1, 2)] |} 1 2) by (apply t_step; cbn; auto).
    intros l1 a l2 b E. destruct l1 as [|x [|y [|z l1]]]; cbn in E.
    - injection E as <- <-. intros [<-|[<-|[]]]; auto. now apply t_trans with 1.
    - injection E as <- <- <-. intros [<-|[]]; auto.
    - injection E as <- <- <- <-. intros [].
    - injection E as <- <- <- E. destruct l1; discriminate.
  Qed.
  Lemma conf_fine : conf_ok prob conf.
  Proof.
    constructor.
    - intros [|[|m]] me E; cbn in E; [injection E as <-|injection E as <-|destruct m; discriminate]; eexists; (split; [reflexivity|]); [apply seq1|apply seq3].
    - exact sort_ok.
    - intros me [<-|[<-|[]]]; cbn; lia.
    - intros [|[|[|t]]] E; cbn in E; try discriminate; [eexists; split; [now left|reflexivity]|destruct t; discriminate].
    - intros n _. cbn. apply Nat.lt_le_incl, Nat.pow_gt_lin_r. lia.
  Qed.
  Definition plain : mconf := {| m_order := fun l => l; m_input := {| x_sas := []; x_strict := []; x_mutex := []; x_inv := [] |}; m_mode := PFF; m_bc := true; m_mutex := false |}.
  Lemma input_good cost : length cost = 2 -> planner_input prob conf plain cost [[]; []].
  Proof. intros L. split; [exact prob_wf|]. split; [exact conf_fine|]. split; auto. split; [intros l; apply Permutation_refl|]. split; [split; cbn; intros; contradiction|]. split; [discriminate|]. split; [reflexivity|exact L]. Qed.
  Lemma plans_true plan : input_true prob plain plan.
  Proof. intros p1 p2 _. constructor; cbn; intros; contradiction. Qed.
  Lemma plans_consistent plan : consistent prob plan.
  Proof. intros a f _ (l & E & I) _. destruct a as [|[|[|a]]]; cbn in E; try discriminate; injection E as <-; destruct I. Qed.
  Lemma plans_work plan : Forall (fun a => a < 2) plan -> executable prob (initial_state prob) plan /\ goal_state prob (after prob (initial_state prob) plan).
  Proof.
    intros H. split; [|intros f []]. generalize (initial_state prob). induction H as [|a r H1 _ IH]; intros s; cbn [executable]; auto. split; auto. intros f (l & E & I). destruct a as [|[|a]]; cbn in E; try lia; injection E as <-; destruct I.
  Qed.
  Lemma derives_two : derives prob 1 2 [0] /\ derives prob 1 2 [1; 1; 1].
  Proof.
    split; right.
    - eexists _, [0], [[0]]. split; [left; reflexivity|]. split; auto. split; [apply seq1|]. split; auto. constructor; [|constructor]. exists 0. split; auto. left. split; reflexivity.
    - eexists _, [0; 1; 2], [[1]; [1]; [1]]. split; [right; left; reflexivity|]. split; auto. split; [apply seq3|]. split; auto. repeat constructor; exists 1; (split; [reflexivity|left; split; reflexivity]).
  Qed.
  (** There are exactly two solutions. *)
  Lemma solutions plan : solution prob plan <-> plan = [0] \/ plan = [1; 1; 1].
  Proof.
    rewrite (derives_solution prob prob_wf (conf_linear prob conf conf_fine)). split.
    - intros ((h & D) & _). assert (PR : forall h a p, a < 2 -> derives prob h a p -> p = [a]).
      { intros h' a p La D'. destruct h' as [|h']; cbn [derives] in D'; destruct D' as [[_ ->]|D']; auto; [destruct D'|]. destruct D' as (m & o & pl & Hm & Et & _). destruct Hm as [<-|[<-|[]]]; cbn in Et; lia. }
      destruct h as [|h]; cbn [derives] in D; (destruct D as [[X _]|D]; [discriminate|]); [destruct D|]. destruct D as (m & o & pl & Hm & _ & (ND & IN & _) & F & ->).
      assert (LO : length o = length (m_subs m)). { apply Nat.le_antisymm; [|]. - rewrite <- (seq_length (length (m_subs m)) 0). apply NoDup_incl_length; auto. intros j Hj. apply IN in Hj. apply in_seq. lia. - rewrite <- (seq_length (length (m_subs m)) 0) at 1. apply NoDup_incl_length; [apply seq_NoDup|]. intros j Hj. apply in_seq in Hj. apply IN. lia. }
      assert (ALL : forall u, u < 2 -> (forall j x, nth_error (m_subs m) j = Some x -> x = u) -> concat pl = repeat u (length (m_subs m))).
      { intros u Lu HU. rewrite <- LO. clear ND IN LO. induction F as [|j p o pl (x & Hx & Dx) _ IH]; auto. cbn [length repeat concat]. rewrite IH. specialize (HU j x Hx). subst x. now rewrite (PR h u p Lu Dx). }
      destruct Hm as [<-|[<-|[]]]; [left; apply (ALL 0); [lia|]|right; apply (ALL 1); [lia|]]; cbn; intros [|[|[|j]]] x E; cbn in E; try congruence; destruct j; discriminate.
    - destruct derives_two as [D1 D2]. intros [->| ->]; (split; [eauto|]); apply plans_work; repeat constructor.
  Qed.

  (** A solver that answers with a given assignment where it can. *)
  Definition prefer (w : list Z) (F : list clause) : option (Z -> bool) := if Pdt_thm.Ex.check (Pdt_thm.Ex.as_val w) F then Some (Pdt_thm.Ex.as_val w) else Pdt_thm.Ex.enumerate F.
  Lemma prefer_ok w : solver_ok (prefer w).
  Proof.
    intros F. unfold prefer. destruct (Pdt_thm.Ex.check _ F) eqn:E; [|apply Pdt_thm.Ex.enumerate_ok]. unfold Pdt_thm.Ex.check in E. rewrite forallb_forall in E. intros c Hc. specialize (E c Hc). apply existsb_exists in E as (l & L1 & L2). eauto.
  Qed.
  (** C169, C170: with bound 2 and unit 1 there is a model, and its plan is the action 0. *)
  Example cheap_found : exists T nv' cl v, create_cost prob conf plain [2; 1] [[]; []] 2 1 1 (pdt_root prob, 13%Z) = Some (T, nv', Some cl) /\ satisfies v cl /\ sat_plan v T = [0].
  Proof.
    destruct derives_two as [D1 _]. destruct (plans_work [0] ltac:(repeat constructor)) as [W1 W2].
    apply (cost_formula_complete prob conf plain [2; 1] [[]; []] 2 1 1 13 [0] 1); auto using plans_consistent, plans_true; try lia; now apply input_good.
  Qed.
  Example only_cheap : forall T nv' cl v, create_cost prob conf plain [2; 1] [[]; []] 2 1 1 (pdt_root prob, 13%Z) = Some (T, nv', Some cl) -> satisfies v cl -> sat_plan v T = [0].
  Proof.
    intros T nv' cl v E S. destruct (cost_formula_sound prob conf plain [2; 1] [[]; []] 2 1 1 13 (input_good [2; 1] eq_refl) ltac:(lia) ltac:(lia)) as (T' & nv2 & o & E' & H). change (Z.of_nat 2) with 2%Z in E'. rewrite E in E'. apply some_eq in E'. injection E' as <- _ Eo. destruct (H cl Eo) as [_ H']. destruct (H' v S) as (S1 & _ & _ & S4).
    specialize (S4 eq_refl). apply solutions in S1 as [Q|Q]; auto. rewrite Q in S4. cbn in S4. lia.
  Qed.
  (** C172: the hypotheses hold; the costs are those of log_costs. *)
  Example optimum solver : solver_ok solver -> exists r0, forall r1, r0 <= r1 -> exists r, forall r2, r <= r2 -> exists ps, solve_opt prob conf plain [2; 1] solver r1 r2 = Some ps /\ exists plan, In plan ps /\ plan_cost [2; 1] plan <= 2.
  Proof.
    intros SO. apply (optimiser_optimal prob conf plain [2; 1] [[]; []] solver [0]); auto using plans_consistent, plans_true; [now apply input_good| |apply solutions; now left].
    intros plan S. apply solutions in S as [-> | ->]; cbn; lia.
  Qed.
  Definition good_first : list Z := [2; 3; 5; 7; 10; 15; 17; 19; 21; 24; 27]%Z.
  Definition good_both : list Z := [2; 3; 5; 7; 10; 15; 16; 18; 20; 23; 27]%Z.
  Example printed : solve_opt prob conf plain [2; 1] (prefer good_first) 1 1 = Some [[1; 1; 1]; [0]].
  Proof. vm_compute. reflexivity. Qed.
  (** C173: after the plan of cost 3 the plan of cost 2. *)
  Definition better : list Z := good_first ++ [30; 31; 33; 35; 38; 44; 45; 46; 50; 54; 58; 59; 62; 63; 64]%Z.
  Example improved : exists s s', opt_run prob conf plain [2; 1] (prefer better) [[]; []] 1 (opt_start prob 13 1 2) = Some (s, [[1; 1; 1]]) /\ opt_step prob conf plain [2; 1] (prefer better) [[]; []] s = Some (s', Some [0]).
  Proof. eexists _, _. split; [vm_compute; reflexivity|]. vm_compute. reflexivity. Qed.
  Example kept : solve_opt prob conf plain [2; 1] (prefer good_both) 1 1 = Some [[0]; [0]].
  Proof. vm_compute. reflexivity. Qed.
End Ex.

(** C174, in the planner: the second plan that is printed is more expensive than the first. *)
Theorem cheaper_next_refuted :
  exists P C M cost bi solver p1 p2, planner_input P C M cost bi /\ solver_ok solver /\ (forall plan, solution P plan -> plan_cost cost plan < 1000) /\ solve_opt P C M cost solver 1 1 = Some [p2; p1] /\ plan_cost cost p1 < plan_cost cost p2.
Proof.
  exists Ex.prob, Ex.conf, Ex.plain, [2; 1], [[]; []], (Ex.prefer Ex.good_first), [0], [1; 1; 1]. split; [now apply Ex.input_good|]. split; [apply Ex.prefer_ok|]. split; [intros plan S; apply Ex.solutions in S as [-> | ->]; cbn; lia|]. split; [exact Ex.printed|]. cbn. lia.
Qed.

(** C176 is false: the planner optimises the logarithms of the costs (sat_planner.cpp 30, 1081-1086). There is a problem with a solution of cost 3 for which it prints plans of cost 7 only,
    however long it runs ([ln] is the logarithm, truncated: ln 1 = 0 and ln 7 = 1.94...). *)
Theorem true_costs_refuted ln : ln 1 = 0 -> ln 7 = 1 ->
  exists P C M bi solver, planner_input P C M (log_costs ln (p_cost P)) bi /\ solver_ok solver /\
    (exists goal, solution P goal /\ consistent P goal /\ input_true P M goal /\ plan_cost (p_cost P) goal = 3) /\
    forall r, exists ps, solve_opt P C M (log_costs ln (p_cost P)) solver 1 r = Some ps /\ ps <> [] /\ forall plan, In plan ps -> plan_cost (p_cost P) plan = 7.
Proof.
  intros L1 L7. exists Ex.prob, Ex.conf, Ex.plain, [[]; []], (Ex.prefer Ex.good_both).
  assert (EC : log_costs ln (p_cost Ex.prob) = [2; 1]) by (unfold log_costs; cbn [p_cost Ex.prob map Nat.eqb]; rewrite L1, L7; reflexivity). rewrite EC. clear EC L1 L7 ln.
  assert (PI := Ex.input_good [2; 1] eq_refl). split; auto. split; [apply Ex.prefer_ok|]. split; [exists [1; 1; 1]; split; [apply Ex.solutions; auto|]; split; [apply Ex.plans_consistent|]; split; [apply Ex.plans_true|reflexivity]|].
  destruct PI as (WF & CO & AB & ORD & IO & VEC & BI & CL). assert (SO := Ex.prefer_ok Ex.good_both). set (solver := Ex.prefer Ex.good_both) in *.
  unfold solve_opt. rewrite BI. cbn [obind]. destruct (first_search Ex.prob Ex.conf Ex.plain solver [[]; []] 1 1 (pdt_root Ex.prob, 0%Z)) as [[[[plan d] nv]|]|] eqn:EF; [|exfalso; vm_compute in EF; discriminate|exfalso; vm_compute in EF; discriminate].
  assert (NV := first_nv Ex.prob Ex.conf Ex.plain WF CO ORD IO VEC [[]; []] BI solver 1 1 _ plan d nv (start_ok Ex.prob AB) EF). assert (X : plan = [0] /\ d = 1 /\ nv = 13%Z) by (vm_compute in EF; injection EF as <- <- <-; auto). destruct X as (-> & -> & ->). clear EF.
  cbn [obind]. set (s0 := opt_start Ex.prob 13 1 (solution_cost [2; 1] [0])). assert (I0 : oinv Ex.prob s0) by exact (opt_start_ok Ex.prob AB 13 1 _ NV).
  assert (FST : exists s1, opt_run Ex.prob Ex.conf Ex.plain [2; 1] solver [[]; []] 1 s0 = Some (s1, [[0]]) /\ o_cf s1 = 1 /\ o_max s1 = 1%Z). { eexists. vm_compute. auto. }
  destruct FST as (s1 & E1 & C1 & K1). assert (RUN := run_ok Ex.prob Ex.conf Ex.plain [2; 1] WF CO AB ORD IO VEC [[]; []] BI CL solver SO).
  assert (G : forall k, exists s ps, opt_run Ex.prob Ex.conf Ex.plain [2; 1] solver [[]; []] (S k) s0 = Some (s, ps) /\ o_cf s = 1 /\ o_max s = 1%Z /\ ps = [[0]]).
  { induction k as [|k (s & ps & E & C2 & K2 & Eps)]; [exists s1, [[0]]; auto|]. destruct (RUN (S k) s0 I0 eq_refl) as (s' & ps' & E' & I & _). rewrite E in E'. apply some_eq, pair_equal_spec in E' as [X1 X2]. subst s' ps'. change (S (S k)) with (1 + S k). cbn [Nat.add].
    assert (EQ : opt_run Ex.prob Ex.conf Ex.plain [2; 1] solver [[]; []] (S (S k)) s0 = ('(s1, ps) <- opt_run Ex.prob Ex.conf Ex.plain [2; 1] solver [[]; []] (S k) s0 ;; '(s2, o) <- opt_step Ex.prob Ex.conf Ex.plain [2; 1] solver [[]; []] s1 ;; Some (s2, match o with Some plan => plan :: ps | None => ps end))) by reflexivity.
    rewrite EQ, E. cbn [obind]. destruct (step_ok Ex.prob Ex.conf Ex.plain [2; 1] WF CO AB ORD IO VEC [[]; []] BI CL solver SO s I) as (s2 & o & E2 & _ & K). rewrite E2. cbn [obind]. destruct o as [plan|].
    - exfalso. destruct K as (SOL & _ & _ & _ & _ & K6). rewrite C2, K2, Z.quot_1_r, unit_one in K6. specialize (K6 ltac:(lia)). apply Ex.solutions in SOL as [-> | ->]; cbn in K6; lia.
    - destruct K as (_ & Q1 & Q2 & _). exists s2, ps. split; auto. split; [congruence|]. split; [congruence|auto]. }
  intros [|k].
  - cbn [opt_run obind]. eexists. split; [reflexivity|]. split; [discriminate|]. intros plan [<-|[]]. reflexivity.
  - destruct (G k) as (s & ps & E & _ & _ & ->). rewrite E. cbn [obind]. eexists. split; [reflexivity|]. split; [discriminate|]. intros plan [<-|[<-|[]]]; reflexivity.
Qed.

Print Assumptions cost_formula_sound.
Print Assumptions cost_formula_complete.
Print Assumptions optimiser_sound.
Print Assumptions optimiser_optimal.
Print Assumptions optimiser_progress.
Print Assumptions cost_bound_refuted.
Print Assumptions finer_unit_refuted.
Print Assumptions cheaper_next_refuted.
Print Assumptions true_costs_refuted.
