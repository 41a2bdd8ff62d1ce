(** Properties C73 and C74 (the totally ordered SAT encoding as configured by default: mutex clauses and every kind of leaf pruning), C75 (h2 pruning without mutexes). *)
From Coq Require Import ZArith Permutation Sorting.Sorted.
From Verif Require Import Base Htn_problem Htn_spec Htn_proof To_spec To_sem Sat_model Sat_spec Sf_model Sf_spec Sf_proof Inv_model Inv_spec Inv_close Inv_thm Pdt_model Pdt_spec Pdt_expand Pdt_leafs Pdt_prune Pdt_round Pdt_main Pdt_thm Mx_model Mx_spec Mx_prune Mx_main.

Definition input_fine (P : problem) (M : mconf) : Prop := input_ok (p_nfacts P) (x_sas (m_input M)) (x_strict (m_input M)) (x_mutex (m_input M)) (x_inv (m_input M)).
(** The groups of the input hold in all states that the plan goes through. *)
Definition input_true (P : problem) (M : mconf) (plan : list nat) : Prop :=
  forall p1 p2, plan = p1 ++ p2 -> input_holds (x_sas (m_input M)) (x_strict (m_input M)) (x_mutex (m_input M)) (x_inv (m_input M)) (after P (initial_state P) p1).

Lemma exec_prefix P p1 : forall s p2, executable P s (p1 ++ p2) -> executable P s p1.
Proof. induction p1 as [|a r IH]; intros s p2 H; cbn [app executable] in *; auto. destruct H as [H1 H2]. split; auto. eapply IH; eauto. Qed.

Section Thm.
  Existing Instance to_kind.
  Variables (P : problem) (C : sconf) (M : mconf).
  Hypothesis WF : wf_problem P.
  Hypothesis CO : conf_ok P C.
  Hypothesis AB : nth_error (p_prim P) (p_init P) = Some false.
  Hypothesis ORD : forall l, Permutation (m_order M l) l.
  Hypothesis IO : input_fine P M.
  Hypothesis VEC : m_mode M = PH2 -> m_mutex M = true.
  Variable bi : list (list Z).
  Hypothesis BI : all_invariants (m_order M) P (m_input M) (m_mutex M) = Some bi.

  Lemma table_ok : bi_ok (p_nfacts P) bi.
  Proof. apply (all_invariants_hold (m_order M) P (m_input M) (m_mutex M) bi (fun _ => False) ORD WF IO); auto; intros s []. Qed.
  Lemma plan_believes plan : executable P (initial_state P) plan -> consistent P plan -> input_true P M plan -> believes P M bi plan.
  Proof.
    intros EX CN IT _ p1 p2 Ep. split; [exact (IT p1 p2 Ep)|].
    set (Sig := fun s : state => exists q1 q2, plan = q1 ++ q2 /\ s = after P (initial_state P) q1).
    destruct (all_invariants_hold (m_order M) P (m_input M) (m_mutex M) bi Sig ORD WF IO) as [O K].
    - intros s (q1 & q2 & Eq & ->). exists q1. split; [apply (exec_prefix P q1 _ q2); now rewrite <- Eq|]. split; [|tauto]. intros a f Ha. apply (CN a f). rewrite Eq. apply in_or_app. auto.
    - intros s (q1 & q2 & Eq & ->). exact (IT q1 q2 Eq).
    - exact BI.
    - apply (pairs_known P bi _ O). intros a b Hk. apply (K a b Hk). exists p1, p2. auto.
  Qed.
  Lemma full_solution depth T nv cl v : full_says P M bi depth T nv (Some cl) -> satisfies v cl -> solution P (sat_plan v T).
  Proof. intros [[_ S] _] H. apply (derives_solution P WF (conf_linear P C CO)). exact (S v H). Qed.
  Lemma full_search_ok solver rounds : solver_ok solver -> forall depth st, sinv P st -> exists r, full_search P C M solver bi rounds depth st = Some r /\ (forall plan, r = Some plan -> solution P plan) /\
    forall plan h, h < depth + rounds -> derives P h (p_init P) plan -> consistent P plan -> executable P (initial_state P) plan -> goal_state P (after P (initial_state P) plan) -> input_true P M plan -> 0 < rounds -> r <> None.
  Proof.
    intros SO. induction rounds as [|rounds IH]; intros depth st SI; cbn [full_search]; [exists None; split; auto; split; [discriminate|intros; lia]|].
    destruct (full_ok P C M bi WF CO ORD IO table_ok VEC depth st SI) as (T & nv & o & E & SI' & SA). rewrite E. cbn [obind].
    destruct (match o with Some cl => solver cl | None => None end) as [v|] eqn:EV.
    - exists (Some (sat_plan v T)). split; auto. split; [|intros; discriminate]. intros plan Ep. apply some_eq in Ep. subst plan. destruct o as [cl|]; [|discriminate]. apply (full_solution depth T nv cl v SA). specialize (SO cl). now rewrite EV in SO.
    - destruct (IH (S depth) (T, nv) SI') as (r & R1 & R2 & R3). exists r. split; auto. split; auto. intros plan h Lh D CN EX GO IT _. destruct (Nat.le_gt_cases h depth) as [L|L].
      + exfalso. destruct (proj2 SA plan h L D CN EX GO (plan_believes plan EX CN IT)) as (cl & v & -> & S & _). specialize (SO cl). rewrite EV in SO. exact (SO v S).
      + apply (R3 plan h); auto; lia.
  Qed.
End Thm.

(** C73: whatever the mutex groups and the pruning mode (h2 pruning only with mutexes), the formula of every depth is defined once the invariants are, mentions only
    variables that exist, and the plan printed for a model solves the problem. *)
Theorem full_encoding_sound P C M bi d :
  wf_problem P -> conf_ok P C -> nth_error (p_prim P) (p_init P) = Some false -> (forall l, Permutation (m_order M l) l) -> input_fine P M -> (m_mode M = PH2 -> m_mutex M = true) ->
  all_invariants (m_order M) P (m_input M) (m_mutex M) = Some bi ->
  exists T nv o, full_formula P C M d = Some (T, nv, o) /\
    forall cl, o = Some cl -> (forall c l, In c cl -> In l c -> (1 <= Z.abs l <= nv)%Z) /\ forall v, satisfies v cl -> solution P (sat_plan v T).
Proof.
  intros WF CO AB ORD IO VEC BI. destruct (full_formula_ok P C M bi WF CO AB ORD IO (table_ok P M WF ORD IO bi BI) VEC d) as (T & nv & o & st & E1 & E2 & S). exists T, nv, o. unfold full_formula. rewrite BI. cbn [obind]. rewrite E1. cbn [obind]. split; auto.
  intros cl ->. split; [apply S|]. intros v H. exact (full_solution P C M WF CO bi _ T nv cl v S H).
Qed.

(** C74: a plan with a derivation of height at most d + 1, whose actions do not add facts they delete, and that goes only through states in which the mutex groups of the input
    hold, is the plan of a model of the formula for depth d + 1: neither the pruning nor the mutex clauses lose it. *)
Theorem full_encoding_complete P C M bi d plan h :
  wf_problem P -> conf_ok P C -> nth_error (p_prim P) (p_init P) = Some false -> (forall l, Permutation (m_order M l) l) -> input_fine P M -> (m_mode M = PH2 -> m_mutex M = true) ->
  all_invariants (m_order M) P (m_input M) (m_mutex M) = Some bi ->
  h <= S d -> derives P h (p_init P) plan -> executable P (initial_state P) plan -> goal_state P (after P (initial_state P) plan) -> consistent P plan -> input_true P M plan ->
  exists T nv cl v, full_formula P C M d = Some (T, nv, Some cl) /\ satisfies v cl /\ sat_plan v T = plan.
Proof.
  intros WF CO AB ORD IO VEC BI Lh D EX GO CN IT. destruct (full_formula_ok P C M bi WF CO AB ORD IO (table_ok P M WF ORD IO bi BI) VEC d) as (T & nv & o & st & E1 & E2 & S).
  destruct (proj2 S plan h Lh D CN EX GO (plan_believes P M WF ORD IO bi BI plan EX CN IT)) as (cl & v & -> & H1 & H2). exists T, nv, cl, v. unfold full_formula. rewrite BI. cbn [obind]. rewrite E1. cbn [obind]. auto.
Qed.

(** The planner with a correct and complete solver. *)
Theorem full_planner_sound P C M bi solver rounds :
  wf_problem P -> conf_ok P C -> nth_error (p_prim P) (p_init P) = Some false -> (forall l, Permutation (m_order M l) l) -> input_fine P M -> (m_mode M = PH2 -> m_mutex M = true) ->
  all_invariants (m_order M) P (m_input M) (m_mutex M) = Some bi -> solver_ok solver ->
  exists r, solve_full P C M solver rounds = Some r /\ forall plan, r = Some plan -> solution P plan.
Proof.
  intros WF CO AB ORD IO VEC BI SO. destruct (full_search_ok P C M WF CO ORD IO VEC bi BI solver rounds SO 1 (pdt_root P, 0%Z) (start_ok P AB)) as (r & E & S & _). exists r. unfold solve_full. rewrite BI. cbn [obind]. auto.
Qed.
Theorem full_planner_complete P C M bi solver plan :
  wf_problem P -> conf_ok P C -> nth_error (p_prim P) (p_init P) = Some false -> (forall l, Permutation (m_order M l) l) -> input_fine P M -> (m_mode M = PH2 -> m_mutex M = true) ->
  all_invariants (m_order M) P (m_input M) (m_mutex M) = Some bi -> solver_ok solver -> solution P plan -> consistent P plan -> input_true P M plan ->
  exists r0, forall rounds, r0 <= rounds -> exists plan', solve_full P C M solver rounds = Some (Some plan') /\ solution P plan'.
Proof.
  intros WF CO AB ORD IO VEC BI SO S CN IT. apply (derives_solution P WF (conf_linear P C CO)) in S as ((h & D) & EX & GO). exists (S h). intros rounds L.
  destruct (full_search_ok P C M WF CO ORD IO VEC bi BI solver rounds SO 1 (pdt_root P, 0%Z) (start_ok P AB)) as (r & E & S & K). unfold solve_full. rewrite BI. cbn [obind]. rewrite E. destruct r as [plan'|]; [exists plan'; auto|]. exfalso. apply (K plan h); auto; lia.
Qed.

(** Without mutexes and without h2 pruning this is the encoding of C69 and C70. *)
Theorem full_is_plain P C M bi depth st : m_mutex M = false -> m_mode M <> PH2 ->
  create_full P C M bi depth st = create_formula P C (match m_mode M with PNone => false | _ => true end) (m_bc M) depth st.
Proof.
  intros EM NM. unfold create_full, create_formula. destruct st as [t0 nv]. rewrite EM. destruct (expand_to P C depth t0) as [T|]; auto. cbn [obind]. unfold prune_full, prune.
  destruct (propagate_all P T (mark [] (flat_map (fun '(q, d) => map (IA q) (seq 0 (length (pn_abs d)))) (leafs T [])))) as [F1|]; auto. cbn [obind].
  destruct (m_mode M); [| |congruence]; cbn [obind].
  - destruct (propagate_all P T F1) as [F|]; auto. cbn [obind]. destruct (marked F (IA [] 0)); auto. destruct (assign P F T [] nv) as [T' nv1]. destruct (decomposition C F T' [] nv1) as [[c1 nv2]|]; auto. cbn [obind]. destruct (get (pn_avar (dat T')) 0); auto. cbn [obind].
    destruct (if m_bc M then _ else _) as [blocks|]; auto. cbn [obind]. destruct (state_formula P nv2 _ blocks) as [[c3 nv3]|]; auto. cbn [obind]. now rewrite app_nil_r.
  - destruct (ff_loop P _ (leafs T []) F1) as [F2|]; auto. cbn [obind]. destruct (propagate_all P T F2) as [F|]; auto. cbn [obind]. destruct (marked F (IA [] 0)); auto. destruct (assign P F T [] nv) as [T' nv1]. destruct (decomposition C F T' [] nv1) as [[c1 nv2]|]; auto. cbn [obind]. destruct (get (pn_avar (dat T')) 0); auto. cbn [obind].
    destruct (if m_bc M then _ else _) as [blocks|]; auto. cbn [obind]. destruct (state_formula P nv2 _ blocks) as [[c3 nv3]|]; auto. cbn [obind]. now rewrite app_nil_r.
Qed.

(** C75 is false: without mutex invariants the actions have no bit vectors, and h2 pruning reads them. *)
Theorem h2_without_mutexes_refuted :
  exists P C M bi, wf_problem P /\ conf_ok P C /\ nth_error (p_prim P) (p_init P) = Some false /\ (forall l, Permutation (m_order M l) l) /\ input_fine P M /\ m_mode M = PH2 /\ m_mutex M = false /\
    all_invariants (m_order M) P (m_input M) (m_mutex M) = Some bi /\ full_formula P C M 1 = None.
Proof.
  exists Pdt_thm.Ex.prob, Pdt_thm.Ex.conf, {| m_order := fun l => l; m_input := {| x_sas := []; x_strict := []; x_mutex := []; x_inv := [] |}; m_mode := PH2; m_bc := true; m_mutex := false |}. eexists.
  split; [exact Pdt_thm.Ex.prob_wf|]. split; [exact Pdt_thm.Ex.conf_fine|]. split; auto. split; [intros l; apply Permutation_refl|]. split; [split; cbn; intros; contradiction|]. split; auto. split; auto. split; vm_compute; reflexivity.
Qed.

Module Ex.
  Import Pdt_thm.Ex.
  (** The problem of Pdt_thm.v; the facts 0 and 1 are the values of one variable, fact 2 is a variable of its own. *)
  Definition full : mconf := {| m_order := fun l => l; m_input := {| x_sas := [(0, 1); (2, 2)]; x_strict := [[0; 1]]; x_mutex := []; x_inv := [[-1; -2; 2]]%Z |}; m_mode := PH2; m_bc := true; m_mutex := true |}.
  Lemma full_fine : input_fine prob full.
  Proof. split; cbn; try (intros; contradiction). - intros a b [E|[E|[]]]; injection E as <- <-; lia. - intros l f [<-|[]] [<-|[<-|[]]]; lia. - intros l x [<-|[]] H. unfold lit_in. cbn in *. lia. Qed.
  Example invariants : exists bi, all_invariants (m_order full) prob (m_input full) (m_mutex full) = Some bi.
  Proof. eexists. vm_compute. reflexivity. Qed.
  (** The states of the plan: {0}, {1}, {1, 2}. *)
  Lemma full_true : input_true prob full plan.
  Proof.
    assert (K : forall s : state, (s 0 /\ ~ s 1) \/ (~ s 0 /\ s 1) -> input_holds (x_sas (m_input full)) (x_strict (m_input full)) (x_mutex (m_input full)) (x_inv (m_input full)) s).
    { intros s D. assert (AM : at_most_one s [0; 1]). { intros i j f g Ei Ej Hf Hg. destruct i as [|[|[|i]]]; destruct j as [|[|[|j]]]; cbn in Ei, Ej; try discriminate; auto; injection Ei as <-; injection Ej as <-; tauto. }
      assert (AL : at_least_one s [0; 1]) by (destruct D as [[D _]|[_ D]]; [exists 0|exists 1]; split; cbn; auto). constructor; cbn.
      - intros a b [E|[E|[]]] N; injection E as <- <-; [exact AL|congruence].
      - intros a b [E|[E|[]]]; injection E as <- <-; [exact AM|]. intros [|[|i]] [|[|j]] f g Ei Ej; cbn in Ei, Ej; try discriminate; auto.
      - intros l [<-|[]]. exact AL.
      - intros l [<-|[]]. exact AM.
      - intros l [].
      - intros l [<-|[]]. destruct D as [[_ D]|[D _]]; [exists (-2)%Z|exists (-1)%Z]; (split; [cbn; auto|]); split; cbn; auto; lia. }
    assert (R0 : forall s : state, s 0 -> ~ s 1 -> ~ result prob s 0 0 /\ result prob s 0 1).
    { intros s H0 H1. split; [intros [(l & E & I)|[_ X]]; [cbn in E; injection E as <-; destruct I as [I|[]]; discriminate|apply X; exists [0]; split; [reflexivity|now left]]|left; exists [1]; split; [reflexivity|now left]]. }
    assert (R1 : forall s : state, ~ s 0 -> s 1 -> ~ result prob s 1 0 /\ result prob s 1 1).
    { intros s H0 H1. split; [intros [(l & E & I)|[X _]]; [cbn in E; injection E as <-; destruct I as [I|[]]; discriminate|auto]|right; split; auto; intros (l & E & I); cbn in E; injection E as <-; destruct I]. }
    assert (I0 : initial_state prob 0) by now left. assert (I1 : ~ initial_state prob 1) by (intros [X|[]]; discriminate). destruct (R0 _ I0 I1) as [A0 A1]. destruct (R1 _ A0 A1) as [B0 B1].
    intros p1 p2 E. destruct p1 as [|a [|b [|c p1]]]; cbn in E; try discriminate.
    - apply K. left. auto.
    - injection E as <- _. apply K. right. cbn [after]. auto.
    - injection E as <- <- _. apply K. right. cbn [after]. auto.
  Qed.
  (** The plan is a model of the formula with h2 pruning, block compression and mutex clauses. *)
  Example full_found : exists T nv cl v, full_formula prob conf full 1 = Some (T, nv, Some cl) /\ satisfies v cl /\ sat_plan v T = plan.
  Proof.
    destruct invariants as (bi & E). apply (full_encoding_complete prob conf full bi 1 plan 2); auto using prob_wf, conf_fine, full_fine, plan_derives, plan_consistent, full_true; apply plan_works.
  Qed.
  Example full_works : forall T nv cl v, full_formula prob conf full 1 = Some (T, nv, Some cl) -> satisfies v cl -> solution prob (sat_plan v T).
  Proof.
    intros T nv cl v E S. destruct invariants as (bi & B). destruct (full_encoding_sound prob conf full bi 1 prob_wf conf_fine eq_refl (fun l => Permutation_refl l) full_fine (fun _ => eq_refl) B) as (T' & nv' & o & E' & H). rewrite E in E'. apply some_eq in E'. injection E' as -> -> ->. now apply (H cl).
  Qed.
  (** The mutex clauses are there: the formula is longer than the one without them. *)
  Example more_clauses : match full_formula prob conf full 1, sat_formula prob conf true true 1 with Some (_, _, Some c), Some (_, _, Some c') => length c' < length c | _, _ => False end.
  Proof. vm_compute. lia. Qed.
End Ex.

Print Assumptions full_encoding_sound.
Print Assumptions full_encoding_complete.
Print Assumptions full_planner_sound.
Print Assumptions full_planner_complete.
Print Assumptions full_is_plain.
Print Assumptions h2_without_mutexes_refuted.
