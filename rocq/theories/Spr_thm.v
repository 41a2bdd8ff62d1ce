(** Properties C147 (what the SAT planner prints is a decomposition of its plan) and C148 (its lines do not list the subtasks as the methods do). *)
From Coq Require Import ZArith Permutation.
From Verif Require Import Base Htn_problem Htn_spec To_spec Tree_spec Sat_model Sat_spec Sat_proof Sf_model Sf_proof Inv_model Inv_spec Inv_close Inv_thm Pdt_model Pdt_spec Pdt_tree Pdt_vars Pdt_clause Pdt_leafs Pdt_prune Pdt_round Pdt_main Pdt_thm Mx_model Mx_prune Mx_main Mx_thm Spr_model Spr_spec Spr_proof.

(** The output for an assignment: actions numbered from 0 on that spell the plan, and lines that are a decomposition tree of the initial task. *)
Definition good_output (P : problem) (v : assignment) (T : pdt) : Prop :=
  exists acts root rows, sat_print P v T = Some (acts, Some root, rows) /\ map snd acts = sat_plan v T /\ map fst acts = seq 0 (length acts) /\
    tree_up_to_order P root rows acts /\ in_execution_order P rows acts.

Section Create.
  Existing Instance Pdt_expand.to_kind.
  Variables (P : problem) (C : sconf).
  Hypothesis WF : wf_problem P.
  Hypothesis CO : conf_ok P C.
  Lemma create_prints ff bc depth st T nv cl v : sinv P st -> create_formula P C ff bc depth st = Some (T, nv, Some cl) -> satisfies v cl -> good_output P v T.
  Proof.
    destruct st as [t0 nv0]. intros SI E S. destruct (round_tree P C WF CO ff depth t0 nv0 SI) as (T0 & F & E1 & SI' & DP & E2 & RD). unfold create_formula in E. rewrite E1 in E. cbn [obind] in E. rewrite E2 in E. cbn [obind] in E.
    destruct (marked F (IA [] 0)) eqn:EM; [discriminate|]. apply marked_out in EM. destruct (assign P F T0 [] nv0) as [T' n0] eqn:EA. destruct (RD T' n0 eq_refl) as [R LE].
    destruct (clauses_ok P C WF CO T0 F T' n0 R bc EM) as (c1 & nv2 & r & blocks & c3 & nv3 & Q1 & Q2 & Q3 & Q4 & Q5 & _ & _ & V & SND & CPL). rewrite Q1 in E. cbn [obind] in E. rewrite Q2 in E. cbn [obind] in E. fold (atoms T') in E. rewrite Q3 in E. cbn [obind] in E. rewrite Q4 in E. cbn [obind vlit] in E. apply some_eq in E. injection E as E3 E4 E5. subst T nv cl.
    destruct (SND v S) as (U & N & O & _ & _). exact (print_ok P F T' v (r_to' _ _ _ _ _ R) (r_fi _ _ _ _ _ R) (r_vc _ _ _ _ _ R) (r_leaf _ _ _ _ _ R) U N (root1 P T0 F T' n0 R) WF O (proj2 (r_root _ _ _ _ _ R))).
  Qed.
  Lemma full_prints M bi depth st T nv cl v : bi_ok (p_nfacts P) bi -> (m_mode M = PH2 -> m_mutex M = true) -> sinv P st -> create_full P C M bi depth st = Some (T, nv, Some cl) -> satisfies v cl -> good_output P v T.
  Proof.
    destruct st as [t0 nv0]. intros OB VEC SI E S. destruct (round_expand P C WF CO depth t0 nv0 SI) as (T0 & E1 & SI' & DP). destruct (prune_full_ok P T0 WF (si_to _ _ SI') (m_mode M) (m_mutex M) bi OB VEC) as (F & al & E2 & OA & CL & LA & KEEP).
    assert (RD := round_assign P T0 nv0 F SI' CL LA). unfold create_full in E. rewrite E1 in E. cbn [obind] in E. rewrite E2 in E. cbn [obind] in E.
    destruct (marked F (IA [] 0)) eqn:EM; [discriminate|]. apply marked_out in EM. destruct (assign P F T0 [] nv0) as [T' n0] eqn:EA. destruct (RD T' n0 eq_refl) as [R LE].
    destruct (clauses_ok P C WF CO T0 F T' n0 R (m_bc M) EM) as (c1 & nv2 & r & blocks & c3 & nv3 & Q1 & Q2 & Q3 & Q4 & Q5 & _ & _ & V & SND & CPL). rewrite Q1 in E. cbn [obind] in E. rewrite Q2 in E. cbn [obind] in E. fold (atoms T') in E. rewrite Q3 in E. cbn [obind] in E. rewrite Q4 in E. cbn [obind vlit] in E.
    destruct (if m_mutex M then mutex_formula P (s_bits C) (m_order M) (m_input M) bi al nv2 (length blocks) nv3 else ([], nv3)) as [c4 nv4]. apply some_eq in E. injection E as E3 E4 E5. subst T nv cl.
    assert (S' : satisfies v (c1 ++ assertYes r ++ pruned_clauses F T' [] ++ c3)) by (intros c Hc; apply S; unfold assertYes in *; cbn [app] in *; rewrite !in_app_iff in *; cbn [In] in *; rewrite !in_app_iff in *; tauto). destruct (SND v S') as (U & N & O & _ & _). exact (print_ok P F T' v (r_to' _ _ _ _ _ R) (r_fi _ _ _ _ _ R) (r_vc _ _ _ _ _ R) (r_leaf _ _ _ _ _ R) U N (root1 P T0 F T' n0 R) WF O (proj2 (r_root _ _ _ _ _ R))).
  Qed.
End Create.

(** C147: for every model of the formula of any depth, the output is defined; the printed actions, numbered from 0 on, are the plan that solves the problem; the printed lines, up to
    the order of the subtasks within a line, are a decomposition tree of the initial task with exactly these actions; and each line lists the subtasks in the order of their execution. *)
Theorem sat_output_correct P C ff bc d T nv cl v :
  wf_problem P -> conf_ok P C -> nth_error (p_prim P) (p_init P) = Some false -> sat_formula P C ff bc d = Some (T, nv, Some cl) -> satisfies v cl ->
  solution P (sat_plan v T) /\ good_output P v T.
Proof.
  intros WF CO AB E S. split.
  - destruct (sat_encoding_sound P C ff bc d WF CO AB) as (T' & nv' & o & E' & H). rewrite E in E'. apply some_eq in E'. injection E' as E3 E4 E5. subst T' nv' o. now apply (H cl eq_refl).
  - destruct (state_ok P C ff bc WF CO AB d) as (st & Es & SI). unfold sat_formula in E. rewrite Es in E. cbn [obind] in E. exact (create_prints P C WF CO ff bc (Datatypes.S d) st T nv cl v SI E S).
Qed.
(** The same for the encoding with mutex clauses and every kind of pruning. *)
Theorem full_output_correct P C M bi d T nv cl v :
  wf_problem P -> conf_ok P C -> nth_error (p_prim P) (p_init P) = Some false -> (forall l, Permutation (m_order M l) l) -> input_fine P M -> (m_mode M = PH2 -> m_mutex M = true) ->
  all_invariants (m_order M) P (m_input M) (m_mutex M) = Some bi -> full_formula P C M d = Some (T, nv, Some cl) -> satisfies v cl ->
  solution P (sat_plan v T) /\ good_output P v T.
Proof.
  intros WF CO AB ORD IO VEC BI E S. split.
  - destruct (full_encoding_sound P C M bi d WF CO AB ORD IO VEC BI) as (T' & nv' & o & E' & H). rewrite E in E'. apply some_eq in E'. injection E' as E3 E4 E5. subst T' nv' o. now apply (H cl eq_refl).
  - assert (OB := table_ok P M WF ORD IO bi BI). destruct (full_state_ok P C M bi WF CO AB ORD IO OB VEC d) as (st & Es & SI). unfold full_formula in E. rewrite BI in E. cbn [obind] in E. rewrite Es in E. cbn [obind] in E. exact (full_prints P C WF CO M bi (Datatypes.S d) st T nv cl v OB VEC SI E S).
Qed.

Module Ex.
  Import Pdt_thm.Ex.
  Definition model : Z -> bool := as_val [2; 3; 6; 9; 10; 11; 13; 14; 18; 21; 22]%Z.
  Definition lines : list row := [{| rw_id := 2; rw_task := 2; rw_meth := 0; rw_kids := [0; 3] |}; {| rw_id := 3; rw_task := 2; rw_meth := 1; rw_kids := [1] |}].
  Lemma model_ok : match sat_formula prob conf true true 1 with Some (T, nv, Some cl) => check model cl = true /\ sat_print prob model T = Some ([(0, 0); (1, 1)], Some 2, lines) | _ => False end.
  Proof. vm_compute. auto. Qed.
  Example printed : exists T nv cl, sat_formula prob conf true true 1 = Some (T, nv, Some cl) /\ satisfies model cl /\ sat_print prob model T = Some ([(0, 0); (1, 1)], Some 2, lines).
  Proof.
    assert (M := model_ok). destruct (sat_formula prob conf true true 1) as [[[T nv] [cl|]]|]; try contradiction. destruct M as [M1 M2]. exists T, nv, cl. split; auto. split; auto.
    intros c Hc. unfold check in M1. rewrite forallb_forall in M1. specialize (M1 c Hc). apply existsb_exists in M1 as (l & L1 & L2). exists l. auto.
  Qed.
  (** The first line lists the action 0 first although the method lists it second. *)
  Example tree_fits : tree_up_to_order prob 2 lines [(0, 0); (1, 1)].
  Proof.
    destruct printed as (T & nv & cl & E & S & PR). destruct (sat_output_correct prob conf true true 1 T nv cl model prob_wf conf_fine eq_refl E S) as (_ & acts & root & rows & PR' & _ & _ & TR & _). rewrite PR in PR'. injection PR' as <- <- <-. exact TR.
  Qed.
End Ex.

(** C148: the lines list the subtasks in the order of their execution, not of the method in the input: read with the listing of the method, they are no decomposition tree. *)
Theorem listing_order_refuted :
  exists P C d T nv cl v acts root rows, wf_problem P /\ conf_ok P C /\ nth_error (p_prim P) (p_init P) = Some false /\
    sat_formula P C true true d = Some (T, nv, Some cl) /\ satisfies v cl /\ sat_print P v T = Some (acts, Some root, rows) /\ ~ tree_ok P root rows acts.
Proof.
  destruct Ex.printed as (T & nv & cl & E & S & PR). exists Pdt_thm.Ex.prob, Pdt_thm.Ex.conf, 1, T, nv, cl, Ex.model, [(0, 0); (1, 1)], 2, Ex.lines.
  split; [exact Pdt_thm.Ex.prob_wf|]. split; [exact Pdt_thm.Ex.conf_fine|]. split; auto. split; auto. split; auto. split; auto.
  intros TR. destruct (tr_rows _ _ _ _ TR {| rw_id := 2; rw_task := 2; rw_meth := 0; rw_kids := [0; 3] |}) as (m & M1 & M2 & M3 & M4); [now left|]. cbn in M1. injection M1 as <-.
  destruct (M4 0 0 eq_refl) as (t & N1 & N2). cbn in N1. injection N1 as <-. destruct N2 as [N2|(r & Hr & Er & _)].
  - destruct N2 as [X|[X|[]]]; discriminate.
  - destruct Hr as [<-|[<-|[]]]; discriminate.
Qed.

Print Assumptions sat_output_correct.
Print Assumptions full_output_correct.
Print Assumptions listing_order_refuted.
