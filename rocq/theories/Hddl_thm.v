(** Theorems about the hierarchical plans printed for the translation of totally ordered problems. *)
From Coq Require Import List Arith Lia Relations.
Import ListNotations.
From Verif Require Import Base Htn_problem Htn_spec To_spec To_sem Tree_spec Htn_check Sas_model Sas_spec Sas_proof Sas_sim Sas_act Sas_rep Sas_stack Sas_ops Sas_run Sas_thm Hddl_model Hddl_proof Hddl_tree.

Section Run.
  Variables (P : problem) (V : list (nat * nat)) (S : sproblem) (pgb : nat) (T : fd_task).
  Hypotheses (SP : sp_ok P V S) (AF : actions_first P) (LA : leading_agree P V) (PG : 1 <= pgb).
  Hypothesis OK : forall n o, In (n, o) (fd_ops T) -> op_like P V S pgb n o.

  Lemma run_srun pl w w' : fd_run T w pl w' -> (forall x, In x pl -> noop (snd x) = false) -> forall s v k, w = v ++ stv pgb k -> reached P s -> rep V s v -> length k <= pgb ->
    exists s' v' k', w' = v' ++ stv pgb k' /\ rep V s' v' /\ (k' = [] -> srun P k (map fst pl)).
  Proof.
    induction 1 as [w|w n o r w' I A RUN IH]; intros NN s v k -> R RP Lk.
    - exists s, v, k. split; auto. split; auto. intros ->. constructor.
    - assert (NO := NN _ (or_introl eq_refl)). cbn in NO. assert (OL := OK n o I). destruct n as [i j|i j subs prims]; cbn [op_like] in OL.
      + destruct OL as (Lj & Li & AL). destruct (step_act P V S pgb SP PG i j o s v k Lj AL R RP Lk) as (_ & C & X & Y). destruct (X A) as (AP & k0 & Ek & Lk0). destruct (Y k0 Ek Lk0 AP) as (_ & v' & RV & ER). subst k. cbn [length] in Lk.
        destruct (IH (fun x J => NN x (or_intror J)) (result P s i) v' k0 ER (reached_step P s i R AP) RV ltac:(lia)) as (s2 & v2 & k2 & E2 & R2 & D2). exists s2, v2, k2. split; auto. split; auto. intros Q. cbn [map fst]. apply (s_cons P _ i [] k0); auto. constructor; now apply AF.
      + destruct OL as (Lj & (m & rest & Em & Es & LD & Lr & [AL|[-> _]]) & NL); [|discriminate]. destruct (step_meth P V S pgb SP LA PG i j prims m rest o s v k Lj Em Es LD Lr AL R RP Lk) as (_ & C & X & Y). destruct (X A) as (EX & k0 & Ek & Lk0). destruct (Y k0 Ek Lk0 EX) as (_ & v' & RV & ER).
        subst k. destruct (IH (fun x J => NN x (or_intror J)) (after P s prims) v' (rest ++ k0) ER (reached_after P prims s R EX) RV ltac:(rewrite app_length; lia)) as (s2 & v2 & k2 & E2 & R2 & D2). exists s2, v2, k2. split; auto. split; auto. intros Q. cbn [map fst]. apply (s_cons P _ (m_task m) rest k0); auto.
        destruct NL as (m' & rest' & Em' & Es' & RO & SB). rewrite Em in Em'. injection Em' as <-. rewrite Es in Es'. apply app_inv_head in Es'. subst rest'. destruct LD as (rr & _ & PR & _). apply ok_meth; auto.
  Qed.
End Run.

Lemma snd_combine (l : list nat) : forall b, map snd (combine (seq b (length l)) l) = l.
Proof. induction l as [|y l IH]; intros b; cbn [length seq combine map snd]; auto. now rewrite IH. Qed.

Section Thm.
  Variables (P : problem) (V : list (nat * nat)).
  Hypotheses (TB : to_base P V) (S0 : s0_found P V) (SE : single_effects P V) (LO : listed_in_order P) (LA : leading_agree P V).

  (** C112: the printed tree of a plan without operators for inapplicable leading tasks is a decomposition tree of the printed actions *)
  Theorem hddl_valid pgb T pl : 1 <= pgb -> translate P V pgb = Some T -> fd_plan T pl -> effective pl = pl ->
    exists acts root rs, plan_to_hddl P (map fst pl) = Some (acts, root, map lift rs) /\ tree_ok P root rs acts /\ map snd acts = printed (map fst pl).
  Proof.
    intros PG ET (w & RUN & G) EF. assert (NN : forall x, In x pl -> noop (snd x) = false). { intros x I. rewrite <- EF in I. apply filter_In in I as [_ I]. now destruct (noop (snd x)). }
    destruct (translate_good P V TB S0 SE LO pgb PG) as (S & T' & v0 & SP & ET' & GD & R0 & EI & EG & _). rewrite ET in ET'. injection ET' as <-. rewrite EI in RUN. assert (WF := tb_wf _ _ TB).
    destruct (run_srun P V S pgb T SP (tb_act _ _ TB) LA PG (g_like _ _ _ _ _ GD) pl _ w RUN NN (initial_state P) v0 [p_init P] eq_refl (reached_init P) R0) as (s' & v' & k' & -> & RP & D); [cbn; lia|].
    apply (proj1 (goals P V S v' _ k' pgb _ T SP RP eq_refl EG)) in G as [_ K]. specialize (D K). set (ls := map fst pl) in *.
    assert (RO : exists ro, omap (reorder (p_prim P)) (p_methods P) = Some ro).
    { apply omap_some. intros m I. apply In_nth_error in I as (i & E). destruct (meth_lead P pgb WF LO PG i m E) as (? & ? & _ & _ & X). eauto. }
    destruct RO as (ro & RO). unfold plan_to_hddl. rewrite RO. cbn [obind]. rewrite (prim_max_ok P ro RO ls (srun_ok P _ _ D)). cbn [obind]. rewrite (pass_ok P ro RO ls (srun_ok P _ _ D)). cbn [obind].
    destruct (rows_ok P ro RO (length (printed ls)) _ _ D 0 0) as (rs & E & RA & RB & RC). rewrite E. cbn [obind]. eexists _, _, rs. split; [reflexivity|]. split; [exact (tree_valid P ls rs WF LO D RA RB RC)|].
    apply snd_combine.
  Qed.
End Thm.

Module HEx.
  Example ex : exists T pl, translate Ex.p Ex.vs 2 = Some T /\ fd_plan T pl /\ effective pl = pl /\
    exists rs, plan_to_hddl Ex.p (map fst pl) = Some ([(0, 0); (1, 2); (2, 0); (3, 1); (4, 2)], 5, map lift rs) /\ length rs = 3 /\ tree_ok Ex.p 5 rs [(0, 0); (1, 2); (2, 0); (3, 1); (4, 2)].
  Proof.
    destruct (translate Ex.p Ex.vs 2) as [T|] eqn:E; [|vm_compute in E; discriminate]. destruct (run_ix T (fd_init T) [10; 6; 8]) as [[pl w]|] eqn:R; [|run_tac E R].
    assert (FP : fd_plan T pl) by (apply (run_ix_plan _ _ _ _ R); run_tac E R; injection R as <- <-; reflexivity). assert (EF : effective pl = pl) by (run_tac E R; injection R as <- <-; reflexivity).
    exists T, pl. split; auto. split; auto. split; auto. destruct (hddl_valid Ex.p Ex.vs Ex.base Ex.s0 Ex.se Ex.lo Ex.la 2 T pl (le_S _ _ (le_n 1)) E FP EF) as (acts & root & rs & EH & TR & _). exists rs.
    assert (X : exists r, plan_to_hddl Ex.p (map fst pl) = Some ([(0, 0); (1, 2); (2, 0); (3, 1); (4, 2)], 5, r) /\ length r = 3) by (clear FP EF EH; run_tac E R; injection R as <- <-; eexists; split; [reflexivity|reflexivity]).
    destruct X as (r & X & L). rewrite X in EH. injection EH as <- <- ->. rewrite map_length in L. auto.
  Qed.
End HEx.

(** C113: the printed tree of every plan is a decomposition tree *)
Definition any_hddl : Prop := forall P V pgb T pl, to_base P V -> s0_found P V -> single_effects P V -> listed_in_order P -> leading_agree P V -> 1 <= pgb ->
  translate P V pgb = Some T -> fd_plan T pl ->
  exists acts root rs, plan_to_hddl P (map fst pl) = Some (acts, root, map lift rs) /\ tree_ok P root rs acts.

Theorem any_hddl_refuted : ~ any_hddl.
Proof.
  intros H. destruct (translate Bad.p2 (singles 1) 1) as [T|] eqn:E; [|vm_compute in E; discriminate]. destruct (run_ix T (fd_init T) [2; 3]) as [[pl w]|] eqn:R; [|run_tac E R].
  assert (FP : fd_plan T pl) by (apply (run_ix_plan _ _ _ _ R); run_tac E R; injection R as <- <-; reflexivity).
  destruct (H Bad.p2 (singles 1) 1 T pl) as (acts & root & rs & EH & TR); auto.
  - base_tac.
  - split; [cbn; lia|]. split; [intros i b [<-|[]] F; apply singles_of in F; subst; cbn; lia|]. intros N. exfalso. apply (N 0). exists 0. reflexivity.
  - intros a i b _ _ (l & E' & I) _. destruct a as [|[|a]]; [| |destruct a; discriminate]; injection E' as <-; destruct I.
  - apply in_order_check. reflexivity.
  - apply singles_agree.
  - assert (X : plan_to_hddl Bad.p2 (map fst pl) = Some ([(0, 0); (1, 1); (2, 0)], 3, [{| hr_id := 3; hr_task := 2; hr_meth := 0; hr_kids := [Some 0; Some 1] |}; {| hr_id := 4; hr_task := 2; hr_meth := 1; hr_kids := [Some 2] |}])) by (clear FP EH; run_tac E R; injection R as <- <-; reflexivity).
    rewrite X in EH. injection EH as <- <- EH. destruct rs as [|[i1 t1 m1 k1] [|[i2 t2 m2 k2] [|? ?]]]; try discriminate. cbn [map] in EH. unfold lift in EH. cbn in EH. injection EH as <- <- <- K1 <- <- <- K2.
    destruct k1 as [|? [|? [|? ?]]]; try discriminate. injection K1 as <- <-. destruct k2 as [|? [|? ?]]; try discriminate. injection K2 as <-.
    destruct (tr_parent _ _ _ _ TR 4) as (q & j & r & I & _ & Ej); [cbn; auto|lia|]. destruct I as [<-|[<-|[]]]; cbn in Ej; destruct j as [|[|j]]; cbn in Ej; try discriminate; destruct j; discriminate.
Qed.

Print Assumptions hddl_valid.
Print Assumptions any_hddl_refuted.
