(** The plans of the translation of totally ordered problems for one bound are exactly the solutions that can be carried out with that number of cells. *)
From Coq Require Import Relations.
From Verif Require Import Base Htn_problem Htn_spec To_spec To_sem Sas_model Sas_spec Sas_proof Sas_sim Sas_act Sas_rep Sas_stack Sas_ops Sas_run Sas_thm Pgb_spec.

Scheme carried_min := Minimality for carried Sort Prop
  with stack_min := Minimality for stack Sort Prop.
Combined Scheme carried_stack_min from carried_min, stack_min.

Lemma stack_split P k0 k q : forall ts p, stack P (ts ++ k0) k p -> q = ts -> exists p1 p2, p = p1 ++ p2 /\ stack P ts (k - length k0) p1 /\ stack P k0 k p2.
Proof.
  intros ts p H _. revert p H. induction ts as [|t ts IH]; intros p H; cbn [app] in H.
  - exists [], p. split; auto. split; auto. constructor.
  - inversion H as [|? ? ? p0 q0 L C S]; subst. destruct (IH _ S) as (p1 & p2 & -> & S1 & S2). rewrite app_length in *. exists (p0 ++ p1), p2. split; [now rewrite app_assoc|]. split; auto.
    constructor; auto; [lia|]. replace (k - length k0 - length ts) with (k - (length ts + length k0)) by lia. auto.
Qed.

Lemma carried_mono P : (forall t k p, carried P t k p -> forall k', k <= k' -> carried P t k' p) /\ (forall ts k p, stack P ts k p -> forall k', k <= k' -> stack P ts k' p).
Proof.
  apply carried_stack_min.
  - intros t k Pt L k' L'. constructor; auto. lia.
  - intros m prims rest k p I Es LD L S IH k' L'. eapply c_meth; eauto. lia.
  - intros k k' _. constructor.
  - intros t ts k p q L C IHC S IHS k' L'. constructor; auto; [lia|]. apply IHC. lia.
Qed.

Section Run.
  Variables (P : problem) (V : list (nat * nat)) (S : sproblem) (pgb : nat) (T : fd_task).
  Hypotheses (SP : sp_ok P V S) (AF : actions_first P) (LA : leading_agree P V) (PG : 1 <= pgb).
  Hypothesis OK : forall n o, In (n, o) (fd_ops T) -> op_like P V S pgb n o.

  Lemma run_stack pl w w' : fd_run T w pl w' -> forall s v k, w = v ++ stv pgb k -> reached P s -> rep V s v -> length k <= pgb ->
    exists s' v' k', w' = v' ++ stv pgb k' /\ rep V s' v' /\ (k' = [] -> stack P k pgb (printed (map fst (effective pl)))).
  Proof.
    induction 1 as [w|w n o r w' I A RUN IH]; intros s v k -> R RP Lk.
    - exists s, v, k. split; auto. split; auto. intros ->. constructor.
    - destruct (noop o) eqn:NO.
      + destruct (noop_app (v ++ stv pgb k) o NO) as (_ & X). assert (E : effective ((n, o) :: r) = effective r) by (unfold effective; cbn [filter snd]; now rewrite NO). rewrite E. apply (IH s v k); auto.
      + assert (E : effective ((n, o) :: r) = (n, o) :: effective r) by (unfold effective; cbn [filter snd]; now rewrite NO). rewrite E. cbn [map fst]. rewrite printed_cons.
        assert (OL := OK n o I). destruct n as [i j|i j subs prims]; cbn [op_like] in OL.
        * destruct OL as (Lj & Li & AL). destruct (step_act P V S pgb SP PG i j o s v k Lj AL R RP Lk) as (_ & C & X & Y). destruct (X A) as (AP & k0 & Ek & Lk0). destruct (Y k0 Ek Lk0 AP) as (_ & v' & RV & ER). subst k. cbn [length] in Lk.
          destruct (IH (result P s i) v' k0 ER (reached_step P s i R AP) RV ltac:(lia)) as (s2 & v2 & k2 & E2 & R2 & D2). exists s2, v2, k2. split; auto. split; auto. intros Q.
          constructor; auto. constructor; [now apply AF|lia].
        * destruct OL as (Lj & (m & rest & Em & Es & LD & Lr & [AL|[-> _]]) & NL); [|discriminate]. destruct (step_meth P V S pgb SP LA PG i j prims m rest o s v k Lj Em Es LD Lr AL R RP Lk) as (_ & C & X & Y). destruct (X A) as (EX & k0 & Ek & Lk0). destruct (Y k0 Ek Lk0 EX) as (_ & v' & RV & ER).
          subst k. destruct (IH (after P s prims) v' (rest ++ k0) ER (reached_after P prims s R EX) RV ltac:(rewrite app_length; lia)) as (s2 & v2 & k2 & E2 & R2 & D2). exists s2, v2, k2. split; auto. split; auto. intros Q. destruct (stack_split P k0 pgb rest rest _ (D2 Q) eq_refl) as (p1 & p2 & -> & S1 & S2).
          assert (PR : printed [NMeth i j subs prims] = prims) by (unfold printed; cbn; apply app_nil_r). rewrite PR, app_assoc. cbn [length] in Lk. constructor; auto. eapply c_meth; eauto; [eapply nth_error_In; eauto|lia].
  Qed.
End Run.

Section Complete.
  Variables (P : problem) (V : list (nat * nat)) (S : sproblem).
  Hypotheses (WF : wf_problem P) (SP : sp_ok P V S).
  Hypotheses (LO : listed_in_order P) (LA : leading_agree P V).
  Variables (pgb : nat) (T : fd_task).
  Hypothesis G : good P V S pgb T.

  Definition runs (ts p k0 : list nat) : Prop := forall s v, reached P s -> rep V s v -> executable P s p ->
    exists ops v', fd_run T (v ++ stv pgb (ts ++ k0)) ops (v' ++ stv pgb k0) /\ rep V (after P s p) v' /\ printed (map fst ops) = p /\ effective ops = ops.

  Lemma carried_runs : (forall t k p, carried P t k p -> forall k0, length k0 + k <= pgb -> runs [t] p k0) /\ (forall ts k p, stack P ts k p -> forall k0, length k0 + k <= pgb -> runs ts p k0).
  Proof.
    apply carried_stack_min.
    - intros t k Pt Lk k0 L s v R RP EX. cbn in EX. destruct EX as [AP _]. assert (Li := wf_prim P WF t Pt). destruct (g_act _ _ _ _ _ G t (length k0) Li) as (o & I); [lia|].
      assert (OL := g_like _ _ _ _ _ G _ _ I). cbn in OL. destruct OL as (Lj & _ & AL). destruct (step_act P V S pgb SP ltac:(lia) t (length k0) o s v (t :: k0) Lj AL R RP) as (NO & C & _ & Y); [cbn; lia|].
      destruct (Y k0 eq_refl eq_refl AP) as (FA & v' & RV & ER). exists [(NPrim t (length k0), o)], v'. split; [|split; [exact RV|]].
      + cbn [app]. econstructor; eauto. rewrite ER. constructor.
      + split; [reflexivity|]. unfold effective. cbn [filter snd]. now rewrite NO.
    - intros m prims rest k p I Es LD Lk ST IH k0 L s v R RP EX. apply executable_app in EX as [E1 E2]. assert (Lr : length rest <= k). { clear - ST Lk. destruct ST; cbn; lia. }
      apply In_nth_error in I as (i & Em). destruct (g_meth _ _ _ _ _ G i m Em) as (prims' & rest' & Es' & LD' & GM).
      destruct (GM (length k0)) as (subs & o & Io).
      { lia. } { assert (rest' = rest); [|subst rest'; lia]. clear - Es Es' LD LD'. destruct LD as (r & E & HP & HN), LD' as (r' & E' & HP' & HN'). rewrite Es in E. apply app_inv_head in E. subst r. rewrite Es' in E'. apply app_inv_head in E'. subst r'.
        rewrite Es in Es'. clear Es m. revert prims' HP' Es'. induction prims as [|a l IH]; intros [|b l'] HP' E; cbn in E; auto.
        - subst rest. exfalso. apply (HN b (l' ++ rest')); auto. apply HP'. now left.
        - subst rest'. exfalso. apply (HN' a (l ++ rest)); auto. apply HP. now left.
        - injection E as -> E. apply (IH (fun t J => HP t (or_intror J)) l'); auto. intros; apply HP'; now right. }
      assert (OL := g_like _ _ _ _ _ G _ _ Io). cbn in OL. destruct OL as (Lj & (m' & rest2 & Em' & Es2 & LD2 & Lr2 & AL) & _).
      rewrite Em in Em'. injection Em' as <-.
      assert (X : prims' = prims /\ rest2 = rest).
      { clear - Es Es2 LD LD2. destruct LD as (r & E & HP & HN), LD2 as (r' & E' & HP' & HN'). rewrite Es in E. apply app_inv_head in E. subst r. rewrite Es2 in E'. apply app_inv_head in E'. subst r'.
        rewrite Es in Es2. clear Es m. revert prims' HP' Es2. induction prims as [|a l IH]; intros [|b l'] HP' E; cbn in E; auto.
        - subst rest. exfalso. apply (HN b (l' ++ rest2)); auto. apply HP'. now left.
        - subst rest2. exfalso. apply (HN' a (l ++ rest)); auto. apply HP. now left.
        - injection E as -> E. destruct (IH (fun t J => HP t (or_intror J)) l') as [-> ->]; auto. intros; apply HP'; now right. }
      destruct X as [-> ->]. destruct AL as [AL|[_ NE]]; [|exfalso; eapply NE; eauto].
      destruct (step_meth P V S pgb SP LA ltac:(lia) i (length k0) prims m rest o s v (m_task m :: k0) Lj Em Es LD ltac:(lia) AL R RP) as (NO & C & _ & Y); [cbn; lia|]. destruct (Y k0 eq_refl eq_refl E1) as (FA & v' & RV & ER).
      destruct (IH k0 L (after P s prims) v' (reached_after P prims s R E1) RV E2) as (o2 & v2 & R2 & RP2 & P2 & X2).
      exists ((NMeth i (length k0) subs prims, o) :: o2), v2. split; [|split; [now rewrite after_app|]].
      + cbn [app]. econstructor; eauto. rewrite ER. exact R2.
      + cbn [map fst]. rewrite printed_cons, P2. split; [unfold printed; cbn; now rewrite app_nil_r|]. unfold effective in *. cbn [filter snd]. rewrite NO. cbn [negb]. now rewrite X2.
    - intros k k0 L s v R RP EX. exists [], v. cbn. repeat split; auto; try apply RP. constructor.
    - intros t ts k p q Lt C IHC ST IHS k0 L s v R RP EX. apply executable_app in EX as [E1 E2]. destruct (IHC (ts ++ k0) ltac:(rewrite app_length; lia) s v R RP E1) as (o1 & v1 & R1 & RP1 & P1 & F1).
      destruct (IHS k0 L (after P s p) v1 (reached_after P p s R E1) RP1 E2) as (o2 & v2 & R2 & RP2 & P2 & F2). exists (o1 ++ o2), v2. split; [eapply fd_run_app; eauto|]. rewrite after_app. split; auto. rewrite map_app, printed_app, effective_app. split; congruence.
  Qed.
End Complete.

Section Thm.
  Variables (P : problem) (V : list (nat * nat)).
  Hypotheses (TB : to_base P V) (S0 : s0_found P V) (SE : single_effects P V) (LO : listed_in_order P) (LA : leading_agree P V).

  (** C137: the plans for the bound [pgb] print exactly the solutions that can be carried out with [pgb] cells *)
  Theorem bound_exact pgb T plan : 1 <= pgb -> translate P V pgb = Some T ->
    (exists pl, fd_plan T pl /\ printed (map fst (effective pl)) = plan) <-> solution P plan /\ carried P (p_init P) pgb plan.
  Proof.
    intros PG ET. destruct (translate_good P V TB S0 SE LO pgb PG) as (S & T' & v0 & SP & ET' & GD & R0 & EI & EG & _). rewrite ET in ET'. injection ET' as <-. assert (WF := tb_wf _ _ TB). split.
    - intros (pl & FP & <-). split; [exact (proj1 (to_sound P V TB S0 SE LO LA pgb T pl PG ET FP))|]. destruct FP as (w & RUN & G). rewrite EI in RUN.
      destruct (run_stack P V S pgb T SP (tb_act _ _ TB) LA PG (g_like _ _ _ _ _ GD) pl _ w RUN (initial_state P) v0 [p_init P] eq_refl (reached_init P) R0) as (s' & v' & k' & -> & RP & D); [cbn; lia|].
      apply (proj1 (goals P V S v' _ k' pgb _ T SP RP eq_refl EG)) in G as [_ K]. specialize (D K). inversion D as [|? ? ? p q L C ST]; subst. cbn [length] in C. rewrite Nat.sub_0_r in C. inversion ST; subst. now rewrite app_nil_r.
    - intros [SOL C]. apply (proj1 (derives_solution P WF (linear P LO) plan)) in SOL as (_ & EX & G).
      destruct (proj1 (carried_runs P V S WF SP LA pgb T GD) _ _ _ C [] ltac:(cbn; lia) (initial_state P) v0 (reached_init P) R0 EX) as (ops & v' & RUN & RP & PR & EF). cbn [app] in RUN. rewrite <- EI in RUN.
      exists ops. split; [|now rewrite EF, PR]. exists (v' ++ stv pgb []). split; auto. apply (proj2 (goals P V S v' _ [] pgb _ T SP RP eq_refl EG)). auto.
  Qed.
End Thm.
