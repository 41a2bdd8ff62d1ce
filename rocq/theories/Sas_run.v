(** Translation to SAS+: plans of the written task and solutions of the HTN problem. *)
From Coq Require Import Relations.
From Verif Require Import Base Htn_problem Htn_spec To_spec To_sem Sas_model Sas_spec Sas_proof Sas_sim Sas_act Sas_rep Sas_stack Sas_ops.

Lemma printed_cons n l : printed (n :: l) = printed [n] ++ printed l.
Proof. unfold printed. cbn [map concat]. now rewrite app_nil_r. Qed.
Lemma printed_app l1 l2 : printed (l1 ++ l2) = printed l1 ++ printed l2.
Proof. unfold printed. now rewrite map_app, concat_app. Qed.
Lemma plan_cost_app P l1 l2 : plan_cost P (l1 ++ l2) = plan_cost P l1 + plan_cost P l2.
Proof. unfold plan_cost. now rewrite map_app, list_sum_app. Qed.
Lemma fd_plan_cost_cons n o r : fd_plan_cost ((n, o) :: r) = f_cost o + fd_plan_cost r.
Proof. reflexivity. Qed.
Lemma fd_run_app T s1 l1 s2 : fd_run T s1 l1 s2 -> forall l2 s3, fd_run T s2 l2 s3 -> fd_run T s1 (l1 ++ l2) s3.
Proof. induction 1; intros l2 s3 R; cbn; auto. econstructor; eauto. Qed.

Lemma subs_derive P m plans h o : o = seq 0 (length (m_subs m)) -> Forall2 (fun t p => derives P h t p) (m_subs m) plans ->
  Forall2 (fun j p => exists u, nth_error (m_subs m) j = Some u /\ derives P h u p) o plans.
Proof.
  intros -> F. assert (X : forall l l' off, (forall k u, nth_error l k = Some u -> nth_error (m_subs m) (off + k) = Some u) -> Forall2 (fun t p => derives P h t p) l l' ->
    Forall2 (fun j p => exists u, nth_error (m_subs m) j = Some u /\ derives P h u p) (seq off (length l)) l').
  { clear F. induction l as [|t l IH]; intros l' off H F; inversion F as [|? p ? q D F']; subst; cbn; constructor.
    - exists t. split; auto. specialize (H 0 t eq_refl). now rewrite Nat.add_0_r in H.
    - apply IH; auto. intros k u E. specialize (H (S k) u E). now rewrite Nat.add_succ_r in H. }
  apply (X (m_subs m) plans 0); auto.
Qed.
Lemma subs_derive' P m plans h : Forall2 (fun j p => exists u, nth_error (m_subs m) j = Some u /\ derives P h u p) (seq 0 (length (m_subs m))) plans ->
  Forall2 (fun t p => derives P h t p) (m_subs m) plans.
Proof.
  intros F. assert (X : forall l l' off, (forall k u, nth_error l k = Some u -> nth_error (m_subs m) (off + k) = Some u) -> Forall2 (fun j p => exists u, nth_error (m_subs m) j = Some u /\ derives P h u p) (seq off (length l)) l' ->
    Forall2 (fun t p => derives P h t p) l l').
  { clear F. induction l as [|t l IH]; intros l' off H F; cbn in F; inversion F as [|? p ? q D F']; subst; constructor.
    - destruct D as (u & Eu & D). specialize (H 0 t eq_refl). rewrite Nat.add_0_r, Eu in H. injection H as ->. exact D.
    - apply (IH _ (S off)); auto. intros k u E. specialize (H (S k) u E). now rewrite Nat.add_succ_r in H. }
  apply (X (m_subs m) plans 0); auto.
Qed.
(** With the subtasks listed in order there is only one order. *)
Lemma total_unique m n o : (forall j, ~ m_lt m j j) -> total_seq m (seq 0 n) -> n = length (m_subs m) -> total_seq m o -> o = seq 0 n.
Proof.
  intros AC T En T'. assert (TB := total_before m n T). destruct T' as (ND & Hin & Hord). subst n.
  assert (X : forall o a, NoDup o -> (forall j, In j o <-> a <= j < length (m_subs m)) -> (forall l1 x l2 y, o = l1 ++ x :: l2 -> In y l2 -> m_lt m x y) -> o = seq a (length (m_subs m) - a)).
  { clear ND Hin Hord o. induction o as [|x o IH]; intros a ND H O.
    - destruct (length (m_subs m) - a) eqn:Q; [reflexivity|]. destruct (proj2 (H a)); lia.
    - assert (Ix := proj1 (H x) (or_introl eq_refl)). inversion ND as [|? ? N1 N2]; subst. assert (x = a).
      { destruct (Nat.eq_dec x a); auto. assert (Ia : In a (x :: o)) by (apply H; lia). destruct Ia as [|Ia]; auto. assert (m_lt m x a) by (apply (O [] x o a eq_refl Ia)). assert (m_lt m a x) by (apply TB; lia).
        exfalso. apply (AC a). eapply t_trans; eauto. }
      subst x. replace (length (m_subs m) - a) with (S (length (m_subs m) - S a)) by lia. cbn [seq]. f_equal. apply IH; auto.
      + intros j. split.
        * intros I. assert (Y := proj1 (H j) (or_intror I)). assert (j <> a) by (intros ->; auto). lia.
        * intros L. destruct (proj2 (H j)) as [E|I]; auto; lia.
      + intros l1 x l2 y E I. apply (O (a :: l1) x l2 y); auto. cbn. now rewrite E. }
  rewrite (X o 0 ND); [f_equal; lia| |exact Hord]. intros j. rewrite Hin. lia.
Qed.
Lemma derives_sup P l plans : Forall2 (fun t p => exists h, derives P h t p) l plans -> exists h, Forall2 (fun t p => derives P h t p) l plans.
Proof.
  induction 1 as [|t p l ps (h1 & D) H (h2 & IH)]; [exists 0; constructor|]. exists (max h1 h2). constructor.
  - eapply derives_mono; [|exact D]. lia.
  - eapply forall2_imp_in; [|exact IH]. cbn beta. intros y q _ Dw. eapply derives_mono; [|exact Dw]. lia.
Qed.

Section Run.
  Variables (P : problem) (V : list (nat * nat)) (S : sproblem) (pgb : nat) (T : fd_task).
  Hypotheses (WF : wf_problem P) (SP : sp_ok P V S).
  Hypotheses (LO : listed_in_order P) (AF : actions_first P) (LA : leading_agree P V) (PG : 1 <= pgb).
  Hypothesis OK : forall n o, In (n, o) (fd_ops T) -> op_like P V S pgb n o.
  Notation W := (sp_var S).
  Notation nV := (length (sp_var S)).
  Notation reached := (reached P).
  Notation sim := (sim P V S).

  Lemma sim_lt l pp ee : sim l pp ee -> (forall i d, In (i, d) pp -> i < nV) /\ (forall i d, In (i, d) ee -> i < nV).
  Proof. intros (A & _). split; intros i d I; destruct (A i d) as (b & F); auto; eapply fact_of_lt; eauto. Qed.
  Lemma rep_len s v : rep V s v -> length v = nV. Proof. intros [L _]. rewrite L. symmetry. apply SP. Qed.

  Lemma all_holds pp x y (v r : list nat) j : length v = nV -> (forall i d, In (i, d) pp -> i < nV) ->
    (forall st, (forall p, In p st <-> p = (nV + (1 + j), x) \/ p = (nV, y)) ->
      ((forall p, In p (pp ++ st) -> holds (v ++ r) p) <-> (forall p, In p pp -> holds v p) /\ holds r (0, y) /\ holds r (1 + j, x)) /\
      ((forall p, In p (st ++ pp) -> holds (v ++ r) p) <-> (forall p, In p pp -> holds v p) /\ holds r (0, y) /\ holds r (1 + j, x))).
  Proof.
    intros L H st Hst. assert (X : (forall p, In p st -> holds (v ++ r) p) <-> holds r (0, y) /\ holds r (1 + j, x)).
    { rewrite <- (holds_back v r 0 y), <- (holds_back v r (1 + j) x), L, Nat.add_0_r. split; [intros Q; split; apply Q, Hst; auto|]. intros [Q1 Q2] p I. apply Hst in I as [->| ->]; auto. }
    assert (Y : (forall p, In p pp -> holds (v ++ r) p) <-> forall p, In p pp -> holds v p).
    { split; intros Q [i d] I; specialize (Q _ I); (apply (proj1 (holds_front v r i d ltac:(rewrite L; eauto))) in Q || apply (proj2 (holds_front v r i d ltac:(rewrite L; eauto)))); auto. }
    rewrite <- X, <- Y. split; (split; [intros Q; split; intros p I; apply Q, in_or_app; auto|intros [Q1 Q2] p I; apply in_app_or in I as [I|I]; auto]).
  Qed.
  Lemma ps_fun (pp st : list (nat * nat)) (x y j : nat) : (forall i d, In (i, d) pp -> i < nV) -> (forall i d e, In (i, d) pp -> In (i, e) pp -> d = e) -> (forall p, In p st <-> p = (nV + (1 + j), x) \/ p = (nV, y)) ->
    (forall i d e, In (i, d) (pp ++ st) -> In (i, e) (pp ++ st) -> d = e) /\ (forall i d e, In (i, d) (st ++ pp) -> In (i, e) (st ++ pp) -> d = e).
  Proof.
    intros L F Hst. assert (X : forall i d e, (In (i, d) pp \/ In (i, d) st) -> (In (i, e) pp \/ In (i, e) st) -> d = e).
    { assert (C : forall i d, In (i, d) st -> (i = nV + (1 + j) /\ d = x) \/ (i = nV /\ d = y)) by (intros i d I; apply Hst in I as [E|E]; apply pair_equal_spec in E; auto).
      intros i d e [A|A] [B|B]; [eauto| | |].
      - apply L in A. apply C in B. lia.
      - apply L in B. apply C in A. lia.
      - apply C in A. apply C in B. lia. }
    split; intros i d e A B; apply in_app_or in A; apply in_app_or in B; apply (X i); tauto.
  Qed.

  Lemma step_act i j o s v k : j < pgb -> act_like P V S i j o -> reached s -> rep V s v -> length k <= pgb ->
    noop o = false /\ f_cost o = cost_of P i /\
    (fd_applicable (v ++ stv pgb k) o -> applicable P s i /\ exists k0, k = i :: k0 /\ length k0 = j) /\
    (forall k0, k = i :: k0 -> length k0 = j -> applicable P s i -> fd_applicable (v ++ stv pgb k) o /\
      exists v', rep V (result P s i) v' /\ fd_result (v ++ stv pgb k) o = v' ++ stv pgb k0).
  Proof.
    intros Lj (pp & ee & SM & ->) R RP Lk. destruct (sim_lt _ _ _ SM) as (Lp & Le). assert (Lv := rep_len _ _ RP). destruct SM as (_ & Fp & SM). destruct (SM s v R RP) as (S1 & S2 & S3). cbn [executable after] in S1, S2, S3.
    split; [|split; [reflexivity|]].
    { unfold noop, write_op. cbn [f_prev f_eff]. destruct (filter _ _); [|reflexivity]. rewrite map_app. destruct (map _ ee); reflexivity. }
    assert (HST : forall p, In p [(nV + (1 + j), 1 + i); (nV, 1 + j)] <-> p = (nV + (1 + j), 1 + i) \/ p = (nV, 1 + j)) by (intros p; cbn; split; intros [A|A]; auto; destruct A; auto; tauto).
    assert (AP : fd_applicable (v ++ stv pgb k) (write_op (pp ++ [(nV + (1 + j), 1 + i); (nV, 1 + j)]) (ee ++ [(nV + (1 + j), 0); (nV, j)]) (cost_of P i)) <->
                 (forall p, In p pp -> holds v p) /\ exists k0, k = i :: k0 /\ length k0 = j).
    { rewrite wo_app by (apply (ps_fun pp _ _ _ j Lp Fp HST)). rewrite (proj1 (all_holds pp _ _ v (stv pgb k) j Lv Lp _ HST)). now rewrite (stv_top pgb k j i Lj Lk). }
    split.
    - intros A. apply AP in A as [A B]. split; auto. destruct S2 as [X _]; auto. intros l1 a l2 c l3 ? ? ? E. exfalso. destruct l1 as [|? [|? ?]]; cbn in E; try discriminate; injection E as _ E; destruct l2; discriminate.
    - intros k0 Ek Lk0 A. destruct (S3 (conj A Logic.I)) as (L' & RR). split; [apply AP; split; [intros p I; apply S1; auto|eauto]|]. exists (fassign ee v). split; [apply S3; auto|].
      rewrite wo_res, fassign_app, fassign_front by (intros x d I; rewrite Lv; eauto). rewrite <- Lv, <- (fassign_length ee v). subst k j.
      change [(length (fassign ee v) + (1 + length k0), 0); (length (fassign ee v), length k0)] with ([shift (length (fassign ee v)) (1 + length k0, 0); (length (fassign ee v), length k0)]). rewrite <- (Nat.add_0_r (length (fassign ee v))) at 2.
      change [shift (length (fassign ee v)) (1 + length k0, 0); (length (fassign ee v) + 0, length k0)] with (map (shift (length (fassign ee v))) [(1 + length k0, 0); (0, length k0)]). rewrite fassign_back, stv_pop by lia. reflexivity.
  Qed.

  Lemma push_not_nil j rest : push j rest <> [].
  Proof. unfold push. destruct rest as [|a [|b r]]; cbn [length]; try discriminate. destruct (combine _ _); discriminate. Qed.

  Lemma step_meth i j prims m rest o s v k : j < pgb -> nth_error (p_methods P) i = Some m -> m_subs m = prims ++ rest -> leading P m prims -> length rest + j <= pgb ->
    (exists pp ee, sim prims pp ee /\ o = write_op ([(nV, 1 + j); (nV + (1 + j), m_task m + 1)] ++ pp) (map (shift nV) (push j rest) ++ ee) (plan_cost P prims)) ->
    reached s -> rep V s v -> length k <= pgb ->
    noop o = false /\ f_cost o = plan_cost P prims /\
    (fd_applicable (v ++ stv pgb k) o -> executable P s prims /\ exists k0, k = m_task m :: k0 /\ length k0 = j) /\
    (forall k0, k = m_task m :: k0 -> length k0 = j -> executable P s prims -> fd_applicable (v ++ stv pgb k) o /\
      exists v', rep V (after P s prims) v' /\ fd_result (v ++ stv pgb k) o = v' ++ stv pgb (rest ++ k0)).
  Proof.
    intros Lj Em Es LD Lr (pp & ee & SM & ->) R RP Lk. destruct (sim_lt _ _ _ SM) as (Lp & Le). assert (Lv := rep_len _ _ RP). destruct SM as (_ & Fp & SM). destruct (SM s v R RP) as (S1 & S2 & S3).
    split; [|split; [reflexivity|]].
    { unfold noop, write_op. cbn [f_prev f_eff]. destruct (filter _ _); [|reflexivity]. rewrite map_app. destruct (push j rest) eqn:E; [now apply push_not_nil in E|]. reflexivity. }
    assert (HST : forall p, In p [(nV, 1 + j); (nV + (1 + j), m_task m + 1)] <-> p = (nV + (1 + j), m_task m + 1) \/ p = (nV, 1 + j)) by (intros p; cbn; split; intros [A|A]; auto; destruct A; auto; tauto).
    assert (AP : fd_applicable (v ++ stv pgb k) (write_op ([(nV, 1 + j); (nV + (1 + j), m_task m + 1)] ++ pp) (map (shift nV) (push j rest) ++ ee) (plan_cost P prims)) <->
                 (forall p, In p pp -> holds v p) /\ exists k0, k = m_task m :: k0 /\ length k0 = j).
    { rewrite wo_app by (apply (ps_fun pp _ _ _ j Lp Fp HST)). rewrite (proj2 (all_holds pp _ _ v (stv pgb k) j Lv Lp _ HST)). rewrite (Nat.add_comm (m_task m) 1). now rewrite (stv_top pgb k j (m_task m) Lj Lk). }
    split.
    - intros A. apply AP in A as [A B]. split; auto. apply S2; auto. apply (LA m); auto. eapply nth_error_In; eauto.
    - intros k0 Ek Lk0 A. split; [apply AP; split; [now apply S1|eauto]|]. exists (fassign ee v). split; [apply S3; auto|].
      rewrite wo_res, fassign_app. rewrite <- Lv, fassign_back. subst k j. rewrite stv_push by lia. apply fassign_front. intros x d I. rewrite Lv. eauto.
  Qed.

  Lemma leading_prim m prims : leading P m prims -> Forall2 (fun t p => derives P 0 t p) prims (map (fun t => [t]) prims).
  Proof. intros (r & _ & H & _). clear r. induction prims as [|t l IH]; cbn; constructor; [left; split; auto; apply H; now left|apply IH; intros; apply H; now right]. Qed.
  Lemma concat_single (l : list nat) : concat (map (fun t => [t]) l) = l.
  Proof. induction l; cbn; congruence. Qed.

  (** The methods that derive the tasks on the stack. *)
  Lemma method_derives i m prims rest plans : nth_error (p_methods P) i = Some m -> m_subs m = prims ++ rest -> leading P m prims ->
    Forall2 (fun t p => exists h, derives P h t p) rest plans -> exists h, derives P h (m_task m) (prims ++ concat plans).
  Proof.
    intros Em Es LD F. apply derives_sup in F as (h & F). exists (Datatypes.S h). right. assert (I := nth_error_In _ _ Em). exists m, (seq 0 (length (m_subs m))), (map (fun t => [t]) prims ++ plans). split; auto. split; auto. split; [now apply LO|]. split.
    - apply subs_derive; auto. rewrite Es. apply Forall2_app; auto. eapply forall2_imp_in; [|exact (leading_prim m prims LD)]. intros t p _ D. eapply derives_mono; [|exact D]. lia.
    - now rewrite concat_app, concat_single.
  Qed.

  Lemma noop_app w o : noop o = true -> fd_applicable w o /\ fd_result w o = w.
  Proof.
    unfold noop, fd_applicable, fd_result. destruct (f_prev o); [|discriminate]. destruct (f_eff o); [|discriminate]. intros _. split; [split; [intros p []|intros a b d []]|reflexivity].
  Qed.

  Theorem run_sound pl w w' : fd_run T w pl w' -> forall s v k, w = v ++ stv pgb k -> reached s -> rep V s v -> length k <= pgb ->
    let L := printed (map fst (effective pl)) in
    executable P s L /\ fd_plan_cost (effective pl) = plan_cost P L /\
    exists v' k', w' = v' ++ stv pgb k' /\ rep V (after P s L) v' /\
      (k' = [] -> exists plans, Forall2 (fun t p => exists h, derives P h t p) k plans /\ L = concat plans).
  Proof.
    induction 1 as [w|w n o r w' I A RUN IH]; intros s v k -> R RP Lk.
    - cbn. split; auto. split; auto. exists v, k. split; auto. split; auto. intros ->. exists []. split; auto.
    - destruct (noop o) eqn:NO.
      + destruct (noop_app (v ++ stv pgb k) o NO) as (_ & X). assert (E : effective ((n, o) :: r) = effective r) by (unfold effective; cbn [filter snd]; now rewrite NO). cbv zeta. rewrite E. apply (IH s v k); auto.
      + assert (E : effective ((n, o) :: r) = (n, o) :: effective r) by (unfold effective; cbn [filter snd]; now rewrite NO). cbv zeta. rewrite E. cbn [map fst]. rewrite printed_cons. rewrite fd_plan_cost_cons.
        assert (OL := OK n o I). destruct n as [i j|i j subs prims]; cbn [op_like] in OL.
        * destruct OL as (Lj & Li & AL). destruct (step_act i j o s v k Lj AL R RP Lk) as (_ & C & X & Y). destruct (X A) as (AP & k0 & Ek & Lk0). destruct (Y k0 Ek Lk0 AP) as (_ & v' & RV & ER).
          assert (PR : printed [NPrim i j] = [i]) by reflexivity. rewrite PR. subst k. cbn [length] in Lk. destruct (IH (result P s i) v' k0 ER (reached_step P s i R AP) RV ltac:(lia)) as (E1 & C1 & v2 & k2 & E2 & R2 & D2).
          cbn [app executable after]. split; auto. split; [rewrite C, C1; reflexivity|]. exists v2, k2. split; auto. split; auto. intros Q. destruct (D2 Q) as (plans & F & EL). exists ([i] :: plans). split; [constructor; auto; exists 0; left; split; auto|]. now rewrite EL.
        * destruct OL as (Lj & (m & rest & Em & Es & LD & Lr & [AL|[-> _]]) & _); [|discriminate]. destruct (step_meth i j prims m rest o s v k Lj Em Es LD Lr AL R RP Lk) as (_ & C & X & Y). destruct (X A) as (EX & k0 & Ek & Lk0). destruct (Y k0 Ek Lk0 EX) as (_ & v' & RV & ER).
          assert (PR : printed [NMeth i j subs prims] = prims) by (unfold printed; cbn; apply app_nil_r). rewrite PR. subst k. destruct (IH (after P s prims) v' (rest ++ k0) ER (reached_after P prims s R EX) RV ltac:(rewrite app_length; lia)) as (E1 & C1 & v2 & k2 & E2 & R2 & D2).
          rewrite executable_app, after_app, plan_cost_app. split; auto. split; [rewrite C, C1; reflexivity|]. exists v2, k2. split; auto. split; auto. intros Q. destruct (D2 Q) as (plans & F & EL).
          apply Forall2_app_inv_l in F as (p1 & p2 & F1 & F2 & ->). exists ((prims ++ concat p1) :: p2). split; [constructor; auto; eapply method_derives; eauto|]. rewrite EL. cbn [concat]. now rewrite concat_app, app_assoc.
  Qed.
End Run.

(** ** Every solution is found with a large enough bound *)

Record good (P : problem) (V : list (nat * nat)) (S : sproblem) (pgb : nat) (T : fd_task) : Prop := {
  g_like : forall n o, In (n, o) (fd_ops T) -> op_like P V S pgb n o;
  g_act : forall i j, i < length (p_cost P) -> j < pgb -> exists o, In (NPrim i j, o) (fd_ops T);
  g_meth : forall i m, nth_error (p_methods P) i = Some m -> exists prims rest, m_subs m = prims ++ rest /\ leading P m prims /\
    forall j, j < pgb -> length rest + j <= pgb -> exists subs o, In (NMeth i j subs prims, o) (fd_ops T) }.

Section Complete.
  Variables (P : problem) (V : list (nat * nat)) (S : sproblem).
  Hypotheses (WF : wf_problem P) (SP : sp_ok P V S).
  Hypotheses (LO : listed_in_order P) (LA : leading_agree P V).

  (** The tasks [ts] are carried out as [p], with at most [K] further cells. *)
  Definition doable (K : nat) (ts p : list nat) : Prop := forall pgb T s v k0, good P V S pgb T -> length k0 + K <= pgb -> reached P s -> rep V s v -> executable P s p ->
    exists ops v', fd_run T (v ++ stv pgb (ts ++ k0)) ops (v' ++ stv pgb k0) /\ rep V (after P s p) v' /\ printed (map fst ops) = p /\ effective ops = ops.

  Lemma doable_mono K K' ts p : K <= K' -> doable K ts p -> doable K' ts p.
  Proof. intros L D pgb T s v k0 G Q. apply D; auto. lia. Qed.
  Lemma effective_app l1 l2 : effective (l1 ++ l2) = effective l1 ++ effective l2.
  Proof. unfold effective. apply filter_app. Qed.
  Lemma doable_list K ts ps : Forall2 (fun t p => doable K [t] p) ts ps -> doable (length ts + K) ts (concat ps).
  Proof.
    induction 1 as [|t p ts ps D F IH]; intros pgb T s v k0 G L R RP EX.
    - exists [], v. cbn. repeat split; auto; try apply RP. constructor.
    - cbn [concat] in *. apply executable_app in EX as [E1 E2]. destruct (D pgb T s v (ts ++ k0) G) as (o1 & v1 & R1 & RP1 & P1 & F1); auto; [rewrite app_length; cbn in L; lia|].
      destruct (IH pgb T (after P s p) v1 k0 G) as (o2 & v2 & R2 & RP2 & P2 & F2); auto; [cbn in L; lia|now apply reached_after|]. exists (o1 ++ o2), v2. split; [eapply fd_run_app; eauto|]. rewrite after_app. split; auto. rewrite map_app, printed_app, effective_app. split; congruence.
  Qed.
  Lemma doable_sup ts ps : Forall2 (fun t p => exists K, doable K [t] p) ts ps -> exists K, Forall2 (fun t p => doable K [t] p) ts ps.
  Proof.
    induction 1 as [|t p l ps (h1 & D) H (h2 & IH)]; [exists 0; constructor|]. exists (max h1 h2). constructor.
    - eapply doable_mono; [|exact D]. lia.
    - eapply forall2_imp_in; [|exact IH]. cbn beta. intros y q _ Dw. eapply doable_mono; [|exact Dw]. lia.
  Qed.
  Lemma prim_derives h t p : primitive P t -> derives P h t p -> p = [t].
  Proof.
    intros Pt D. destruct h as [|h]; cbn in D; destruct D as [[_ E]|D]; auto; [destruct D|]. destruct D as (m & o & ps & I & E & _). exfalso. assert (X := wfm_task P m (wf_methods P WF m I)). unfold primitive in Pt. congruence.
  Qed.

  Theorem derives_doable h : forall t p, derives P h t p -> exists K, doable K [t] p.
  Proof.
    assert (PRIM : forall t, primitive P t -> doable 1 [t] [t]).
    { intros t Pt pgb T s v k0 G L R RP EX. cbn in EX. destruct EX as [AP _]. assert (Li := wf_prim P WF t Pt). destruct (g_act _ _ _ _ _ G t (length k0) Li) as (o & I); [lia|].
      assert (OL := g_like _ _ _ _ _ G _ _ I). cbn in OL. destruct OL as (Lj & _ & AL). destruct (step_act P V S pgb SP ltac:(lia) t (length k0) o s v (t :: k0) Lj AL R RP) as (NO & C & _ & Y); [cbn; lia|].
      destruct (Y k0 eq_refl eq_refl AP) as (FA & v' & RV & ER). exists [(NPrim t (length k0), o)], v'. split; [|split; [exact RV|]].
      - cbn [app]. econstructor; eauto. rewrite ER. constructor.
      - split; [reflexivity|]. unfold effective. cbn [filter snd]. now rewrite NO. }
    induction h as [|h IH]; intros t p D; cbn in D; (destruct D as [[Pt ->]|D]; [exists 1; now apply PRIM|]); [destruct D|].
    destruct D as (m & o & plans & I & Et & TS & F & ->). assert (WM := wf_methods P WF m I). assert (o = seq 0 (length (m_subs m))) by (exact (total_unique m _ o (wfm_acyclic P m WM) (LO m I) eq_refl TS)). subst o.
    apply subs_derive' in F. assert (FK : Forall2 (fun t p => exists K, doable K [t] p) (m_subs m) plans) by (eapply forall2_imp_in; [|exact F]; intros u q _ Du; now apply IH).
    apply doable_sup in FK as (K & FK). exists (1 + length (m_subs m) + K). intros pgb T s v k0 G L R RP EX.
    apply In_nth_error in I as (i & Em). destruct (g_meth _ _ _ _ _ G i m Em) as (prims & rest & Es & LD & GM). rewrite Es in FK, F, L. rewrite app_length in L. apply Forall2_app_inv_l in FK as (p1 & p2 & K1 & K2 & ->). apply Forall2_app_inv_l in F as (q1 & q2 & F1 & F2 & Eq).
    assert (Lq : length p1 = length q1). { clear - K1 F1. revert q1 F1. induction K1; intros q1 F1; inversion F1; subst; cbn; auto. }
    assert (p1 = q1). { clear - Eq Lq. revert q1 Eq Lq. induction p1 as [|x p1 IHp]; intros [|y q1] Eq Lq; cbn in *; try discriminate; auto. injection Eq as -> Eq. f_equal. apply IHp; auto. } subst q1.
    assert (C1 : concat p1 = prims).
    { destruct LD as (r & _ & HP & _). clear - F1 HP WF. revert p1 F1. induction prims as [|u l IHl]; intros p1 F1; inversion F1 as [|? x ? y Du F']; subst; cbn; auto. rewrite (prim_derives h u x); auto; [|apply HP; now left]. cbn. f_equal. apply IHl; auto. intros; apply HP; now right. }
    rewrite concat_app, C1 in *. apply executable_app in EX as [E1 E2]. destruct (GM (length k0)) as (subs & o & Io); [lia|lia|]. assert (OL := g_like _ _ _ _ _ G _ _ Io). cbn in OL. destruct OL as (Lj & (m' & rest' & Em' & Es' & LD' & Lr & AL) & _).
    rewrite Em in Em'. injection Em' as <-. rewrite Es in Es'. apply app_inv_head in Es'. subst rest'. destruct AL as [AL|[_ NE]]; [|exfalso; eapply NE; eauto].
    destruct (step_meth P V S pgb SP LA ltac:(lia) i (length k0) prims m rest o s v (m_task m :: k0) Lj Em Es LD Lr AL R RP) as (NO & C & _ & Y); [cbn; lia|]. destruct (Y k0 eq_refl eq_refl E1) as (FA & v' & RV & ER).
    destruct (doable_list K rest p2 K2 pgb T (after P s prims) v' k0 G) as (o2 & v2 & R2 & RP2 & P2 & X2); auto; [lia|now apply reached_after|].
    exists ((NMeth i (length k0) subs prims, o) :: o2), v2. subst t. split; [|split; [now rewrite after_app|]].
    - cbn [app]. econstructor; eauto. rewrite ER. exact R2.
    - cbn [map fst]. rewrite printed_cons, P2. split; [unfold printed; cbn; now rewrite app_nil_r|]. unfold effective in *. cbn [filter snd]. rewrite NO. cbn [negb]. now rewrite X2.
  Qed.
End Complete.
