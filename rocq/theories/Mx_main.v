(** All depths of the totally ordered SAT encoding with mutex clauses and all pruning modes. *)
From Coq Require Import Permutation.
From Verif Require Import Base Htn_problem Htn_spec To_spec To_sem Sat_model Sat_spec Sat_proof Sf_model Sf_spec Sf_proof Tab_proof Inv_model Inv_spec Inv_rint Inv_close Sat_proof Pdt_model Pdt_spec Pdt_tree Pdt_expand Pdt_prune Pdt_leafs Pdt_vars Pdt_clause Pdt_dec Pdt_sound Pdt_round Pdt_choice Pdt_complete Pdt_main
  Mx_model Mx_spec Mx_clause Mx_prune.
Local Open Scope Z_scope.

Lemma lit_holds_same P (s s' : state) l : same P s s' -> lit_in (p_nfacts P) l -> lit_holds s l -> lit_holds s' l.
Proof. intros S L [H1 H2]. unfold lit_in in L. split; intros Hl; [rewrite <- (S (Z.to_nat (- l - 1))) by lia; auto|rewrite <- (S (Z.to_nat l)) by lia; auto]. Qed.
Lemma groups_same P X (s s' : state) : same P s s' -> input_ok (p_nfacts P) (x_sas X) (x_strict X) (x_mutex X) (x_inv X) -> input_holds (x_sas X) (x_strict X) (x_mutex X) (x_inv X) s -> groups_hold (x_sas X) (x_strict X) (x_mutex X) (x_inv X) s'.
Proof.
  intros S [I1 I2 I3 I4] [H1 H2 H3 H4 H5 H6].
  assert (AM : forall l, (forall f, In f l -> (f < p_nfacts P)%nat) -> Inv_spec.at_most_one s l -> Inv_spec.at_most_one s' l). { intros l Hl H i j f g Ei Ej Hf Hg. apply (H i j f g Ei Ej); apply S; auto; apply Hl; eapply nth_error_In; eauto. }
  assert (AL : forall l, (forall f, In f l -> (f < p_nfacts P)%nat) -> at_least_one s l -> at_least_one s' l). { intros l Hl (f & F1 & F2). exists f. split; auto. apply S; auto. }
  constructor.
  - intros a b Hab N. assert (forall f, In f (seq a (Datatypes.S b - a)) -> (f < p_nfacts P)%nat) by (intros f Hf; apply in_seq in Hf; specialize (I1 a b Hab); lia). split; eauto.
  - intros l Hl _. split; eauto.
  - intros l Hl _. eauto.
  - intros l Hl _. destruct (H6 l Hl) as (x & X1 & X2). exists x. split; auto. eapply lit_holds_same; eauto.
Qed.
Lemma pairs_same P tab (s s' : state) : same P s s' -> bi_ok (p_nfacts P) tab -> pairs_hold (p_nfacts P) tab s -> pairs_hold (p_nfacts P) tab s'.
Proof.
  intros S O H i l b E Hb. specialize (H i l b E Hb). assert (L : (i < 2 * p_nfacts P)%nat) by (rewrite <- (bo_len _ _ O); apply nth_error_Some; congruence). assert (Lb : lit_in (p_nfacts P) b) by (apply (bo_in _ _ O l b); [now apply nth_error_In in E|exact Hb]).
  destruct H as [H|H]; cbn [fst snd] in H; [left|right]; cbn [fst snd]; eapply lit_holds_same; eauto. unfold lit_in. lia.
Qed.

Section Main.
  Existing Instance to_kind.
  Variables (P : problem) (C : sconf) (M : mconf) (bi : list (list Z)).
  Hypothesis WF : wf_problem P.
  Hypothesis CO : conf_ok P C.
  Hypothesis AB : nth_error (p_prim P) (p_init P) = Some false.
  Hypothesis ORD : forall l, Permutation (m_order M l) l.
  Hypothesis IO : input_ok (p_nfacts P) (x_sas (m_input M)) (x_strict (m_input M)) (x_mutex (m_input M)) (x_inv (m_input M)).
  Hypothesis OB : bi_ok (p_nfacts P) bi.
  Hypothesis VEC : m_mode M = PH2 -> m_mutex M = true.

  (** Along a plan the mutex groups and the invariants hold. *)
  Definition believes (plan : list nat) : Prop := m_mutex M = true -> along P plan (fun s => input_holds (x_sas (m_input M)) (x_strict (m_input M)) (x_mutex (m_input M)) (x_inv (m_input M)) s /\ pairs_hold (p_nfacts P) bi s).
  Definition full_says (depth : nat) (T' : pdt) (nv : Z) (o : option (list clause)) : Prop :=
    match o with
    | None => True
    | Some cl => (forall c l, In c cl -> In l c -> 1 <= Z.abs l <= nv) /\
        forall v, satisfies v cl -> (exists h, derives P h (p_init P) (sat_plan v T')) /\ executable P (initial_state P) (sat_plan v T') /\ goal_state P (after P (initial_state P) (sat_plan v T'))
    end /\
    forall plan h, (h <= depth)%nat -> derives P h (p_init P) plan -> consistent P plan -> executable P (initial_state P) plan -> goal_state P (after P (initial_state P) plan) -> believes plan ->
      exists cl v, o = Some cl /\ satisfies v cl /\ sat_plan v T' = plan.

  Lemma full_ok depth st : sinv P st -> exists T' nv o, create_full P C M bi depth st = Some (T', nv, o) /\ sinv P (T', nv) /\ full_says depth T' nv o.
  Proof.
    destruct st as [t0 nv0]. intros SI. destruct (round_expand P C WF CO depth t0 nv0 SI) as (T & E1 & SI' & DP). destruct (prune_full_ok P T WF (si_to _ _ SI') (m_mode M) (m_mutex M) bi OB VEC) as (F & al & E2 & OA & CL & LA & KEEP).
    assert (RD := round_assign P T nv0 F SI' CL LA). unfold create_full. rewrite E1. cbn [obind]. rewrite E2. cbn [obind].
    assert (SEL : forall plan h, (h <= depth)%nat -> derives P h (p_init P) plan -> exists sel me, sel [] = Some (false, O) /\ good P T sel me /\ cplan T sel = plan).
    { intros plan h Lh D. destruct (choose P WF T depth (Some (false, O)) plan (si_to _ _ SI') DP) as (sel & me & X); [|eauto]. cbn [demand]. exists (p_init P), h. destruct (si_root _ _ SI') as [_ RA]. cbn [fst] in RA. rewrite RA. auto. }
    assert (AVO : forall sel me plan, good P T sel me -> cplan T sel = plan -> executable P (initial_state P) plan -> consistent P plan -> avoids (used T sel me) F /\ along P plan (pairs_hold (p_nfacts P) al)).
    { intros sel me plan G Ep EX CN. assert (EP : sel_plan (lsel sel) (leafs T []) = plan) by (rewrite <- Ep, cplan_leafs; reflexivity). rewrite <- EP. apply KEEP.
      - apply (used_supports P T sel me (si_to _ _ SI') G).
      - exact (used_leaf P T sel me (si_to _ _ SI') G).
      - intros q d i _. cbn [used]. unfold lsel, at_sel. destruct (sel (rev q)) as [[[|] j]|]; split; intros H; try congruence; injection H as <-; auto.
      - now rewrite EP.
      - intros _ p Hp f. rewrite EP in Hp. apply (CN p f Hp). }
    destruct (marked F (IA [] 0)) eqn:EM.
    - exists T, nv0, None. split; auto. split; auto. split; [exact I|]. intros plan h Lh D CN EX GO _. exfalso. destruct (SEL plan h Lh D) as (sel & me & S1 & S2 & S3). apply marked_in in EM.
      apply (proj1 (AVO sel me plan S2 S3 EX CN)) with (i := IA [] 0); [exact EM|exact S1].
    - apply marked_out in EM. destruct (assign P F T [] nv0) as [T' n0] eqn:EA. destruct (RD T' n0 eq_refl) as [R LE].
      destruct (clauses_ok P C WF CO T F T' n0 R (m_bc M) EM) as (c1 & nv2 & r & blocks & c3 & nv3 & Q1 & Q2 & Q3 & Q4 & Q5 & N2 & STT & V & SND & CPL). rewrite Q1. cbn [obind]. rewrite Q2. cbn [obind]. fold (atoms T'). rewrite Q3. cbn [obind]. rewrite Q4. cbn [obind vlit].
      assert (N3 : nv3 = sf_base P nv2 (S (length blocks)) - 1). { unfold state_formula in Q4. destruct blocks; [discriminate|]. apply obind_some in Q4 as (cs & _ & Q4). apply some_eq, pair_equal_spec in Q4 as [_ Q4]. exact Q4. }
      destruct (if m_mutex M then mutex_formula P (s_bits C) (m_order M) (m_input M) bi al nv2 (length blocks) nv3 else ([], nv3)) as [c4 nv4] eqn:E4.
      assert (EN : encodes nv3 nv4 c4 (fun v => m_mutex M = true -> forall t, (t < length blocks)%nat -> let s := rd v (sf_base P nv2 t) in groups_hold (x_sas (m_input M)) (x_strict (m_input M)) (x_mutex (m_input M)) (x_inv (m_input M)) s /\ pairs_hold (p_nfacts P) bi s /\ pairs_hold (p_nfacts P) al s)).
      { destruct (m_mutex M).
        - eapply encodes_weaken; [|apply (mutex_encodes P (s_bits C) (m_order M) (m_input M) bi al nv2 (length blocks) nv3 c4 nv4 (ok_bits _ _ CO) ORD IO OB OA N2); [lia|exact E4]]. cbv beta. intros v. split; [intros H _; exact H|intros H; exact (H eq_refl)].
        - apply pair_equal_spec in E4 as [<- <-]. apply encodes_nil; [assert (Z := r_pos _ _ _ _ _ R); lia|]. intros v X. discriminate. }
      destruct EN as [L4 V4 D4 [S4 K4]].
      eexists T', nv4, _. split; [reflexivity|]. split; [|split; [split|]].
      + constructor; cbn [fst snd].
        * apply (r_to' _ _ _ _ _ R).
        * apply (r_vc _ _ _ _ _ R).
        * apply tvars_nodup, (r_nd _ _ _ _ _ R).
        * intros x Hx. apply tvars_incl in Hx. assert (Z := r_bd _ _ _ _ _ R x Hx). lia.
        * assert (Z := r_pos _ _ _ _ _ R). lia.
        * apply (r_root _ _ _ _ _ R).
      + intros c l Hc Hl. rewrite !app_assoc in Hc. apply in_app_or in Hc as [Hc|Hc]; [rewrite <- !app_assoc in Hc; specialize (V c l Hc Hl); lia|exact (V4 c l Hc Hl)].
      + intros v S. rewrite !app_assoc, sat_app, <- !app_assoc in S. destruct S as [S _]. destruct (SND v S) as (U & N & O & EX & GO). split; auto. rewrite sat_plan_tplan.
        destruct (node_plan P F T' v (r_to' _ _ _ _ _ R) (r_fi _ _ _ _ _ R) (r_vc _ _ _ _ _ R) (r_leaf _ _ _ _ _ R) U N (root1 P T F T' n0 R) T' []) as (_ & _ & NP); [reflexivity|]. apply (NP 0%nat (p_init P)); auto. now rewrite (proj2 (r_root _ _ _ _ _ R)).
      + intros plan h Lh D CN EX GO BE. destruct (SEL plan h Lh D) as (sel & me & S1 & S2 & S3). destruct (AVO sel me plan S2 S3 EX CN) as [AV ALO]. assert (AS := r_asg _ _ _ _ _ R). assert (G' := asg_good P F [] T T' sel me AS S2).
        assert (AV' : avoids (used T' sel me) F). { intros x Hx U. apply (AV x Hx). eapply asg_used; eauto. }
        assert (PL : sat_plan (val T' sel me) T' = plan). { rewrite (val_plan P F T' sel me (r_fi _ _ _ _ _ R) (r_nd _ _ _ _ _ R) G' AV'). rewrite (asg_cplan P F T [] T' sel AS). exact S3. }
        destruct (CPL (val T' sel me)) as (v' & A' & S' & P'); try (rewrite PL; assumption).
        * intros q t A. exact (val_unpruned P F T' sel me (r_fi _ _ _ _ _ R) (r_nd _ _ _ _ _ R) G' AV' q t A).
        * intros q d ch A Ee _. exact (val_nodes P F T' sel me (r_to' _ _ _ _ _ R) (r_fi _ _ _ _ _ R) (r_nd _ _ _ _ _ R) G' AV' q d ch A Ee).
        * apply (on_val P F T' sel me (r_fi _ _ _ _ _ R) (r_nd _ _ _ _ _ R) G' AV' [] T'); [reflexivity|exact S1].
        * rewrite PL in P'. destruct (K4 v') as (v2 & A2 & Q).
          { intros ME t Ht. destruct (STT v' S' t ltac:(lia)) as (p1 & p2 & Ep & SM). rewrite P' in Ep. assert (SM' : same P (after P (initial_state P) p1) (rd v' (sf_base P nv2 t))) by (intros f Hf; symmetry; now apply SM).
            destruct (BE ME p1 p2 Ep) as [B1 B2]. split; [eapply groups_same; eauto|]. split; [eapply pairs_same; eauto|]. eapply pairs_same; eauto. }
          assert (AG : agree nv3 v' v2) by (intros x Hx; symmetry; apply A2; lia).
          eexists _, v2. split; [reflexivity|]. split.
          -- rewrite !app_assoc, sat_app, <- !app_assoc. split; [|exact Q]. apply (sat_agree nv3 v' v2); auto.
          -- rewrite <- P'. rewrite <- !plan_chosen. symmetry. apply chosen_agree. intros l x Hl Hx. apply AG. assert (Z := proj1 (atoms_act P T F T' n0 R l x Hl Hx)). lia.
  Qed.
  Lemma full_state_ok d : exists st, full_state P C M bi d = Some st /\ sinv P st.
  Proof.
    induction d as [|d (st & E & SI)]; [eexists; split; [reflexivity|]; apply start_ok; exact AB|]. cbn [full_state]. rewrite E. cbn [obind]. destruct (full_ok (S d) st SI) as (T' & nv & o & E' & SI' & _). rewrite E'. cbn [obind]. eauto.
  Qed.
  Theorem full_formula_ok d : exists T' nv o st, full_state P C M bi d = Some st /\ create_full P C M bi (S d) st = Some (T', nv, o) /\ full_says (S d) T' nv o.
  Proof. destruct (full_state_ok d) as (st & E & SI). destruct (full_ok (S d) st SI) as (T' & nv & o & E' & _ & S). exists T', nv, o, st. auto. Qed.
End Main.
