(** All depths of the totally ordered SAT encoding. *)
From Verif Require Import Base Htn_problem Htn_spec To_spec To_sem Sat_model Sat_spec Sat_proof Sf_model Sf_spec Sf_proof Tab_proof Pdt_model Pdt_spec Pdt_tree Pdt_expand Pdt_prune Pdt_leafs Pdt_vars Pdt_clause Pdt_dec Pdt_sound Pdt_round Pdt_choice Pdt_complete.
Local Open Scope Z_scope.

Section Main.
  Existing Instance to_kind.
  Variables (P : problem) (C : sconf) (ff bc : bool).
  Hypothesis WF : wf_problem P.
  Hypothesis CO : conf_ok P C.
  Hypothesis AB : nth_error (p_prim P) (p_init P) = Some false.

  (** What the formula of one depth says. *)
  Definition says (depth : nat) (T' : pdt) (nv : Z) (o : option (list clause)) : Prop :=
    match o with
    | None => True
    | Some cl => (forall c l, In c cl -> In l c -> 1 <= Z.abs l <= nv) /\
        forall v, satisfies v cl -> (exists h, derives P h (p_init P) (sat_plan v T')) /\ executable P (initial_state P) (sat_plan v T') /\ goal_state P (after P (initial_state P) (sat_plan v T'))
    end /\
    forall plan h, (h <= depth)%nat -> derives P h (p_init P) plan -> consistent P plan -> executable P (initial_state P) plan -> goal_state P (after P (initial_state P) plan) ->
      exists cl v, o = Some cl /\ satisfies v cl /\ sat_plan v T' = plan.

  Lemma create_ok depth st : sinv P st -> exists T' nv o, create_formula P C ff bc depth st = Some (T', nv, o) /\ sinv P (T', nv) /\ says depth T' nv o.
  Proof.
    destruct st as [t0 nv0]. intros SI. destruct (round_tree P C WF CO ff depth t0 nv0 SI) as (T & F & E1 & SI' & DP & E2 & RD). unfold create_formula. rewrite E1. cbn [obind]. rewrite E2. cbn [obind].
    assert (SEL : forall plan h, (h <= depth)%nat -> derives P h (p_init P) plan -> exists sel me, sel [] = Some (false, O) /\ good P T sel me /\ cplan T sel = plan).
    { intros plan h Lh D. destruct (choose P WF T depth (Some (false, O)) plan (si_to _ _ SI') DP) as (sel & me & X); [|eauto]. cbn [demand]. exists (p_init P), h. destruct (si_root _ _ SI') as [_ RA]. cbn [fst] in RA. rewrite RA. auto. }
    assert (AVO : forall sel me, good P T sel me -> executable P (initial_state P) (cplan T sel) -> avoids (used T sel me) F). { intros sel me G EX. apply (used_prune P T sel me WF (si_to _ _ SI') G ff F); auto. }
    destruct (marked F (IA [] 0)) eqn:EM.
    - exists T, nv0, None. split; auto. split; auto. split; [exact I|]. intros plan h Lh D CN EX GO. exfalso. destruct (SEL plan h Lh D) as (sel & me & S1 & S2 & S3). apply marked_in in EM.
      apply (AVO sel me S2) with (i := IA [] 0); [now rewrite S3|exact EM|exact S1].
    - apply marked_out in EM. destruct (assign P F T [] nv0) as [T' n0] eqn:EA. destruct (RD T' n0 eq_refl) as [R LE].
      destruct (clauses_ok P C WF CO T F T' n0 R bc EM) as (c1 & nv2 & r & blocks & c3 & nv3 & Q1 & Q2 & Q3 & Q4 & Q5 & _ & _ & V & SND & CPL). rewrite Q1. cbn [obind]. rewrite Q2. cbn [obind]. fold (atoms T'). rewrite Q3. cbn [obind]. rewrite Q4. cbn [obind vlit].
      eexists T', nv3, _. split; [reflexivity|]. split; [|split; [split; [exact V|]|]].
      + constructor; cbn [fst snd].
        * apply (r_to' _ _ _ _ _ R).
        * apply (r_vc _ _ _ _ _ R).
        * apply tvars_nodup, (r_nd _ _ _ _ _ R).
        * intros x Hx. apply tvars_incl in Hx. assert (Z := r_bd _ _ _ _ _ R x Hx). lia.
        * assert (Z := r_pos _ _ _ _ _ R). lia.
        * apply (r_root _ _ _ _ _ R).
      + intros v S. destruct (SND v S) as (U & N & O & EX & GO). split; auto. rewrite sat_plan_tplan.
        destruct (node_plan P F T' v (r_to' _ _ _ _ _ R) (r_fi _ _ _ _ _ R) (r_vc _ _ _ _ _ R) (r_leaf _ _ _ _ _ R) U N (root1 P T F T' n0 R) T' []) as (_ & _ & NP); [reflexivity|]. apply (NP 0%nat (p_init P)); auto. now rewrite (proj2 (r_root _ _ _ _ _ R)).
      + intros plan h Lh D CN EX GO. destruct (SEL plan h Lh D) as (sel & me & S1 & S2 & S3). assert (AV := AVO sel me S2 ltac:(now rewrite S3)). assert (AS := r_asg _ _ _ _ _ R). assert (G' := asg_good P F [] T T' sel me AS S2).
        assert (AV' : avoids (used T' sel me) F). { intros x Hx U. apply (AV x Hx). eapply asg_used; eauto. }
        assert (PL : sat_plan (val T' sel me) T' = plan). { rewrite (val_plan P F T' sel me (r_fi _ _ _ _ _ R) (r_nd _ _ _ _ _ R) G' AV'). rewrite (asg_cplan P F T [] T' sel AS). exact S3. }
        destruct (CPL (val T' sel me)) as (v' & A' & S' & P'); try (rewrite PL; assumption).
        * intros q t A. exact (val_unpruned P F T' sel me (r_fi _ _ _ _ _ R) (r_nd _ _ _ _ _ R) G' AV' q t A).
        * intros q d ch A Ee _. exact (val_nodes P F T' sel me (r_to' _ _ _ _ _ R) (r_fi _ _ _ _ _ R) (r_nd _ _ _ _ _ R) G' AV' q d ch A Ee).
        * apply (on_val P F T' sel me (r_fi _ _ _ _ _ R) (r_nd _ _ _ _ _ R) G' AV' [] T'); [reflexivity|exact S1].
        * eexists _, v'. split; [reflexivity|]. split; auto. congruence.
  Qed.
  Lemma state_ok d : exists st, sat_state P C ff bc d = Some st /\ sinv P st.
  Proof.
    induction d as [|d (st & E & SI)]; [eexists; split; [reflexivity|]; apply start_ok; exact AB|]. cbn [sat_state]. rewrite E. cbn [obind]. destruct (create_ok (S d) st SI) as (T' & nv & o & E' & SI' & _). rewrite E'. cbn [obind]. eauto.
  Qed.
  Theorem formula_ok d : exists T' nv o, sat_formula P C ff bc d = Some (T', nv, o) /\ says (S d) T' nv o.
  Proof. destruct (state_ok d) as (st & E & SI). destruct (create_ok (S d) st SI) as (T' & nv & o & E' & _ & S). unfold sat_formula. rewrite E. cbn [obind]. eauto. Qed.
End Main.
