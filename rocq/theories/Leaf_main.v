(** All depths of the totally ordered encoding with separate leaves. *)
From Coq Require Import ZArith Permutation.
From Verif Require Import Base Htn_problem Htn_spec Htn_proof To_spec To_sem Sat_model Sat_spec Sat_proof Sf_model Sf_spec Sf_proof Tab_proof Sog_model Sog_spec Sog_proof Posog_model Posog_spec Posog_merge Posog_thm Pdt_model Pdt_spec Pdt_tree Pdt_expand Pdt_prune Pdt_leafs Pdt_vars Pdt_clause Pdt_dec Pdt_sound Pdt_round Pdt_choice Pdt_complete Pdt_main Pdt_thm Pp_model.
From Verif Require Import Leaf_model Leaf_spec Leaf_proof Leaf_pure.
Local Open Scope nat_scope.

Lemma wf_effects P : wf_problem P -> effects_known P.
Proof. intros WF t H. assert (Q : primitive P t) by (now apply is_prim_iff). assert (L := wf_prim _ WF t Q). rewrite (wf_add _ WF), (wf_del _ WF). auto. Qed.

(** The choice of a child, with a default where it is not defined *)
Definition total_picker (P : problem) : picker := fun n occ p => match leaf_picker P n occ p with Some c => Some c | None => Some 0 end.
Definition total_expand (P : problem) (C : sconf) (d : pnode) : option (pnode * list pdt) :=
  let ms := s_sort C (gather P (pn_abs d)) in
  '(labels, asgs) <- compact_sog P C (map (fun '(m, _, _) => m) ms) ;;
  expand_pick P (total_picker P) d ms (length labels) asgs.

Lemma ofold_mono {A B} (f g : A -> B -> option A) : (forall s x s', f s x = Some s' -> g s x = Some s') -> forall l s s', ofold f l s = Some s' -> ofold g l s = Some s'.
Proof. intros H. induction l as [|x l IH]; intros s s' E; [exact E|]. cbn [ofold] in *. apply obind_some in E as (s1 & E1 & E2). rewrite (H _ _ _ E1). cbn [obind]. auto. Qed.
Lemma expand_pick_mono P (pk pk' : picker) d ms n asgs r : (forall n occ p c, pk n occ p = Some c -> pk' n occ p = Some c) -> expand_pick P pk d ms n asgs = Some r -> expand_pick P pk' d ms n asgs = Some r.
Proof.
  intros H E. unfold expand_pick in *. apply obind_some in E as (occ & E1 & E). rewrite E1. cbn [obind]. apply obind_some in E as (st & E2 & E). destruct (Nat.eqb n 0); [rewrite E2; exact E|].
  assert (Q : ofold (inherit_pick pk' n occ) (enum (pn_prims d)) (map (new_child P occ) (seq 0 n), []) = Some st); [|rewrite Q; exact E].
  eapply ofold_mono; [|exact E2]. intros [chs pos] [pi p] s' Es. unfold inherit_pick in *. apply obind_some in Es as (x & Ex & Es). destruct (find _ _); [rewrite Ex; exact Es|]. apply obind_some in Ex as (c & Ec & Ex). rewrite (H _ _ _ _ Ec). cbn [obind]. rewrite Ex. exact Es.
Qed.
Lemma leaf_total P C d r : leaf_expand P C d = Some r -> total_expand P C d = Some r.
Proof.
  unfold leaf_expand, total_expand. intros E. apply obind_some in E as ([labels asgs] & E1 & E). rewrite E1. cbn [obind]. eapply expand_pick_mono; [|exact E]. intros n occ p c H. unfold total_picker. now rewrite H.
Qed.
Lemma omap_mono {A B} (f g : A -> option B) : (forall x y, f x = Some y -> g x = Some y) -> forall l r, omap f l = Some r -> omap g l = Some r.
Proof. intros H. induction l as [|x l IH]; intros r E; [exact E|]. cbn [omap] in *. apply obind_some in E as (y & E1 & E). apply obind_some in E as (ys & E2 & E). rewrite (H _ _ E1). cbn [obind]. rewrite (IH _ E2). exact E. Qed.
Lemma upto_mono (xp xp' : pnode -> option (pnode * list pdt)) : (forall d r, xp d = Some r -> xp' d = Some r) -> forall K t t', expand_upto xp K t = Some t' -> expand_upto xp' K t = Some t'.
Proof.
  intros H. induction K as [|K IH]; intros [d ch] t' E; [exact E|]. cbn [expand_upto] in *. apply obind_some in E as ([d1 ch1] & E1 & E). apply obind_some in E as (ch2 & E2 & E).
  assert (Q : (if pn_exp d then Some (d, ch) else match pn_abs d with [] => Some (d, ch) | _ => xp' d end) = Some (d1, ch1)) by (destruct (pn_exp d); auto; destruct (pn_abs d); auto).
  rewrite Q. cbn [obind]. rewrite (omap_mono _ _ IH _ _ E2). exact E.
Qed.

Section Main.
  Existing Instance to_kind.
  Variables (P : problem) (C : sconf).
  Hypothesis WF : wf_problem P.
  Hypothesis CO : conf_ok P C.
  Let EK := wf_effects P WF.

  Lemma gathered abs m a mi : In (m, a, mi) (s_sort C (gather P abs)) -> exists me, nth_error (p_methods P) m = Some me.
  Proof.
    intros H. apply (Permutation_in _ (proj1 (ok_sort P C CO _))) in H. apply gather_in in H as (t & _ & H). apply nth_error_In in H. apply Pdt_tree.methods_in in H as (me & E & _). eauto.
  Qed.
  Lemma fine m me : nth_error (p_methods P) m = Some me -> meth_fine P C m.
  Proof. intros Em. destruct (ok_mto P C CO m me Em) as (o & Eo & T1 & T2 & _). exists me, o. split; auto. split; auto. split; auto. Qed.
  Lemma leaf_sog_ok ms : ms <> [] -> (forall m, In m ms -> exists me, nth_error (p_methods P) m = Some me) -> exists labels eff asgs, compact_sog P C ms = Some (labels, asgs) /\ cinv P (subs_len P (hd 0 ms)) labels eff /\
    Forall2 (Sog_proof.placed P (s_mto C) (length labels)) ms asgs /\ Forall2 (labelled P labels) ms asgs.
  Proof.
    intros NE H. destruct ms as [|m0 ms]; [congruence|]. destruct (H m0 (or_introl eq_refl)) as (me0 & E0). destruct (compact_ok P C EK m0 ms me0) as (labels & eff & asgs & E & CI & PL & LB); auto.
    - intros m Hm. destruct (H m Hm) as (me & Em). exact (fine m me Em).
    - exists labels, eff, asgs. split; auto. split; auto. cbn [hd]. unfold subs_len. rewrite E0. exact CI.
  Qed.
  Lemma leaf_ms d : tasks_ok P d -> pn_abs d <> [] -> map (fun '(m, _, _) => m) (s_sort C (gather P (pn_abs d))) <> [] /\ (forall m, In m (map (fun '(m, _, _) => m) (s_sort C (gather P (pn_abs d)))) -> exists me, nth_error (p_methods P) m = Some me) /\
    0 < subs_len P (hd 0 (map (fun '(m, _, _) => m) (s_sort C (gather P (pn_abs d))))).
  Proof.
    intros TO NA. assert (PM := proj1 (ok_sort P C CO (gather P (pn_abs d)))). destruct (s_sort C (gather P (pn_abs d))) as [|[[m a] mi] r] eqn:Es.
    - exfalso. apply (gather_some P d TO NA (ok_covered _ _ CO)). now apply Permutation_nil.
    - split; [discriminate|]. split.
      + intros m' Hm. rewrite <- Es in Hm. apply in_map_iff in Hm as ([[m1 a1] mi1] & <- & Hm). exact (gathered _ _ _ _ Hm).
      + cbn [map hd]. destruct (gather_first P WF d ((m, a, mi) :: r) m a mi NA PM eq_refl) as (me & E & L). unfold subs_len. now rewrite E.
  Qed.
  Lemma total_expand_ok d : tasks_ok P d -> pn_abs d <> [] -> exists d' us, total_expand P C d = Some (d', map (fun u => PNode u []) us) /\ expanded P d d' us.
  Proof.
    intros TO NA. destruct (leaf_ms d TO NA) as (NE & MM & LP). unfold total_expand. destruct (leaf_sog_ok _ NE MM) as (labels & eff & asgs & E & CI & PL & LB). rewrite E. cbn [obind].
    assert (PF : Forall2 (fits P (length labels)) (map (fun '(m, _, _) => m) (s_sort C (gather P (pn_abs d)))) asgs) by (clear -PL CO; induction PL; constructor; auto; eapply placed_fits; eauto).
    assert (LL : 0 < length labels) by (destruct CI; lia). apply expand_pick_ok; auto.
    - intros occ p. unfold total_picker. destruct (leaf_picker P (length labels) occ p) as [c|] eqn:Ep; [|eauto]. exists c. split; auto. exact (leaf_picker_lt P _ _ _ _ Ep).
    - apply (ok_sort P C CO).
    - intros m a mi asg me I Eme. apply combine_in in I as (x & Hx & Ha). assert (Hx' : nth_error (map (fun '(m, _, _) => m) (s_sort C (gather P (pn_abs d)))) x = Some m) by (rewrite nth_error_map, Hx; reflexivity).
      assert (PLC := forall2_nth _ _ _ _ _ _ PL Hx' Ha). destruct (placed_inj P C CO _ m asg PLC) as (me' & o & Eme' & TS & _ & PLO & _). assert (me' = me) by congruence. subst me'. exists o. split; [apply TS|]. split; [exact TS|exact PLO].
  Qed.

  (** ** Purity *)
  Lemma leaf_expand_pure d d' ch : pure P d -> pn_abs d <> [] -> leaf_expand P C d = Some (d', ch) -> pure P d' /\ Forall (fun t => pure P (dat t) /\ kids t = [] /\ pn_exp (dat t) = false) ch.
  Proof.
    intros PU NA E. unfold leaf_expand in E. apply obind_some in E as ([labels asgs] & E1 & E). destruct (map (fun '(m, _, _) => m) (s_sort C (gather P (pn_abs d)))) as [|m0 ms] eqn:Em.
    - cbn [compact_sog] in E1. injection E1 as <- <-. eapply (expand_pure P EK d _ []); [exact PU|exact NA| |rewrite Em; constructor|exact E]. intros [|v] ls t t' G; discriminate.
    - assert (MM : forall m, In m (m0 :: ms) -> exists me, nth_error (p_methods P) m = Some me). { intros m Hm. rewrite <- Em in Hm. apply in_map_iff in Hm as ([[m1 a1] mi1] & <- & Hm). exact (gathered _ _ _ _ Hm). }
      destruct (leaf_sog_ok (m0 :: ms) ltac:(discriminate) MM) as (labels' & eff & asgs' & E' & CI & _ & LB). rewrite E1 in E'. apply some_eq in E'. injection E' as -> ->. eapply (expand_pure P EK d); [exact PU|exact NA|exact (proj1 (cinv_separated P EK _ _ _ CI))|rewrite Em; exact LB|exact E].
  Qed.
  Lemma leaf_tree_pure K T : expand_upto (leaf_expand P C) K (pdt_root P) = Some T -> tall (fun d _ => pure P d) T.
  Proof. intros E. eapply upto_pure; [exact leaf_expand_pure|apply root_pure|exact E]. Qed.

  (** ** One depth *)
  Variables (ff bc : bool).
  Lemma create_leaf_ok depth st : sinv P st -> (exists T, expand_upto (leaf_expand P C) depth (fst st) = Some T) -> exists T' nv o, create_leaf P C ff bc depth st = Some (T', nv, o) /\ sinv P (T', nv) /\ says P depth T' nv o.
  Proof.
    destruct st as [t0 nv0]. intros SI (T & E1). cbn [fst] in E1. destruct (round_upto P (total_expand P C) depth t0 nv0 total_expand_ok SI) as (T1 & E1' & SI' & DP). rewrite (upto_mono _ _ (leaf_total P C) _ _ _ E1) in E1'. apply some_eq in E1'. subst T1.
    destruct (prune_ok P T WF (si_to _ _ SI') ff) as (F & E2 & F2 & F3). assert (RD := round_assign P T nv0 F SI' F2 F3). unfold create_leaf. rewrite E1. cbn [obind]. rewrite E2. cbn [obind].
    assert (SEL : forall plan h, (h <= depth)%nat -> derives P h (p_init P) plan -> exists sel me, sel [] = Some (false, O) /\ good P T sel me /\ cplan T sel = plan).
    { intros plan h Lh D. destruct (choose P WF T depth (Some (false, O)) plan (si_to _ _ SI') DP) as (sel & me & X); [|eauto]. cbn [demand]. exists (p_init P), h. destruct (si_root _ _ SI') as [_ RA]. cbn [fst] in RA. rewrite RA. auto. }
    assert (AVO : forall sel me, good P T sel me -> executable P (initial_state P) (cplan T sel) -> avoids (used T sel me) F). { intros sel me G EX. apply (used_prune P T sel me WF (si_to _ _ SI') G ff F); auto. }
    destruct (marked F (IA [] 0)) eqn:EM.
    - exists T, nv0, None. split; auto. split; auto. split; [exact I|]. intros plan h Lh D CN EX GO. exfalso. destruct (SEL plan h Lh D) as (sel & me & S1 & S2 & S3). apply marked_in in EM.
      apply (AVO sel me S2) with (i := IA [] 0); [now rewrite S3|exact EM|exact S1].
    - apply marked_out in EM. destruct (assign P F T [] nv0) as [T' n0] eqn:EA. destruct (RD T' n0 eq_refl) as [R LE].
      destruct (clauses_ok P C WF CO T F T' n0 R bc EM) as (c1 & nv2 & r & blocks & c3 & nv3 & Q1 & Q2 & Q3 & Q4 & Q5 & _ & _ & V & SND & CPL). rewrite Q1. cbn [obind]. rewrite Q2. cbn [obind]. fold (atoms T'). rewrite Q3. cbn [obind]. rewrite Q4. cbn [obind vlit].
      eexists T', nv3, _. split; [reflexivity|]. split; [|split; [split; [exact V|]|]].
      + constructor; cbn [fst snd].
        * apply (r_to' _ _ _ _ _ R).
        * apply (r_vc _ _ _ _ _ R).
        * apply tvars_nodup, (r_nd _ _ _ _ _ R).
        * intros x Hx. apply tvars_incl in Hx. assert (Z := r_bd _ _ _ _ _ R x Hx). lia.
        * assert (Z := r_pos _ _ _ _ _ R). lia.
        * apply (r_root _ _ _ _ _ R).
      + intros v S. destruct (SND v S) as (U & N & O & EX & GO). split; auto. rewrite sat_plan_tplan.
        destruct (node_plan P F T' v (r_to' _ _ _ _ _ R) (r_fi _ _ _ _ _ R) (r_vc _ _ _ _ _ R) (r_leaf _ _ _ _ _ R) U N (root1 P T F T' n0 R) T' []) as (_ & _ & NP); [reflexivity|]. apply (NP 0%nat (p_init P)); auto. now rewrite (proj2 (r_root _ _ _ _ _ R)).
      + intros plan h Lh D CN EX GO. destruct (SEL plan h Lh D) as (sel & me & S1 & S2 & S3). assert (AV := AVO sel me S2 ltac:(now rewrite S3)). assert (AS := r_asg _ _ _ _ _ R). assert (G' := asg_good P F [] T T' sel me AS S2).
        assert (AV' : avoids (used T' sel me) F). { intros x Hx U. apply (AV x Hx). eapply asg_used; eauto. }
        assert (PL : sat_plan (val T' sel me) T' = plan). { rewrite (val_plan P F T' sel me (r_fi _ _ _ _ _ R) (r_nd _ _ _ _ _ R) G' AV'). rewrite (asg_cplan P F T [] T' sel AS). exact S3. }
        destruct (CPL (val T' sel me)) as (v' & A' & S' & P'); try (rewrite PL; assumption).
        * intros q t A. exact (val_unpruned P F T' sel me (r_fi _ _ _ _ _ R) (r_nd _ _ _ _ _ R) G' AV' q t A).
        * intros q d ch A Ee _. exact (val_nodes P F T' sel me (r_to' _ _ _ _ _ R) (r_fi _ _ _ _ _ R) (r_nd _ _ _ _ _ R) G' AV' q d ch A Ee).
        * apply (on_val P F T' sel me (r_fi _ _ _ _ _ R) (r_nd _ _ _ _ _ R) G' AV' [] T'); [reflexivity|exact S1].
        * eexists _, v'. split; [reflexivity|]. split; auto. congruence.
  Qed.
  Lemma create_leaf_says depth st T' nv o : sinv P st -> create_leaf P C ff bc depth st = Some (T', nv, o) -> sinv P (T', nv) /\ says P depth T' nv o.
  Proof.
    intros SI E. destruct (create_leaf_ok depth st SI) as (T1 & nv1 & o1 & E1 & S1 & S2); [|rewrite E in E1; apply some_eq in E1; injection E1 as -> -> ->; auto].
    destruct st as [t0 nv0]. unfold create_leaf in E. apply obind_some in E as (T & E1 & _). cbn [fst]. eauto.
  Qed.
  Hypothesis AB : nth_error (p_prim P) (p_init P) = Some false.
  Lemma leaf_state_ok d st : leaf_state P C ff bc d = Some st -> sinv P st.
  Proof.
    revert st. induction d as [|d IH]; intros st E; [apply some_eq in E; subst st; now apply start_ok|]. cbn [leaf_state] in E. apply obind_some in E as (st1 & E1 & E). apply obind_some in E as ([[T nv] o] & E2 & E). apply some_eq in E. subst st.
    exact (proj1 (create_leaf_says (S d) st1 T nv o (IH st1 E1) E2)).
  Qed.
  Lemma leaf_formula_says d T nv o : leaf_formula P C ff bc d = Some (T, nv, o) -> says P (S d) T nv o.
  Proof. unfold leaf_formula. intros E. apply obind_some in E as (st & E1 & E). exact (proj2 (create_leaf_says (S d) st T nv o (leaf_state_ok d st E1) E)). Qed.
  Lemma leaf_search_ok solver rounds : solver_ok solver -> forall depth st r, sinv P st -> leaf_search P C solver ff bc rounds depth st = Some r -> (forall plan, r = Some plan -> solution P plan) /\
    forall plan h, h < depth + rounds -> derives P h (p_init P) plan -> consistent P plan -> executable P (initial_state P) plan -> goal_state P (after P (initial_state P) plan) -> 0 < rounds -> r <> None.
  Proof.
    intros SO. induction rounds as [|rounds IH]; intros depth st r SI E; cbn [leaf_search] in E; [apply some_eq in E; subst r; split; [discriminate|intros; lia]|].
    apply obind_some in E as ([[T nv] o] & E1 & E). destruct (create_leaf_says depth st T nv o SI E1) as [SI' SA].
    destruct (match o with Some cl => solver cl | None => None end) as [v|] eqn:EV.
    - apply some_eq in E. subst r. split; [|intros; discriminate]. intros plan Ep. apply some_eq in Ep. subst plan. destruct o as [cl|]; [|discriminate]. apply (says_solution P C WF CO depth T nv cl v SA). specialize (SO cl). now rewrite EV in SO.
    - destruct (IH (S depth) (T, nv) r SI' E) as (R2 & R3). split; auto. intros plan h Lh D CN EX GO _. destruct (Nat.le_gt_cases h depth) as [L|L].
      + exfalso. destruct (proj2 SA plan h L D CN EX GO) as (cl & v & -> & S & _). specialize (SO cl). rewrite EV in SO. exact (SO v S).
      + apply (R3 plan h); auto; lia.
  Qed.
End Main.

(** ** Partially ordered problems *)
Section Po.
  Variables (P : problem) (C : sconf).
  Hypothesis EK : effects_known P.
  Lemma fine_meth m : meth_ok P (s_mto C) m -> meth_fine P C m.
  Proof.
    intros (me & o & Em & _ & Eo & PM). exists me, o. split; auto. split; auto. split; [eapply Permutation_NoDup; [apply Permutation_sym; exact PM|apply seq_NoDup]|]. intros j. split; intros H.
    - apply (Permutation_in _ PM) in H. apply in_seq in H. lia.
    - apply (Permutation_in _ (Permutation_sym PM)). apply in_seq. lia.
  Qed.
  Lemma po_leaf_sog_ok abs labels asgs : (forall m, In m (map (fun '(m, _, _) => m) (s_sort C (gather P abs))) -> meth_ok P (s_mto C) m) -> po_leaf_sog P C abs = Some (labels, asgs) ->
    separated P labels /\ Forall2 (labelled P labels) (map (fun '(m, _, _) => m) (s_sort C (gather P abs))) asgs.
  Proof.
    unfold po_leaf_sog. set (ms := map _ _). intros MM E. clearbody ms. apply obind_some in E as (bs & _ & E). destruct ms as [|m0 ms]; [apply some_eq in E; injection E as -> ->; split; [intros [|v] ls t t' G; discriminate|constructor]|].
    destruct (forallb _ bs).
    - destruct (fine_meth m0 (MM m0 (or_introl eq_refl))) as (me0 & _ & E0 & _). destruct (compact_ok P C EK m0 ms me0 (fun m H => fine_meth m (MM m H)) E0) as (labels' & eff & asgs' & E' & CI & _ & LB). rewrite E in E'. apply some_eq in E'. injection E' as -> ->. split; auto. exact (proj1 (cinv_separated P EK _ _ _ CI)).
    - apply obind_some in E as ([g mps] & E1 & E). apply some_eq in E. injection E as -> ->. split; [intros v ls t t'; exact (effectless_separated P (s_mto C) (m0 :: ms) g mps EK MM E1 v ls t t')|].
      destruct (methods_embedded P true (s_mto C) (m0 :: ms) EK ltac:(discriminate) MM) as (g' & mps' & E' & LM & EM & _). rewrite E1 in E'. apply some_eq in E'. injection E' as -> ->.
      assert (G : forall (ms : list nat) (mps : list (list nat)), length mps = length ms -> (forall k m mp, nth_error ms k = Some m -> nth_error mps k = Some mp -> labelled P (g_labels g) m mp) -> Forall2 (labelled P (g_labels g)) ms mps).
      { induction ms0 as [|m r IH]; intros [|mp rp] L H; try discriminate; constructor; [apply (H 0); reflexivity|]. apply IH; [cbn in L; lia|]. intros k. apply (H (S k)). }
      apply G; auto. intros k m mp Hm Hp me i v t Eme Ev Et. assert (X := EM k m me mp Hm Eme Hp). destruct X as [_ _ _ X _]. exact (X i v t Ev Et).
  Qed.
  Lemma po_leaf_expand_pure : (forall abs m, In m (map (fun '(m, _, _) => m) (s_sort C (gather P abs))) -> meth_ok P (s_mto C) m) ->
    forall d d' ch, pure P d -> pn_abs d <> [] -> po_leaf_expand P C d = Some (d', ch) -> pure P d' /\ Forall (fun t => pure P (dat t) /\ kids t = [] /\ pn_exp (dat t) = false) ch.
  Proof.
    intros MM d d' ch PU NA E. unfold po_leaf_expand in E. apply obind_some in E as ([labels asgs] & E1 & E). destruct (po_leaf_sog_ok _ _ _ (MM (pn_abs d)) E1) as [SP LB]. eapply (expand_pure P EK d); eauto.
  Qed.
  Lemma po_leaf_tree_pure K T : (forall abs m, In m (map (fun '(m, _, _) => m) (s_sort C (gather P abs))) -> meth_ok P (s_mto C) m) -> expand_upto (po_leaf_expand P C) K (pdt_root P) = Some T -> tall (fun d _ => pure P d) T.
  Proof. intros MM E. eapply upto_pure; [exact (po_leaf_expand_pure MM)|apply root_pure|exact E]. Qed.
End Po.
