(** Translation to SAS+: states of the HTN problem and states of the written task. *)
From Verif Require Import Base Htn_problem Htn_spec To_spec Sas_model Sas_spec Sas_proof Sas_sim Sas_act.

(** The values [v] of the variables describe the state [s]. *)
Definition rep (V : list (nat * nat)) (s : state) (v : list nat) : Prop :=
  length v = length V /\
  forall i x, nth_error v i = Some x ->
    (single V i /\ exists f, fact_of V i 0 f /\ ((x = 0 /\ s f) \/ (x = 1 /\ ~ s f))) \/
    (~ single V i /\ exists b, fact_of V i x b /\ forall c, of_var V i c -> (s c <-> c = b)).

Lemma executable_app P l1 : forall s l2, executable P s (l1 ++ l2) <-> executable P s l1 /\ executable P (after P s l1) l2.
Proof. induction l1 as [|a l1 IH]; intros s l2; cbn; [tauto|]. rewrite IH. tauto. Qed.
Lemma after_app P l1 : forall s l2, after P s (l1 ++ l2) = after P (after P s l1) l2.
Proof. induction l1 as [|a l1 IH]; intros s l2; cbn; auto. Qed.

Section Rep.
  Variables (P : problem) (V : list (nat * nat)) (S : sproblem).
  Hypotheses (WF : wf_problem P) (IV : intervals 0 V (p_nfacts P)) (SP : sp_ok P V S).
  Hypotheses (OV : one_value_reach P V) (PF : prec_functional P V) (SE : single_effects P V).
  Notation W := (sp_var S).

  Definition reached (s : state) : Prop := exists plan, executable P (initial_state P) plan /\ s = after P (initial_state P) plan.
  Lemma reached_init : reached (initial_state P). Proof. exists []. cbn. auto. Qed.
  Lemma reached_step s a : reached s -> applicable P s a -> reached (result P s a).
  Proof. intros (pl & E & ->) A. exists (pl ++ [a]). rewrite executable_app, after_app. cbn. auto. Qed.
  Lemma reached_after l : forall s, reached s -> executable P s l -> reached (after P s l).
  Proof. induction l as [|a l IH]; intros s R E; cbn in *; auto. apply IH; [|tauto]. apply reached_step; tauto. Qed.
  Lemma reached_one s : reached s -> one_value V s.
  Proof. intros (pl & E & ->). now apply OV. Qed.

  Lemma W_int : exists n, intervals 0 W n. Proof. apply SP. Qed.
  Lemma W_inj i d e i' d' : fact_of W i d e -> fact_of W i' d' e -> i = i' /\ d = d'.
  Proof. destruct W_int as (n & I). eapply fact_of_inj; eauto. Qed.

  Lemma rep_valid s v : rep V s v -> valid W v.
  Proof.
    intros [L H]. split; [rewrite L; symmetry; apply SP|]. intros i d E. destruct (H i d E) as [(Q & f & F & [[-> _]|[-> _]])|(Q & b & F & _)].
    - apply (so_facts _ _ _ SP _ _ _ F).
    - apply (so_neg _ _ _ SP _ Q).
    - apply (so_facts _ _ _ SP _ _ _ F).
  Qed.
  Lemma rep_fact s v i d b : rep V s v -> fact_of V i d b -> (s b <-> holds v (i, d)).
  Proof.
    intros [L H] F. assert (Li := fact_of_lt _ _ _ _ F). rewrite <- L in Li. destruct (get_some v i Li) as (x & E). unfold holds. cbn [fst snd]. unfold get in E. rewrite E.
    destruct (H i x E) as [(Q & f & F' & X)|(Q & c & F' & X)].
    - assert (d = 0) by (eapply single_fact; eauto). subst d. assert (b = f) by (eapply fact_of_fun; eauto). subst f. destruct X as [[-> X]|[-> X]]; split; intros Y; try tauto; try congruence.
    - rewrite (X b) by (exists d; auto). split; [intros ->; f_equal; eapply fact_of_same; eauto|]. intros [= ->]. eapply fact_of_fun; eauto.
  Qed.

  Lemma prec_fact a l' e : get (sp_prec S) a = Some l' -> In e l' -> exists i d b, fact_of W i d e /\ fact_of V i d b /\ precs P a b.
  Proof.
    intros G I. destruct (so_prec _ _ _ SP _ _ G) as (l & E & F). assert (X : exists b, In b l /\ same_fact V S b e).
    { clear - F I. induction F as [|x y l l' R F IH]; [destruct I|]. destruct I as [->|I]; [exists x; split; [now left|auto]|]. destruct (IH I) as (b & J & Q). exists b. split; [now right|auto]. }
    destruct X as (b & J & i & d & F1 & F2). exists i, d, b. repeat split; auto. exists l. auto.
  Qed.
  Lemma prec_fact' a l' b : get (sp_prec S) a = Some l' -> precs P a b -> exists i d e, In e l' /\ fact_of W i d e /\ fact_of V i d b.
  Proof.
    intros G (l & E & I). destruct (so_prec _ _ _ SP _ _ G) as (l0 & E0 & F). rewrite E in E0. injection E0 as <-.
    clear - F I. induction F as [|x y l l' R F IH]; [destruct I|]. destruct I as [->|I]; [destruct R as (i & d & A & B); exists i, d, y; repeat split; auto; now left|].
    destruct (IH I) as (i & d & e & J & Q). exists i, d, e. split; [now right|auto].
  Qed.
  Lemma act_prec a l' s v : get (sp_prec S) a = Some l' -> rep V s v ->
    ((forall e i d, In e l' -> fact_of W i d e -> holds v (i, d)) <-> applicable P s a).
  Proof.
    intros G R. split.
    - intros H b Hb. destruct (prec_fact' _ _ _ G Hb) as (i & d & e & I & F & F'). apply (rep_fact s v i d b R F'). eauto.
    - intros H e i d I F. destruct (prec_fact _ _ _ G I) as (i' & d' & b & F1 & F2 & Hb). destruct (W_inj _ _ _ _ _ F F1). subst. apply (rep_fact s v i' d' b R F2). now apply H.
  Qed.
  Lemma add_fact a l' e : get (sp_add S) a = Some l' -> In e l' -> exists i d, fact_of W i d e.
  Proof.
    intros G I. destruct (so_add _ _ _ SP _ _ G) as (la & ld & _ & _ & H & _). destruct (H e I) as [(b & _ & i & d & _ & F)|(b & _ & i & _ & _ & F)]; eauto.
  Qed.
  Lemma add_var a l' i z : get (sp_add S) a = Some l' -> of_var V i z -> adds P a z \/ (single V i /\ dels P a z) -> exists e d, In e l' /\ fact_of W i d e.
  Proof.
    intros G (dz & Fz) H. destruct (so_add _ _ _ SP _ _ G) as (la & ld & Ea & Ed & _ & H1 & H2). destruct H as [(l & E & I)|(Q & l & E & I)].
    - rewrite Ea in E. injection E as <-. destruct (H1 z I) as (e & J & i' & d' & F1 & F2). destruct (fact_of_inj _ _ _ _ _ _ _ _ IV Fz F1). subst. eauto.
    - rewrite Ed in E. injection E as <-. assert (dz = 0) by (eapply single_fact; eauto). subst dz. destruct (H2 z i I Q Fz) as (e & J & i' & Q' & F1 & F2). destruct (fact_of_inj _ _ _ _ _ _ _ _ IV Fz F1). subst. eauto.
  Qed.

  Lemma act_eff a l' ee s v : get (sp_add S) a = Some l' -> (forall i d, In (i, d) ee <-> exists e, In e l' /\ fact_of W i d e) ->
    rep V s v -> one_value V (result P s a) -> rep V (result P s a) (fassign ee v).
  Proof.
    intros G HE [L H] O. split; [now rewrite fassign_length|]. intros i x E. rewrite nth_fassign in E. destruct (so_add _ _ _ SP _ _ G) as (la & ld & Ea & Ed & H0 & H1 & H2).
    assert (TB : forall b, of_var V i b -> result P s a b -> ~ single V i -> exists b', of_var V i b' /\ (forall c, of_var V i c -> (result P s a c <-> c = b')) /\ b = b').
    { intros b Fb Rb Q. destruct (O i) as (b' & Fb' & U); auto; [destruct Fb as (d & F); eapply fact_of_lt; eauto|]. exists b'. repeat split; auto; apply U; auto. }
    destruct (last_val i ee None) as [y|] eqn:Q.
    - destruct (i <? length v); [|discriminate]. injection E as ->. apply last_val_in in Q. apply (proj1 (HE _ _)) in Q as (e & I & F). destruct (H0 e I) as [(b & Ib & i' & d' & F1 & F2)|(b & Ib & i' & Qs & F1 & F2)].
      + destruct (W_inj _ _ _ _ _ F F2). subst i' d'. assert (Rb : result P s a b) by (left; exists la; auto). destruct (single_dec V i) as [Qs|Qs].
        * left. split; auto. assert (x = 0) by (eapply single_fact; eauto). subst x. exists b. auto.
        * right. split; auto. destruct (TB b (ex_intro _ x F1) Rb Qs) as (b' & Fb' & U & ->). eauto.
      + destruct (W_inj _ _ _ _ _ F F2). subst i' x. left. split; auto. exists b. split; auto. right. split; auto. intros [A|[_ D]]; [|apply D; exists ld; auto]. eapply (SE a i b); eauto; [exists 0; auto|exists ld; auto].
    - assert (N := last_val_none _ _ Q). assert (NE : forall z, of_var V i z -> ~ adds P a z /\ ~ (single V i /\ dels P a z)).
      { intros z Fz. split; intros X; destruct (add_var a l' i z G Fz) as (e & d & I & F); auto; apply (N d), HE; eauto. }
      destruct (H i x E) as [(Qs & f & F & X)|(Qs & b & F & U)].
      + left. split; auto. exists f. split; auto. destruct (NE f (ex_intro _ 0 F)) as [N1 N2]. destruct X as [[-> X]|[-> X]]; [left|right]; split; auto.
        * right. split; auto.
        * intros [A|[B _]]; auto.
      + right. split; auto. exists b. split; auto. assert (Li := fact_of_lt _ _ _ _ F). destruct (O i Li Qs) as (b' & Fb' & U'). destruct (NE b' Fb') as [N1 _].
        assert (Rb : result P s a b') by (apply U'; auto). destruct Rb as [A|[B _]]; [contradiction|]. apply U in B; auto. subst b'. exact U'.
  Qed.

  Lemma rep_init v : reached (initial_state P) -> Forall2 (fun e x => exists i, fact_of W i (snd x) e /\ fst x = i) (sp_s0 S) v ->
    (forall k x, nth_error v k = Some x -> fst x = k) -> rep V (initial_state P) (map snd v).
  Proof.
    intros R F K. assert (L : length v = length V). { rewrite <- (so_s0_len _ _ _ SP). clear - F. induction F; cbn; auto. }
    split; [now rewrite map_length|]. intros i x E. rewrite nth_error_map in E. destruct (nth_error v i) as [[i0 d]|] eqn:Ev; [|discriminate]. cbn in E. injection E as ->. assert (X := K _ _ Ev). cbn in X. subst i0.
    assert (X : exists e, nth_error (sp_s0 S) i = Some e /\ fact_of W i x e).
    { assert (G : forall k y, nth_error v k = Some y -> exists e, nth_error (sp_s0 S) k = Some e /\ fact_of W (fst y) (snd y) e).
      { clear - F. induction F as [|e y l l' (i & A & B) F IH]; intros [|k] z Ez; cbn in *; try discriminate; [injection Ez as <-; subst i; eauto|eauto]. }
      destruct (G _ _ Ev) as (e & A & B). eauto. }
    destruct X as (e & Ee & Fe). destruct (so_s0 _ _ _ SP _ _ Ee) as [(b & Ib & (db & Fb) & i' & d' & F1 & F2)|(Q & F1 & N)].
    - destruct (W_inj _ _ _ _ _ Fe F2). subst i' d'. destruct (single_dec V i) as [Q|Q].
      + left. split; auto. assert (x = 0) by (eapply single_fact; eauto). subst. exists b. auto.
      + right. split; auto. exists b. split; auto. destruct (reached_one _ R i (fact_of_lt _ _ _ _ F1) Q) as (b' & Fb' & U). assert (b = b') by (apply U; [exists x; auto|exact Ib]). subst b'. exact U.
    - destruct (W_inj _ _ _ _ _ Fe F1) as [_ ->]. left. split; auto. destruct Q as (f & Ef). exists f. assert (F0 : fact_of V i 0 f) by (exists f, f; repeat split; auto; lia). split; auto. right. split; auto. apply N. exists 0. auto.
  Qed.

  (** ** Sequences *)
  Variable cv : nat -> option (nat * nat).
  Hypothesis CV : forall b i d, i < length W -> (cv b = Some (i, d) <-> fact_of W i d b).
  Lemma CVF b i d : fact_of W i d b -> cv b = Some (i, d).
  Proof. intros F. apply CV; auto. eapply fact_of_lt; eauto. Qed.
  Lemma CVI b i d i' d' : fact_of W i d b -> cv b = Some (i', d') -> i = i' /\ d = d'.
  Proof. intros F E. rewrite (CVF _ _ _ F) in E. injection E as <- <-. auto. Qed.

  Definition tagged (b : nat) : option (nat * (nat * nat)) := w <- cv b ;; Some (b, w).
  Lemma tagged_some l : (forall e, In e l -> exists i d, fact_of W i d e) -> exists l', omap tagged l = Some l'.
  Proof. intros H. apply omap_some. intros e I. destruct (H e I) as (i & d & F). unfold tagged. rewrite (CVF _ _ _ F). cbn. eauto. Qed.
  Lemma tagged_in l l' : omap tagged l = Some l' -> (forall e, In e l -> exists i d, fact_of W i d e) ->
    forall b i d, In (b, (i, d)) l' <-> In b l /\ fact_of W i d b.
  Proof.
    intros E H b i d. split.
    - intros I. destruct (omap_in _ _ _ _ E I) as (b' & J & T). unfold tagged in T. apply obind_some in T as (w & Ew & T). injection T as -> ->. split; auto. destruct (H b J) as (i' & d' & F). destruct (CVI _ _ _ _ _ F Ew). subst. auto.
    - intros [I F]. destruct (omap_in' _ _ _ _ E I) as ([b' w] & J & T). unfold tagged in T. apply obind_some in T as (w' & Ew & T). injection T as -> ->. rewrite (CVF _ _ _ F) in Ew. injection Ew as ->. exact J.
  Qed.

  Definition tag_act (t : nat) : option (list (nat * (nat * nat)) * list (nat * (nat * nat))) :=
    p <- get (sp_prec S) t ;; a <- get (sp_add S) t ;; p' <- omap tagged p ;; a' <- omap tagged a ;; Some (p', a').
  Lemma act_lists t : t < length (p_cost P) -> exists p a, get (sp_prec S) t = Some p /\ get (sp_add S) t = Some a.
  Proof.
    intros L. destruct (get_some (sp_prec S) t) as (p & Ep); [rewrite (so_prec_len _ _ _ SP), (wf_prec P WF); exact L|]. destruct (get_some (sp_add S) t) as (a & Ea); [rewrite (so_add_len _ _ _ SP), (wf_add P WF); exact L|]. eauto.
  Qed.
  Lemma prec_facts t p : get (sp_prec S) t = Some p -> forall e, In e p -> exists i d, fact_of W i d e.
  Proof. intros G e I. destruct (prec_fact _ _ _ G I) as (i & d & b & F & _). eauto. Qed.
  Lemma tag_act_some t : t < length (p_cost P) -> exists u, tag_act t = Some u.
  Proof.
    intros L. destruct (act_lists t L) as (p & a & Ep & Ea). unfold tag_act. rewrite Ep, Ea. cbn [obind]. destruct (tagged_some p (prec_facts _ _ Ep)) as (p' & ->). destruct (tagged_some a) as (a' & ->); [intros e; now apply (add_fact t)|]. cbn. eauto.
  Qed.
  Lemma tag_act_inv t p' a' : tag_act t = Some (p', a') -> exists p a, get (sp_prec S) t = Some p /\ get (sp_add S) t = Some a /\
    (forall b i d, In (b, (i, d)) p' <-> In b p /\ fact_of W i d b) /\ (forall b i d, In (b, (i, d)) a' <-> In b a /\ fact_of W i d b).
  Proof.
    unfold tag_act. intros H. apply obind_some in H as (p & Ep & H). apply obind_some in H as (a & Ea & H). apply obind_some in H as (x & Ex & H). apply obind_some in H as (y & Ey & H). injection H as <- <-.
    exists p, a. split; auto. split; auto. split.
    - apply tagged_in; auto. apply (prec_facts _ _ Ep).
    - apply tagged_in; auto. intros e. now apply (add_fact t).
  Qed.

  Lemma tag_ok t u : tag_act t = Some u -> fl_ok W (fst u) /\ fl_ok W (snd u) /\ fl_fun (fst u).
  Proof.
    destruct u as [p' a']. intros H. destruct (tag_act_inv _ _ _ H) as (p & a & Ep & Ea & Hp & Ha). cbn [fst snd]. split; [|split].
    - intros b i d I. now apply Hp in I.
    - intros b i d I. now apply Ha in I.
    - intros b c i d e I J. apply Hp in I as [I F]. apply Hp in J as [J F']. destruct (prec_fact _ _ _ Ep I) as (i1 & d1 & x & F1 & X1 & P1). destruct (prec_fact _ _ _ Ep J) as (i2 & d2 & y & F2 & X2 & P2).
      destruct (W_inj _ _ _ _ _ F F1), (W_inj _ _ _ _ _ F' F2). subst i1 d1 i2 d2. assert (x = y) by (apply (PF t i x y); auto; [exists d|exists e]; auto). subst y. assert (d = e) by (eapply fact_of_same; eauto). subst e. eapply fact_of_fun; eauto.
  Qed.

  Lemma exec_sim l : forall L s v, omap tag_act l = Some L -> reached s -> rep V s v ->
    (executable P s l <-> sok L v) /\ (executable P s l -> rep V (after P s l) (sfin L v)).
  Proof.
    induction l as [|t l IH]; intros L s v E R RP; cbn [omap] in E.
    - injection E as <-. cbn. tauto.
    - apply obind_some in E as ([p' a'] & Et & E). apply obind_some in E as (L' & El & E). injection E as <-. destruct (tag_act_inv _ _ _ Et) as (p & a & Ep & Ea & Hp & Ha). cbn [executable after sok sfin].
      assert (AP : applicable P s t <-> forall x, In x (map snd p') -> holds v x).
      { rewrite <- (act_prec t p s v Ep RP). split.
        - intros H [i d] I. apply in_map_iff in I as ([b w] & Ew & I). cbn in Ew. subst w. apply Hp in I as [I F]. eauto.
        - intros H e i d I F. apply H. apply in_map_iff. exists (e, (i, d)). split; auto. apply Hp. auto. }
      assert (RE : applicable P s t -> rep V (result P s t) (fassign (map snd a') v)).
      { intros A. apply (act_eff t a); auto.
        - intros i d. split; [intros I; apply in_map_iff in I as ([b w] & Ew & I); cbn in Ew; subst w; apply Ha in I; exists b; tauto|]. intros (e & I & F). apply in_map_iff. exists (e, (i, d)). split; auto. apply Ha. auto.
        - apply reached_one. now apply reached_step. }
      split.
      + rewrite AP. split; intros [H1 H2]; (split; [exact H1|]); apply AP in H1; destruct (IH L' (result P s t) (fassign (map snd a') v) El (reached_step _ _ R H1) (RE H1)) as (X & _); now apply X.
      + intros [H1 H2]. apply (proj2 (IH L' (result P s t) (fassign (map snd a') v) El (reached_step _ _ R H1) (RE H1))). exact H2.
  Qed.

  Lemma forall2_app_r {A B} (R : A -> B -> Prop) l : forall l1 l2, Forall2 R l (l1 ++ l2) -> exists k1 k2, l = k1 ++ k2 /\ Forall2 R k1 l1 /\ Forall2 R k2 l2.
  Proof. intros l1 l2 F. apply Forall2_app_inv_r in F as (k1 & k2 & A1 & A2 & E). eauto. Qed.

  Lemma agree_of l L i : omap tag_act l = Some L -> precs_agree P V l -> agree (proj i L).
  Proof.
    intros E G l1 q a l2 q' a' l3 EL -> N.
    set (R := fun t (x : option nat * option nat) => exists p' a', tag_act t = Some (p', a') /\ x = (last_on i p' None, last_on i a' None)).
    assert (F : Forall2 R l (proj i L)).
    { apply omap_f2 in E. clear - E. induction E as [|t [p' a'] l L Et E IH]; cbn; constructor; auto. exists p', a'. auto. }
    rewrite EL in F. apply forall2_app_r in F as (k1 & k & -> & F1 & F). inversion F as [|t1 ? k2 ? R1 F2]; subst. apply forall2_app_r in F2 as (k2' & k3 & -> & F2 & F3). inversion F3 as [|t2 ? k3' ? R2 F4]; subst.
    assert (PX : forall t x y, R t (Some x, y) -> exists d b, fact_of W i d x /\ fact_of V i d b /\ precs P t b).
    { intros t x y (p' & a0 & Et & Ex). injection Ex as Ex _. destruct (tag_act_inv _ _ _ Et) as (p & a & Ep & Ea & Hp & Ha). assert (X := last_on_val i p'). rewrite <- Ex in X. destruct X as (d & I & _). apply Hp in I as [I Fx].
      destruct (prec_fact _ _ _ Ep I) as (i1 & d1 & b & F5 & X1 & P1). destruct (W_inj _ _ _ _ _ Fx F5). subst. eauto. }
    destruct (PX _ _ _ R1) as (d1 & b1 & A1 & B1 & C1). destruct (PX _ _ _ R2) as (d2 & b2 & A2 & B2 & C2).
    assert (NX : forall t x, R t x -> snd x = None -> forall z, of_var V i z -> ~ adds P t z /\ ~ (single V i /\ dels P t z)).
    { intros t x (p' & a0 & Et & ->) Q z Fz. cbn in Q. destruct (tag_act_inv _ _ _ Et) as (p & a & Ep & Ea & Hp & Ha). assert (X := last_on_val i a0). rewrite Q in X. destruct X as (_ & X).
      split; intros Y; destruct (add_var t a i z Ea Fz) as (e & d & I & Fe); auto; apply (X e d), Ha; auto. }
    assert (NI : forall k l, Forall2 R k l -> (forall t, In t l -> snd t = None) -> forall t z, In t k -> of_var V i z -> ~ adds P t z /\ ~ (single V i /\ dels P t z)).
    { clear - NX. induction 1 as [|t x k l Rt F IH]; intros H u z I Fz; [destruct I|]. destruct I as [<-|I]; [eapply NX; eauto; apply H; now left|apply IH; auto; intros; apply H; now right]. }
    assert (b1 = b2).
    { eapply (G k1 t1 k2' t2 k3' i b1 b2 eq_refl); eauto; [exists d1; auto|exists d2; auto|]. intros t z I Fz. apply in_app_or in I as [I|[<-|I]].
      - eapply (NI k1 l1); eauto. intros; apply N, in_or_app; auto.
      - eapply NX; [exact R1|reflexivity|exact Fz].
      - eapply (NI k2' l2); eauto. intros; apply N, in_or_app; auto. }
    subst b2. assert (d1 = d2) by (eapply fact_of_same; eauto). subst. eapply fact_of_fun; eauto.
  Qed.

  (** What the operator with leading tasks [l] has to do. *)
  Definition sim (l : list nat) (pp ee : list (nat * nat)) : Prop :=
    (forall i d, In (i, d) pp \/ In (i, d) ee -> exists b, fact_of W i d b) /\
    (forall i d e, In (i, d) pp -> In (i, e) pp -> d = e) /\
    forall s v, reached s -> rep V s v ->
      (executable P s l -> forall x, In x pp -> holds v x) /\
      (precs_agree P V l -> (forall x, In x pp -> holds v x) -> executable P s l) /\
      (executable P s l -> rep V (after P s l) (fassign ee v)).

  Lemma omap_cv l : (forall e, In e l -> exists i d, fact_of W i d e) -> exists l', omap cv l = Some l' /\ forall i d, In (i, d) l' <-> exists e, In e l /\ fact_of W i d e.
  Proof.
    intros H. destruct (omap_some cv l) as (l' & E). { intros e I. destruct (H e I) as (i & d & F). rewrite (CVF _ _ _ F). eauto. }
    exists l'. split; auto. intros i d. split.
    - intros I. destruct (omap_in _ _ _ _ E I) as (b & J & Q). exists b. split; auto. destruct (H b J) as (i' & d' & F). destruct (CVI _ _ _ _ _ F Q). subst. auto.
    - intros (e & I & F). destruct (omap_in' _ _ _ _ E I) as (w & J & Q). rewrite (CVF _ _ _ F) in Q. injection Q as <-. exact J.
  Qed.

  Lemma sim_nil : sim [] [] [].
  Proof. split; [intros i d [[]|[]]|]. split; [intros i d e []|]. intros s v _ RP. cbn. split; [intros _ x []|]. split; [auto|]. intros _. exact RP. Qed.

  Lemma sim_act t p a : get (sp_prec S) t = Some p -> get (sp_add S) t = Some a -> exists pp ee, omap cv p = Some pp /\ omap cv a = Some ee /\ sim [t] pp ee.
  Proof.
    intros Ep Ea. destruct (omap_cv p (prec_facts _ _ Ep)) as (pp & E1 & H1). destruct (omap_cv a (fun e => add_fact t a e Ea)) as (ee & E2 & H2). exists pp, ee. split; auto. split; auto. split; [|split].
    - intros i d [I|I]; [apply H1 in I|apply H2 in I]; destruct I as (e & _ & F); eauto.
    - intros i d e I J. apply H1 in I as (x & I & F). apply H1 in J as (y & J & F'). destruct (prec_fact _ _ _ Ep I) as (i1 & d1 & x' & F1 & X1 & P1). destruct (prec_fact _ _ _ Ep J) as (i2 & d2 & y' & F2 & X2 & P2).
      destruct (W_inj _ _ _ _ _ F F1), (W_inj _ _ _ _ _ F' F2). subst i1 d1 i2 d2. assert (x' = y') by (apply (PF t i x' y'); auto; [exists d|exists e]; auto). subst y'. eapply fact_of_same; eauto.
    - intros s v R RP. assert (A := act_prec t p s v Ep RP). cbn [executable after]. split; [|split].
      + intros [H _] [i d] I. apply H1 in I as (e & I & F). eapply (proj2 A); eauto.
      + intros _ H. split; auto. apply A. intros e i d I F. apply H, H1. eauto.
      + intros [H _]. apply (act_eff t a); auto. apply reached_one. now apply reached_step.
  Qed.

  Lemma sim_seq l L ps es v0 : omap tag_act l = Some L -> valid W v0 -> scan_all (seq 0 (length W)) L = Some (ps, es) -> exists pp ee, omap cv ps = Some pp /\ omap cv es = Some ee /\ sim l pp ee.
  Proof.
    intros EL V0 E. assert (HL : L_ok W L). { intros u I. destruct (omap_in _ _ _ _ EL I) as (t & _ & Et). now apply (tag_ok t). }
    destruct W_int as (n & IW). destruct (scan_all_ok W cv CV L ps es v0 HL V0 E) as (pp & ee & E1 & E2 & A & B & C & D & _). exists pp, ee. split; auto. split; auto. split; [|split; [exact A|]].
    - intros i d [I|I]; eauto.
    - intros s v R RP. destruct (scan_all_ok W cv CV L ps es v HL (rep_valid _ _ RP) E) as (pp' & ee' & E1' & E2' & _ & _ & _ & _ & F & G & H). rewrite E1 in E1'. rewrite E2 in E2'. injection E1' as <-. injection E2' as <-.
      destruct (exec_sim l L s v EL R RP) as (X & Y). split; [|split].
      + intros K. apply F. now apply X.
      + intros PA K. apply X, G; auto. intros i. now apply (agree_of l).
      + intros K. rewrite H. auto.
  Qed.
  Lemma sim_none l L : omap tag_act l = Some L -> scan_all (seq 0 (length W)) L = None -> forall s v, reached s -> rep V s v -> ~ executable P s l.
  Proof.
    intros EL E s v R RP K. assert (HL : L_ok W L). { intros u I. destruct (omap_in _ _ _ _ EL I) as (t & _ & Et). now apply (tag_ok t). }
    destruct (scan_all_none _ _ E) as (i & I & Ei). apply in_seq in I. apply (proj1 (proj1 (exec_sim l L s v EL R RP))) in K. assert (VV := rep_valid _ _ RP). destruct (cur_exists W v i VV) as (x & Cx); [lia|].
    apply (scan_none (proj i L) None None x); auto; [discriminate|]. destruct (seq_vars W L v HL VV) as (Q & _). now apply (proj1 Q K).
  Qed.

  Lemma s0_rep : exists i1, omap cv (sp_s0 S) = Some i1 /\ rep V (initial_state P) (map snd i1).
  Proof.
    assert (K : forall k e, nth_error (sp_s0 S) k = Some e -> exists d, fact_of W k d e).
    { intros k e E. destruct (so_s0 _ _ _ SP _ _ E) as [(b & _ & (db & Fb) & i' & d' & F1 & F2)|(_ & F & _)]; [|eauto]. destruct (fact_of_inj _ _ _ _ _ _ _ _ IV Fb F1). subst. eauto. }
    destruct (omap_some cv (sp_s0 S)) as (i1 & E). { intros e I. apply In_nth_error in I as (k & Ek). destruct (K k e Ek) as (d & F). exists (k, d). apply CV; auto. eapply fact_of_lt; eauto. }
    exists i1. split; auto. assert (G : forall k x, nth_error i1 k = Some x -> fst x = k /\ exists e, nth_error (sp_s0 S) k = Some e /\ fact_of W k (snd x) e).
    { intros k x Ex. assert (Q := omap_get _ _ _ E k). unfold get in Q. rewrite Ex in Q. destruct (nth_error (sp_s0 S) k) as [e|] eqn:Ee; [|discriminate]. cbn [obind] in Q. destruct (K k e Ee) as (d & F).
      rewrite (proj2 (CV e k d (fact_of_lt _ _ _ _ F)) F) in Q. injection Q as ->. split; auto. eauto. }
    apply rep_init; [apply reached_init| |].
    - apply omap_f2 in E. assert (X : forall k, Forall2 (fun e x => exists i, fact_of W i (snd x) e /\ fst x = i) (skipn k (sp_s0 S)) (skipn k i1)) by
        (intros k; assert (L : length i1 = length (sp_s0 S)) by (apply omap_length with (f := cv); now apply omap_f2); clear E; revert k G L; generalize (sp_s0 S) as A; 
         assert (H : forall B A off, (forall k x, nth_error B k = Some x -> fst x = off + k /\ exists e, nth_error A k = Some e /\ fact_of W (off + k) (snd x) e) -> length B = length A -> Forall2 (fun e x => exists i, fact_of W i (snd x) e /\ fst x = i) A B);
         [induction B as [|x B IH]; intros [|e A] off G L; try discriminate; constructor;
           [destruct (G 0 x eq_refl) as (E1 & e' & E2 & F); cbn in E2; injection E2 as ->; eauto|apply (IH A (Datatypes.S off)); [intros k y Ey; specialize (G (Datatypes.S k) y Ey); cbn [nth_error] in G; now rewrite Nat.add_succ_r in G|cbn in L; lia]]|];
         intros A k G L; assert (Z := H i1 A 0 G L); clear - Z; revert A i1 Z; induction k as [|k IH]; intros A i1 Z; cbn; auto; inversion Z; subst; auto).
      exact (X 0).
    - intros k x Ex. now apply G.
  Qed.
End Rep.
