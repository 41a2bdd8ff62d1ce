(** Soundness and completeness of the eager progressions and of the search loop. *)
From Coq Require Import Relations.
From Verif Require Import Base Rel Htn_model Htn_spec Htn_sem Htn_iso Htn_rep.

Lemma wf_acyclic P : wf_problem P -> acyclic_methods P.
Proof. intros W m Hm. apply (wf_methods _ W m Hm). Qed.
Lemma wf_abstract P : wf_problem P -> abstract_methods P.
Proof.
  intros W m Hm Hp. pose proof (wfm_task _ _ (wf_methods _ W m Hm)) as H. unfold primitive in Hp. congruence.
Qed.
Lemma wf_nonempty P : wf_problem P -> nonempty_methods P.
Proof. intros W m Hm. apply (wf_methods _ W m Hm). Qed.

(** ** The chain of solution steps *)
Definition is_act (s : solstep) : bool := match ss_method s with None => true | _ => false end.
Definition plan_of (n : node) : list nat := rev (map ss_task (filter is_act (n_sol n))).

(** The first step of a chain is a decomposition. *)
Definition sol_ok (l : list solstep) : Prop := l = [] \/ exists l' s, l = l' ++ [s] /\ is_act s = false.

Lemma printed_plan_of n : sol_ok (n_sol n) -> printed_plan n = plan_of n.
Proof.
  unfold printed_plan, plan_of. fold is_act.
  intros [->|(l' & s & -> & Hs)]; auto.
  destruct l' as [|a [|b l']]; simpl; auto. now rewrite Hs.
Qed.

Lemma plan_cost_app P p q : plan_cost P (p ++ q) = plan_cost P p + plan_cost P q.
Proof. unfold plan_cost. rewrite map_app. apply list_sum_app. Qed.
Lemma plan_cost_perm P p q : Permutation p q -> plan_cost P p = plan_cost P q.
Proof.
  unfold plan_cost. induction 1; simpl; lia.
Qed.

(** ** Continuations *)
Definition Snd (P : problem) (s : state) (tn : tnet) (acts : list nat) (s' : state) (tn' : tnet) : Prop :=
  forall k plan, solvesk P s' tn' k plan -> exists k', solvesk P s tn k' (acts ++ plan).
Definition Cmp (P : problem) (s : state) (tn : tnet) (acts : list nat) (s' : state) (tn' : tnet) (reach : bool) : Prop :=
  forall k plan, solvesk P s tn k plan ->
    reach = true /\ exists k' plan', k' <= k /\ Permutation plan (acts ++ plan') /\ solvesk P s' tn' k' plan'.

Lemma Snd_refl P s tn : Snd P s tn [] s tn.
Proof. intros k plan H. eauto. Qed.
Lemma Snd_trans P s tn a s1 tn1 b s2 tn2 : Snd P s tn a s1 tn1 -> Snd P s1 tn1 b s2 tn2 -> Snd P s tn (a ++ b) s2 tn2.
Proof.
  intros H1 H2 k plan H. destruct (H2 _ _ H) as (k1 & H3). destruct (H1 _ _ H3) as (k2 & H4).
  exists k2. now rewrite <- app_assoc.
Qed.
Lemma Cmp_trans P s tn a s1 tn1 r1 b s2 tn2 r2 :
  Cmp P s tn a s1 tn1 r1 -> Cmp P s1 tn1 b s2 tn2 r2 -> Cmp P s tn (a ++ b) s2 tn2 r2.
Proof.
  intros H1 H2 k plan H. destruct (H1 _ _ H) as (_ & k1 & p1 & L1 & P1 & S1).
  destruct (H2 _ _ S1) as (R & k2 & p2 & L2 & P2 & S2). split; auto.
  exists k2, p2. split; [lia|]. split; auto. rewrite P1, P2, app_assoc. reflexivity.
Qed.

(** ** apply1 and decompose1: remaining fields *)
Lemma apply1_fields P perm pe fuel w n taskNo w' n' :
  apply1 P perm pe fuel w n taskNo = Some (w', n') ->
  exists i ps st, get (n_prim n) taskNo = Some i /\ get (w_heap w) i = Some ps /\
    n_sol n <> [] /\ n_sol n' = st :: n_sol n /\ ss_task st = ps_task ps /\ ss_method st = None /\
    n_cost n' = n_cost n + cost_of P (ps_task ps) /\ n_reach n' = true /\
    w_heap w' = w_heap w /\
    (pe = true -> eff_indices P (w_heap w') (n_state n') 0 (n_prim n') = Some (w_eff w')).
Proof.
  unfold apply1. intros H. inv_opt. destruct x3 as [nfp nfa]. inv_opt.
  destruct (n_sol n) as [|hd tl] eqn:NS; [discriminate|]. injection H as <- <-.
  eexists x, x0, _. split; auto. split; auto. split; [discriminate|]. split; [reflexivity|].
  repeat split; simpl; auto.
  - f_equal. unfold cost_of, get in *. symmetry. now apply nth_error_nth.
  - intros ->. exact E5.
Qed.

Lemma decompose1_fields P pe w n taskNo mi w' n' :
  decompose1 P pe w n taskNo mi = Some (w', n') ->
  exists st, n_sol n' = st :: n_sol n /\ is_act st = false /\ n_cost n' = n_cost n /\ n_reach n' = true /\
   (pe = true -> exists fp, n_prim n' = n_prim n ++ fp /\
      eff_indices P (w_heap w') (n_state n') (length (n_prim n)) fp = Some (w_eff w')).
Proof.
  unfold decompose1. intros H. inv_opt. destruct (forallb _ _); [|discriminate].
  inv_opt. destruct x2 as [fp fa]. inv_opt. subst.
  eexists. repeat split; simpl; auto. intros ->. exists fp. split; auto.
Qed.

Lemma eff_indices_spec P h s from l r : eff_indices P h s from l = Some r ->
  forall j, In j r -> from <= j /\ exists i tk, get l (j - from) = Some i /\ task_of h i = Some tk /\
                                  effectless_applicable P s tk = Some true.
Proof.
  revert from r; induction l as [|x l IH]; intros from r H j Hj; simpl in H.
  - injection H as <-. destruct Hj.
  - inv_opt. assert (Hj' : (x1 = true /\ j = from) \/ In j x2).
    { destruct x1; subst r; simpl in Hj; auto. destruct Hj; auto. }
    destruct Hj' as [[-> ->]|Hj'].
    + split; auto. rewrite Nat.sub_diag. exists x, x0. auto.
    + destruct (IH _ _ E1 j Hj') as (L & i & tk & G & T & A). split; [lia|].
      exists i, tk. split; auto. replace (j - from) with (S (j - S from)) by lia. exact G.
Qed.

Lemma effectless_applicable_spec P s tk (st : state) :
  effectless_applicable P s tk = Some true -> (forall f, st f <-> get s f = Some true) ->
  effectless P tk /\ applicable P st tk.
Proof.
  unfold effectless_applicable, effectless, adds, dels. intros H HS. inv_opt. unfold get in E, E0.
  rewrite E, E0. destruct x; [|discriminate]. destruct x0; [|discriminate].
  split; [|now apply (isApplicable_spec _ _ _ _ _ H HS)].
  split; intros f (l & [= <-] & []).
Qed.

Lemma one_applicable_spec P h s (st : state) l :
  (forall f, st f <-> get s f = Some true) ->
  forall i acc r, one_applicable P h s i l acc = Some r ->
  match r with
  | OneMany => True
  | OneNone => acc = OneNone /\ forall j x tk, get l j = Some x -> task_of h x = Some tk -> ~ applicable P st tk
  | OneIdx q =>
      (acc = OneIdx q /\ forall j x tk, get l j = Some x -> task_of h x = Some tk -> ~ applicable P st tk) \/
      (acc = OneNone /\ i <= q /\ exists x tk, get l (q - i) = Some x /\ task_of h x = Some tk /\ applicable P st tk /\
         forall j x tk, get l j = Some x -> task_of h x = Some tk -> applicable P st tk -> j = q - i)
  end.
Proof.
  intros HS. induction l as [|x l IH]; intros i acc r H; simpl in H.
  - injection H as <-. destruct acc; auto; [split; auto|left; split; auto];
    intros [|j] y tk G; discriminate.
  - inv_opt. destruct x1.
    + assert (HA : applicable P st x0) by (now apply (isApplicable_spec _ _ _ _ _ E0 HS)).
      destruct acc; try (injection H as <-; exact I).
      specialize (IH _ _ _ H). destruct r; auto.
      * destruct IH as [F _]. discriminate.
      * destruct IH as [[[= <-] HN]|[F _]]; [|discriminate]. right. split; auto. split; auto.
        rewrite Nat.sub_diag. exists x, x0. split; auto. split; auto. split; auto.
        intros [|j] y tk G T A; auto. exfalso. eapply HN; eauto.
    + assert (HA : ~ applicable P st x0).
      { intros A. apply (isApplicable_spec _ _ _ _ _ E0 HS) in A. discriminate. }
      specialize (IH _ _ _ H). destruct r; auto.
      * destruct IH as [-> HN]. split; auto. intros [|j] y tk G T; simpl in G.
        -- injection G as <-. congruence.
        -- eauto.
      * destruct IH as [[-> HN]|(-> & L & y & tk & G & T & A & U)].
        -- left. split; auto. intros [|j] y tk G T; simpl in G.
           ++ injection G as <-. congruence.
           ++ eauto.
        -- right. split; auto. split; [lia|]. exists y, tk.
           replace (i0 - i) with (S (i0 - S i)) by lia. split; auto. split; auto. split; auto.
           intros [|j] z tk' G' T' A'; simpl in G'.
           ++ injection G' as <-. congruence.
           ++ f_equal. eapply U; eauto.
Qed.

(** ** apply *)
Definition Step (P : problem) (C : config) (w : world) (n : node) (s : state) (tn : tnet)
           (w' : world) (n' : node) (pi : nat -> tid) : Prop :=
  exists s' tn' acts,
    w_heap w' = w_heap w /\ Rep P (w_heap w') n' s' tn' pi /\
    plan_of n' = plan_of n ++ acts /\ n_cost n' = n_cost n + plan_cost P acts /\
    (sol_ok (n_sol n) -> sol_ok (n_sol n')) /\
    Snd P s tn acts s' tn' /\ Cmp P s tn acts s' tn' (n_reach n') /\
    (c_eff C = true -> w_eff w' = []).

Section Apply.
  Variables (P : problem) (C : config).
  Hypothesis WP : wf_problem P.
  Hypothesis HP : forall l, Permutation l (c_perm C l).

  Lemma primitive_heads n s tn pi h : Rep P h n s tn pi -> n_abs n = [] ->
    forall x, minimal tn x -> primitive P (t_lab tn x).
  Proof.
    intros R Ha x Hx. destruct (minimal_head _ _ _ _ _ _ _ R Hx) as (i & Hi & <-).
    assert (Hp : In i (n_prim n)) by (unfold heads in Hi; rewrite Ha in Hi; exact Hi).
    destruct (get_some h i) as (ps & G); [now apply (r_lt _ _ _ _ _ _ R)|].
    rewrite (r_lab _ _ _ _ _ _ R i ps); auto; [|now apply live_head].
    eapply (r_prim _ _ _ _ _ _ R); eauto.
  Qed.

  Lemma apply_ok fuel :
    (forall w n taskNo w' n' s tn pi i ps,
       wf_heap P (w_heap w) -> Rep P (w_heap w) n s tn pi ->
       get (n_prim n) taskNo = Some i -> get (w_heap w) i = Some ps -> applicable P s (ps_task ps) ->
       apply P C fuel w n taskNo = Some (w', n') ->
       exists s' tn' acts,
         w_heap w' = w_heap w /\ Rep P (w_heap w') n' s' tn' pi /\
         plan_of n' = plan_of n ++ ps_task ps :: acts /\
         n_cost n' = n_cost n + plan_cost P (ps_task ps :: acts) /\
         (sol_ok (n_sol n) -> sol_ok (n_sol n')) /\
         Snd P (result P s (ps_task ps)) (minus tn (pi i)) acts s' tn' /\
         Cmp P (result P s (ps_task ps)) (minus tn (pi i)) acts s' tn' (n_reach n') /\
         (c_eff C = true -> w_eff w' = [])) /\
    (forall w n ac w' n' s tn pi,
       wf_heap P (w_heap w) -> Rep P (w_heap w) n s tn pi ->
       c_eff C = true ->
       (ac = None -> w_eff w = []) ->
       (forall j, ac = Some j -> exists i tk, get (n_prim n) j = Some i /\ task_of (w_heap w) i = Some tk /\
                                   effectless_applicable P (n_state n) tk = Some true) ->
       ((exists k plan, solvesk P s tn k plan) -> n_reach n = true) ->
       eff_loop P C fuel w n ac = Some (w', n') ->
       Step P C w n s tn w' n' pi).
  Proof.
    pose proof (wf_acyclic P WP) as AC. pose proof (wf_abstract P WP) as AB. pose proof (wf_nonempty P WP) as NE.
    induction fuel as [|fuel [IHa IHe]].
    { split; [intros; discriminate|]. intros w n ac w' n' s tn pi W R Ce He Hj Hr H.
      destruct ac; [discriminate|]. simpl in H. injection H as <- <-.
      exists s, tn, []. rewrite !app_nil_r. unfold plan_cost; simpl. rewrite Nat.add_0_r.
      split; auto. split; auto. split; auto. split; auto. split; auto. split; [apply Snd_refl|]. split; auto.
      intros k plan HS. split; [eauto|]. exists k, plan. split; auto. }
    split.
    - intros w n taskNo w' n' s tn pi i ps W R Gi Gp Ha H. cbn [apply] in H.
      apply obind_some in H as ((w1 & r1) & E1 & H).
      apply obind_some in H as ((w2 & r2) & E2 & H).
      destruct (apply1_rep _ _ _ _ _ _ _ _ _ _ _ HP W R E1) as (i' & ps' & Gi' & Gp' & Lab & Min & Prm & Hh1 & R1).
      rewrite Gi in Gi'. injection Gi' as <-. rewrite Gp in Gp'. injection Gp' as <-.
      destruct (apply1_fields _ _ _ _ _ _ _ _ _ E1) as (i' & ps' & st & Gi' & Gp' & NS & NS' & Tst & Mst & Cst & Rch & _ & EI).
      rewrite Gi in Gi'. injection Gi' as <-. rewrite Gp in Gp'. injection Gp' as <-.
      set (s1 := result P s (ps_task ps)) in *. set (tn1 := minus tn (pi i)) in *.
      assert (PL1 : plan_of r1 = plan_of n ++ [ps_task ps]).
      { unfold plan_of. rewrite NS'. simpl. unfold is_act at 1. rewrite Mst. simpl. now rewrite Tst. }
      assert (SO1 : sol_ok (n_sol n) -> sol_ok (n_sol r1)).
      { rewrite NS'. intros [F|(l' & z & F & Hz)]; [congruence|]. rewrite F. right. exists (st :: l'), z. auto. }
      assert (W1 : wf_heap P (w_heap w1)) by now rewrite Hh1.
      (* after the loop over effectless actions *)
      assert (ST2 : exists s2 tn2 acts, w_heap w2 = w_heap w1 /\ Rep P (w_heap w2) r2 s2 tn2 pi /\
                plan_of r2 = plan_of r1 ++ acts /\ n_cost r2 = n_cost r1 + plan_cost P acts /\
                (sol_ok (n_sol r1) -> sol_ok (n_sol r2)) /\
                Snd P s1 tn1 acts s2 tn2 /\ Cmp P s1 tn1 acts s2 tn2 (n_reach r2) /\
                (c_eff C = true -> w_eff w2 = [])).
      { destruct (c_eff C) eqn:Ce.
        - specialize (EI eq_refl).
          assert (EV : forall j, In j (w_eff w1) -> exists i tk, get (n_prim r1) j = Some i /\ task_of (w_heap w1) i = Some tk /\
                                   effectless_applicable P (n_state r1) tk = Some true).
          { intros j Hj. destruct (eff_indices_spec _ _ _ _ _ _ EI j Hj) as (_ & a & tk & G & T & A).
            rewrite Nat.sub_0_r in G. eauto. }
          unfold eff_first in E2. destruct (w_eff w1) as [|j0 rest] eqn:We.
          + destruct (IHe w1 r1 None w2 r2 s1 tn1 pi) as (s2 & tn2 & acts & Q); auto.
            { intros j F; discriminate. }
            exists s2, tn2, acts. rewrite Ce in Q. exact Q.
          + destruct (IHe (set_iter w1 0) r1 (Some j0) w2 r2 s1 tn1 pi) as (s2 & tn2 & acts & Q); auto.
            { discriminate. }
            { intros j [= <-]. apply EV. simpl; auto. }
            exists s2, tn2, acts. rewrite Ce in Q. exact Q.
        - injection E2 as <- <-. exists s1, tn1, []. rewrite app_nil_r. unfold plan_cost; simpl. rewrite Nat.add_0_r.
          split; auto. split; auto. split; auto. split; auto. split; auto. split; [apply Snd_refl|]. split; [|discriminate].
          intros k plan HS. split; auto. exists k, plan. split; auto. }
      destruct ST2 as (s2 & tn2 & acts & Hh2 & R2 & PL2 & CO2 & SO2 & SN2 & CM2 & WE2).
      assert (BASE : exists s' tn' acts0,
         w_heap w2 = w_heap w /\ Rep P (w_heap w2) r2 s' tn' pi /\
         plan_of r2 = plan_of n ++ ps_task ps :: acts0 /\
         n_cost r2 = n_cost n + plan_cost P (ps_task ps :: acts0) /\
         (sol_ok (n_sol n) -> sol_ok (n_sol r2)) /\
         Snd P s1 tn1 acts0 s' tn' /\ Cmp P s1 tn1 acts0 s' tn' (n_reach r2) /\
         (c_eff C = true -> w_eff w2 = [])).
      { exists s2, tn2, acts. split; [congruence|]. split; auto. split; [rewrite PL2, PL1, <- app_assoc; reflexivity|].
        split; [rewrite CO2, Cst; unfold plan_cost; simpl; lia|]. split; auto. }
      destruct (c_one C); [|injection H as <- <-; exact BASE].
      destruct (n_abs r2) as [|a0 ar] eqn:NA; [|injection H as <- <-; exact BASE].
      destruct (n_prim r2) as [|p0 pr] eqn:NP; [injection H as <- <-; exact BASE|].
      rewrite <- NP in H.
      apply obind_some in H as (o & Eo & H).
      pose proof (one_applicable_spec _ _ _ s2 _ (r_state _ _ _ _ _ _ R2) _ _ _ Eo) as OS.
      assert (NT : exists x, t_in tn2 x).
      { exists (pi p0). apply (r_min _ _ _ _ _ _ R2). unfold heads. rewrite NA, NP. simpl; auto. }
      assert (PH : forall x, minimal tn2 x -> primitive P (t_lab tn2 x)) by (eapply primitive_heads; eauto).
      (* every way to go on starts with an applicable head *)
      assert (NEXT : forall k plan, solvesk P s2 tn2 k plan ->
                exists j y tk k' plan', get (n_prim r2) j = Some y /\ task_of (w_heap w2) y = Some tk /\ applicable P s2 tk /\
                   k = S k' /\ plan = tk :: plan' /\ solvesk P (result P s2 tk) (minus tn2 (pi y)) k' plan').
      { intros k plan HS.
        destruct (solvesk_act_complete P s2 tn2 k plan AC AB NE (r_wf _ _ _ _ _ _ R2) NT PH HS)
          as (x & k' & plan' & Mx & Ax & -> & -> & HS').
        destruct (minimal_head _ _ _ _ _ _ _ R2 Mx) as (y & Hy & <-).
        assert (Hyp : In y (n_prim r2)) by (unfold heads in Hy; rewrite NA in Hy; exact Hy).
        destruct (get_some (w_heap w2) y) as (q & Gq); [now apply (r_lt _ _ _ _ _ _ R2)|].
        assert (Lq : t_lab tn2 (pi y) = ps_task q) by (eapply (r_lab _ _ _ _ _ _ R2); eauto; now apply live_head).
        rewrite Lq in *. apply In_nth_error in Hyp as (j & Gj).
        exists j, y, (ps_task q), k', plan'. split; auto. split; [unfold task_of; rewrite Gq; reflexivity|]. auto. }
      destruct o as [|q|].
      + (* no applicable action: dead end *)
        injection H as <- <-. destruct OS as [_ OS].
        assert (DE : forall k plan, ~ solvesk P s2 tn2 k plan).
        { intros k plan HS. destruct (NEXT _ _ HS) as (j & y & tk & k' & plan' & G & T & A & _). eapply OS; eauto. }
        destruct BASE as (s' & tn' & acts0 & B1 & B2 & B3 & B4 & B5 & B6 & B7 & B8).
        exists s2, tn2, acts. simpl. split; [congruence|]. split.
        { split; try apply R2. }
        split; [change (plan_of (set_unreachable r2)) with (plan_of r2); rewrite PL2, PL1, <- app_assoc; reflexivity|].
        split; [rewrite CO2, Cst; unfold plan_cost; simpl; lia|]. split; auto. split; auto. split; auto.
        intros k plan HS. destruct (CM2 _ _ HS) as (_ & k' & p' & _ & _ & F). exfalso. eapply DE; eauto.
      + (* exactly one *)
        destruct OS as [[F _]|(_ & _ & y & tk & Gy & Ty & Ay & Uq)]; [discriminate|].
        rewrite Nat.sub_0_r in Gy, Uq.
        unfold task_of in Ty. apply obind_some in Ty as (py & Gpy & [= <-]).
        assert (W2 : wf_heap P (w_heap w2)) by (rewrite Hh2; exact W1).
        destruct (IHa w2 r2 q w' n' s2 tn2 pi y py W2 R2 Gy Gpy Ay H) as (s3 & tn3 & acts3 & Hh3 & R3 & PL3 & CO3 & SO3 & SN3 & CM3 & WE3).
        exists s3, tn3, (acts ++ ps_task py :: acts3).
        split; [congruence|]. split; auto. split.
        { rewrite PL3, PL2, PL1, <- !app_assoc. reflexivity. }
        split.
        { rewrite CO3, CO2, Cst. unfold plan_cost. simpl. rewrite map_app, list_sum_app. simpl. lia. }
        split; auto.
        assert (Miny : minimal tn2 (pi y)).
        { apply (r_min _ _ _ _ _ _ R2). unfold heads. apply in_or_app. right. eapply nth_error_In; exact Gy. }
        assert (Laby : t_lab tn2 (pi y) = ps_task py).
        { eapply (r_lab _ _ _ _ _ _ R2); eauto. apply live_head. unfold heads. apply in_or_app. right. eapply nth_error_In; exact Gy. }
        split; [|split; auto].
        * apply (Snd_trans P s1 tn1 acts s2 tn2); auto.
          intros k plan HS. destruct (SN3 _ _ HS) as (k' & HS').
          exists (S k'). rewrite <- Laby in *. simpl. apply solvesk_act; auto.
          apply (r_wf _ _ _ _ _ _ R2).
        * apply (Cmp_trans P s1 tn1 acts s2 tn2 (n_reach r2)); auto.
          intros k plan HS. destruct (NEXT _ _ HS) as (j & y' & tk & k' & plan' & G & T & A & -> & -> & HS').
          assert (j = q) by (eapply Uq; eauto). subst j. rewrite Gy in G. injection G as <-.
          unfold task_of in T. rewrite Gpy in T. injection T as <-.
          destruct (CM3 _ _ HS') as (Rc & k2 & p2 & L2 & P2 & S2). split; auto.
          exists k2, p2. split; [lia|]. split; auto. simpl. now constructor.
      + injection H as <- <-; exact BASE.
    - intros w n ac w' n' s tn pi W R Ce He Hj Hr H.
      destruct ac as [j|].
      + cbn [eff_loop] in H. apply obind_some in H as ((w1 & r1) & E1 & H).
        destruct (Hj j eq_refl) as (i & tk & Gi & Ti & Ei).
        unfold task_of in Ti. apply obind_some in Ti as (ps & Gp & [= <-]).
        destruct (effectless_applicable_spec _ _ _ s Ei (r_state _ _ _ _ _ _ R)) as [EL AP].
        destruct (IHa w n j w1 r1 s tn pi i ps W R Gi Gp AP E1) as (s1 & tn1 & acts1 & Hh1 & R1 & PL1 & CO1 & SO1 & SN1 & CM1 & WE1).
        assert (Hih : In i (heads n)) by (unfold heads; apply in_or_app; right; eapply nth_error_In; exact Gi).
        assert (Min : minimal tn (pi i)) by now apply (r_min _ _ _ _ _ _ R).
        assert (Lab : t_lab tn (pi i) = ps_task ps).
        { eapply (r_lab _ _ _ _ _ _ R); eauto. now apply live_head. }
        assert (Prm : primitive P (ps_task ps)).
        { eapply (r_prim _ _ _ _ _ _ R); eauto. eapply nth_error_In; exact Gi. }
        assert (SN : Snd P s tn (ps_task ps :: acts1) s1 tn1).
        { intros k plan HS. destruct (SN1 _ _ HS) as (k' & HS'). exists (S k'). simpl. rewrite <- Lab in *.
          apply solvesk_act; auto. apply (r_wf _ _ _ _ _ _ R). }
        assert (CM : Cmp P s tn (ps_task ps :: acts1) s1 tn1 (n_reach r1)).
        { intros k plan HS. rewrite <- Lab in *.
          destruct (solvesk_effectless P s tn (pi i) k plan AC AB (r_wf _ _ _ _ _ _ R) Min Prm AP EL HS) as (k' & plan' & -> & Pm & HS').
          destruct (CM1 _ _ HS') as (Rc & k2 & p2 & L2 & P2 & S2). split; auto.
          exists k2, p2. split; [lia|]. split; auto. rewrite Pm. simpl. now constructor. }
        unfold eff_next in H. simpl in H. rewrite (WE1 Ce) in H.
        replace (nth_error (@nil nat) (S (w_iter w1))) with (@None nat) in H by reflexivity.
        destruct (IHe (set_iter w1 (S (w_iter w1))) r1 None w' n' s1 tn1 pi) as (s2 & tn2 & acts2 & Hh2 & R2 & PL2 & CO2 & SO2 & SN2 & CM2 & WE2); auto.
        { simpl. now rewrite Hh1. }
        { intros j' F; discriminate. }
        { intros (k & plan & HS). destruct (SN _ _ HS) as (k' & HS'). apply (CM _ _ HS'). }
        exists s2, tn2, ((ps_task ps :: acts1) ++ acts2).
        split; [simpl in Hh2; congruence|]. split; auto.
        split; [rewrite PL2, PL1, <- app_assoc; reflexivity|].
        split; [rewrite CO2, CO1, plan_cost_app; lia|]. split; auto.
        split; [eapply Snd_trans; eauto|]. split; [eapply Cmp_trans; eauto|]. auto.
      + simpl in H. injection H as <- <-.
        exists s, tn, []. rewrite !app_nil_r. unfold plan_cost; simpl. rewrite Nat.add_0_r.
        split; auto. split; auto. split; auto. split; auto. split; auto. split; [apply Snd_refl|]. split; auto.
        intros k plan HS. split; [eauto|]. exists k, plan. split; auto.
  Qed.
End Apply.
