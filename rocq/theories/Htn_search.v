(** Soundness and completeness of the search loop. *)
From Coq Require Import Relations.
From Verif Require Import Base Rel Htn_model Htn_spec Htn_sem Htn_iso Htn_rep Htn_proof Htn_history.

(** ** decompose *)
Section Decompose.
  Variables (P : problem) (C : config).
  Hypothesis WP : wf_problem P.
  Hypothesis HP : forall l, Permutation l (c_perm C l).

  Lemma Step_refl w n s tn pi : Rep P (w_heap w) n s tn pi ->
    ((exists k plan, solvesk P s tn k plan) -> n_reach n = true) -> (c_eff C = true -> w_eff w = []) ->
    Step P C w n s tn w n pi.
  Proof.
    intros R Hr We. exists s, tn, []. rewrite !app_nil_r. unfold plan_cost; simpl. rewrite Nat.add_0_r.
    split; auto. split; auto. split; auto. split; auto. split; auto. split; [apply Snd_refl|]. split; auto.
    intros k plan HS. split; [eauto|]. exists k, plan. split; auto.
  Qed.

  Lemma one_mod_ok fuel w n w' n' s tn pi :
    wf_heap P (w_heap w) -> Rep P (w_heap w) n s tn pi ->
    ((exists k plan, solvesk P s tn k plan) -> n_reach n = true) -> (c_eff C = true -> w_eff w = []) ->
    one_mod P C fuel w n = Some (w', n') -> Step P C w n s tn w' n' pi.
  Proof.
    pose proof (wf_acyclic P WP) as AC. pose proof (wf_abstract P WP) as AB. pose proof (wf_nonempty P WP) as NE.
    intros W R Hr We H.
    pose proof (Step_refl w n s tn pi R Hr We) as BASE.
    unfold one_mod in H.
    destruct (c_one C); [|injection H as <- <-; exact BASE].
    destruct (n_abs n) as [|a0 ar] eqn:NA; [|injection H as <- <-; exact BASE].
    destruct (n_prim n) as [|p0 pr] eqn:NP; [injection H as <- <-; exact BASE|].
    rewrite <- NP in H.
    apply obind_some in H as (o & Eo & H).
    pose proof (one_applicable_spec _ _ _ s _ (r_state _ _ _ _ _ _ R) _ _ _ Eo) as OS.
    assert (NT : exists x, t_in tn x).
    { exists (pi p0). apply (r_min _ _ _ _ _ _ R). unfold heads. rewrite NA, NP. simpl; auto. }
    assert (PH : forall x, minimal tn x -> primitive P (t_lab tn x)) by (eapply primitive_heads; eauto).
    assert (NEXT : forall k plan, solvesk P s tn k plan ->
              exists j y tk k' plan', get (n_prim n) j = Some y /\ task_of (w_heap w) y = Some tk /\ applicable P s tk /\
                 k = S k' /\ plan = tk :: plan' /\ solvesk P (result P s tk) (minus tn (pi y)) k' plan').
    { intros k plan HS.
      destruct (solvesk_act_complete P s tn k plan AC AB NE (r_wf _ _ _ _ _ _ R) NT PH HS)
        as (x & k' & plan' & Mx & Ax & -> & -> & HS').
      destruct (minimal_head _ _ _ _ _ _ _ R Mx) as (y & Hy & <-).
      assert (Hyp : In y (n_prim n)) by (unfold heads in Hy; rewrite NA in Hy; exact Hy).
      destruct (get_some (w_heap w) y) as (q & Gq); [now apply (r_lt _ _ _ _ _ _ R)|].
      assert (Lq : t_lab tn (pi y) = ps_task q) by (eapply (r_lab _ _ _ _ _ _ R); eauto; now apply live_head).
      rewrite Lq in *. apply In_nth_error in Hyp as (j & Gj).
      exists j, y, (ps_task q), k', plan'. split; auto. split; [unfold task_of; rewrite Gq; reflexivity|]. auto. }
    destruct o as [|q|].
    - injection H as <- <-. destruct OS as [_ OS].
      exists s, tn, []. rewrite !app_nil_r. unfold plan_cost; simpl. rewrite Nat.add_0_r.
      split; auto. split; [split; apply R|]. split; auto. split; auto. split; auto. split; [apply Snd_refl|]. split; auto.
      intros k plan HS. exfalso. destruct (NEXT _ _ HS) as (j & y & tk & k' & plan' & G & T & A & _). eapply OS; eauto.
    - destruct OS as [[F _]|(_ & _ & y & tk & Gy & Ty & Ay & Uq)]; [discriminate|].
      rewrite Nat.sub_0_r in Gy, Uq.
      unfold task_of in Ty. apply obind_some in Ty as (py & Gpy & [= <-]).
      destruct (proj1 (apply_ok P C WP HP fuel) w n q w' n' s tn pi y py W R Gy Gpy Ay H)
        as (s3 & tn3 & acts3 & Hh3 & R3 & PL3 & CO3 & SO3 & SN3 & CM3 & WE3).
      exists s3, tn3, (ps_task py :: acts3).
      split; auto. split; auto. split; auto. split; auto. split; auto.
      assert (Miny : minimal tn (pi y)).
      { apply (r_min _ _ _ _ _ _ R). unfold heads. apply in_or_app. right. eapply nth_error_In; exact Gy. }
      assert (Laby : t_lab tn (pi y) = ps_task py).
      { eapply (r_lab _ _ _ _ _ _ R); eauto. apply live_head. unfold heads. apply in_or_app. right. eapply nth_error_In; exact Gy. }
      split; [|split; auto].
      + intros k plan HS. destruct (SN3 _ _ HS) as (k' & HS').
        exists (S k'). rewrite <- Laby in *. simpl. apply solvesk_act; auto.
        apply (r_wf _ _ _ _ _ _ R).
      + intros k plan HS. destruct (NEXT _ _ HS) as (j & y' & tk & k' & plan' & G & T & A & -> & -> & HS').
        assert (j = q) by (eapply Uq; eauto). subst j. rewrite Gy in G. injection G as <-.
        unfold task_of in T. rewrite Gpy in T. injection T as <-.
        destruct (CM3 _ _ HS') as (Rc & k2 & p2 & L2 & P2 & S2). split; auto.
        exists k2, p2. split; [lia|]. split; auto. simpl. now constructor.
    - injection H as <- <-; exact BASE.
  Qed.

  Lemma Step_trans w n s tn w1 n1 w2 n2 pi :
    Step P C w n s tn w1 n1 pi ->
    (forall s1 tn1, Rep P (w_heap w1) n1 s1 tn1 pi -> ((exists k plan, solvesk P s1 tn1 k plan) -> n_reach n1 = true) ->
       (c_eff C = true -> w_eff w1 = []) ->
       Step P C w1 n1 s1 tn1 w2 n2 pi) ->
    Step P C w n s tn w2 n2 pi.
  Proof.
    intros (s1 & tn1 & a1 & H1 & R1 & P1 & C1 & O1 & S1 & M1 & E1) H.
    destruct (H s1 tn1 R1) as (s2 & tn2 & a2 & H2 & R2 & P2 & C2 & O2 & S2 & M2 & E2); auto.
    { intros (k & plan & HS). destruct (S1 _ _ HS) as (k' & HS'). apply (M1 _ _ HS'). }
    exists s2, tn2, (a1 ++ a2). split; [congruence|]. split; auto.
    split; [rewrite P2, P1, app_assoc; reflexivity|].
    split; [rewrite C2, C1, plan_cost_app; lia|]. split; auto.
    split; [eapply Snd_trans; eauto|]. split; [eapply Cmp_trans; eauto|auto].
  Qed.

  Lemma decompose_ok fuel w n taskNo mi w' n' s tn pi i ps m :
    wf_heap P (w_heap w) -> Rep P (w_heap w) n s tn pi ->
    get (n_abs n) taskNo = Some i -> get (w_heap w) i = Some ps -> nth_error (p_methods P) mi = Some m ->
    ps_task ps = m_task m ->
    decompose P C fuel w n taskNo mi = Some (w', n') ->
    exists e pi' s' tn' acts,
      w_heap w' = w_heap w ++ e /\ wf_heap P (w_heap w') /\
      Rep P (w_heap w') n' s' tn' pi' /\
      plan_of n' = plan_of n ++ acts /\ n_cost n' = n_cost n + plan_cost P acts /\
      (sol_ok (n_sol n) -> sol_ok (n_sol n')) /\
      Snd P s tn acts s' tn' /\
      (forall c, decomposes P tn (pi i) m c -> Cmp P s c acts s' tn' (n_reach n')).
  Proof.
    intros W R Gi Gp Gm Tm H. unfold decompose in H.
    apply obind_some in H as ((w1 & r1) & E1 & H).
    apply obind_some in H as ((w2 & r2) & E2 & H).
    destruct (decompose1_rep P C w n taskNo mi w1 r1 s tn pi (wf_methods _ WP) W R E1) as
      (i' & ps' & m' & pi' & e & Gi' & Gp' & Gm' & Min & Hh1 & W1 & D & R1).
    { intros i0 ps0 m0 G1 G2 G3. congruence. }
    rewrite Gi in Gi'. injection Gi' as <-. rewrite Gp in Gp'. injection Gp' as <-. rewrite Gm in Gm'. injection Gm' as <-.
    destruct (decompose1_fields _ _ _ _ _ _ _ _ E1) as (st & NS & Ast & Cst & Rch & EI).
    set (c0 := decF tn (pi i) m) in *.
    assert (ST2 : Step P C w1 r1 s c0 w2 r2 pi').
    { destruct (c_eff C) eqn:Ce.
      - destruct (EI eq_refl) as (fp & NP & EF).
        assert (EV : forall j, In j (w_eff w1) -> exists i tk, get (n_prim r1) j = Some i /\ task_of (w_heap w1) i = Some tk /\
                                 effectless_applicable P (n_state r1) tk = Some true).
        { intros j Hj. destruct (eff_indices_spec _ _ _ _ _ _ EF j Hj) as (L & a & tk & G & T & A).
          exists a, tk. split; auto. rewrite NP. unfold get. rewrite nth_error_app2 by lia. exact G. }
        unfold eff_first in E2. destruct (w_eff w1) as [|j0 rest] eqn:We.
        + apply (proj2 (apply_ok P C WP HP fuel) w1 r1 None w2 r2 s c0 pi'); auto.
          intros j F; discriminate.
        + destruct (proj2 (apply_ok P C WP HP fuel) (set_iter w1 0) r1 (Some j0) w2 r2 s c0 pi') as (s2 & tn2 & acts & Q); auto.
          { discriminate. }
          { intros j [= <-]. apply EV. simpl; auto. }
          exists s2, tn2, acts. exact Q.
      - injection E2 as <- <-. apply Step_refl; auto. congruence. }
    assert (ST : Step P C w1 r1 s c0 w' n' pi').
    { eapply Step_trans; [exact ST2|]. intros s1 tn1 R' Hr' We'.
      eapply one_mod_ok; eauto. destruct ST2 as (? & ? & ? & Hh2 & _). rewrite Hh2. exact W1. }
    destruct ST as (s2 & tn2 & acts & Hh2 & R2 & PL & CO & SO & SN & CM & _).
    exists e, pi', s2, tn2, acts. split; [congruence|]. split; [rewrite Hh2; exact W1|]. split; auto.
    split.
    { rewrite PL. unfold plan_of at 1. rewrite NS. simpl. rewrite Ast. reflexivity. }
    split; [congruence|]. split.
    { intros SO0. apply SO. rewrite NS. destruct SO0 as [F|(l' & z & F & Hz)].
      - rewrite F. right. exists [], st. auto.
      - rewrite F. right. exists (st :: l'), z. auto. }
    split.
    { intros k plan HS. destruct (SN _ _ HS) as (k' & HS'). exists (S k'). eapply solvesk_dec; eauto. }
    intros c Dc k plan HS. apply (CM k plan).
    eapply solvesk_ext; [| |exact HS]; [tauto|]. eapply decomposes_fun; eauto.
  Qed.
End Decompose.

(** ** Contracts of the components used by the search *)
Section Search.
  Context {V : Type}.
  Variables (P : problem) (C : config) (E : search_env V).
  Hypothesis WP : wf_problem P.
  Hypothesis HP : forall l, Permutation l (c_perm C l).
  Hypothesis pop_some : forall fr n fr', e_pop E fr = Some (n, fr') -> Permutation fr (n :: fr').
  Hypothesis pop_none : forall fr, e_pop E fr = None -> fr = [].
  Hypothesis push_perm : forall n fr, Permutation (e_push E n fr) (n :: fr).

  Let s0 := initial_state P.
  Let tn0 := initial_network P.

  Definition NInv (w : world) (n : node) (s : state) (tn : tnet) (pi : nat -> tid) : Prop :=
    Rep P (w_heap w) n s tn pi /\ sol_ok (n_sol n) /\ n_cost n = plan_cost P (plan_of n) /\
    Snd P s0 tn0 (plan_of n) s tn.

  Lemma NInv_ext w w' e n s tn pi : wf_heap P (w_heap w) -> w_heap w' = w_heap w ++ e ->
    NInv w n s tn pi -> NInv w' n s tn pi.
  Proof. intros W H (R & Q). split; auto. rewrite H. now apply Rep_ext. Qed.

  Definition NotGoal (n : node) : Prop := subopt E = true -> isGoal P n <> Some true.
  Definition FInv (w : world) (n : node) : Prop := (exists s tn pi, NInv w n s tn pi) /\ NotGoal n.

  Lemma goal_solution w n s tn pi : NInv w n s tn pi -> isGoal P n = Some true ->
    solution P (printed_plan n) /\ n_cost n = plan_cost P (printed_plan n).
  Proof.
    intros (R & SO & CO & SN) G. rewrite (printed_plan_of n SO). split; auto.
    unfold isGoal in G. destruct (n_abs n) eqn:NA; [|discriminate]. destruct (n_prim n) eqn:NP; [|discriminate].
    assert (EM : forall x, ~ t_in tn x).
    { intros x Hx. apply (r_in _ _ _ _ _ _ R) in Hx as (i & (r & Hr & _) & _). unfold heads in Hr. rewrite NA, NP in Hr. destruct Hr. }
    assert (GS : goal_state P s).
    { intros f Hf. apply (r_state _ _ _ _ _ _ R). eapply (proj1 (all_true_spec _ _ _ G)); auto. }
    destruct (SN _ _ (solvesk_done P s tn EM GS)) as (k & HS). rewrite app_nil_r in HS.
    apply solves_solvesk; eauto using wf_acyclic.
    split; simpl; intros; try tauto. now subst.
  Qed.

  (** ** Soundness *)
  Definition SInv (st : sstate V) : Prop :=
    wf_heap P (w_heap (s_world st)) /\ forall n, In n (s_fringe st) -> FInv (s_world st) n.

  Definition extends (w w' : world) : Prop := exists e, w_heap w' = w_heap w ++ e.
  Lemma extends_refl w : extends w w. Proof. exists []. now rewrite app_nil_r. Qed.
  Lemma extends_trans a b c : extends a b -> extends b c -> extends a c.
  Proof. intros (e & H) (f & G). exists (e ++ f). now rewrite G, H, app_assoc. Qed.
  Lemma FInv_ext w w' n : wf_heap P (w_heap w) -> extends w w' -> FInv w n -> FInv w' n.
  Proof. intros W (e & H) ((s & tn & pi & N) & G). split; auto. exists s, tn, pi. eapply NInv_ext; eauto. Qed.

  (** ** Completeness *)
  (** [Compl] is [True] for completeness; for soundness it is [False], and then nothing is required of the visited list
      and of the heuristic. *)
  Variable Compl : Prop.
  (** What the contracts may assume of a node; every node of a history has it. *)
  Variable J : world -> node -> Prop.
  Hypothesis J_hist : forall w l n, history P C w l -> In n l -> J w n.
  Variable VI : V -> list (state * tnet) -> Prop.
  Hypothesis vis_new : forall w v n s tn pi L v', J w n -> wf_heap P (w_heap w) -> Rep P (w_heap w) n s tn pi -> VI v L ->
    v_insert E w v n = (true, v') -> VI v' ((s, tn) :: L).
  Hypothesis vis_old : forall w v n s tn pi L v', J w n -> wf_heap P (w_heap w) -> Rep P (w_heap w) n s tn pi -> VI v L ->
    v_insert E w v n = (false, v') -> VI v' L /\ (Compl -> exists s2 tn2, In (s2, tn2) L /\ same_node s tn s2 tn2).
  Hypothesis dead_ok : Compl -> forall w n s tn pi, J w n -> wf_heap P (w_heap w) -> Rep P (w_heap w) n s tn pi ->
    h_dead E w n = true -> forall plan, ~ solves P s tn plan.

  Lemma dead_ok' w n s tn pi : Compl -> J w n -> wf_heap P (w_heap w) -> Rep P (w_heap w) n s tn pi ->
    h_dead E w n = true -> forall k plan, ~ solvesk P s tn k plan.
  Proof.
    intros HC HJ W R D k plan HS. eapply (dead_ok HC w n s tn pi HJ W R D plan).
    apply solves_solvesk; eauto using wf_acyclic. apply (r_wf _ _ _ _ _ _ R).
  Qed.

  Definition GInv (st : sstate V) (L : list (state * tnet)) : Prop :=
    SInv st /\ VI (s_vis st) L /\ (forall s tn, In (s, tn) L -> wf_tn tn).

  (** A fringe node solvable within [k]. *)
  Definition Wit (st : sstate V) (k : nat) : Prop :=
    exists n s tn pi k' plan, In n (s_fringe st) /\ NInv (s_world st) n s tn pi /\ k' <= k /\ solvesk P s tn k' plan.
  Definition Cov (st : sstate V) (L : list (state * tnet)) (k : nat) : Prop :=
    Wit st k \/ exists s tn k' plan, In (s, tn) L /\ k' <= k /\ solvesk P s tn k' plan.

  Record Ext (st : sstate V) (L : list (state * tnet)) (st' : sstate V) (L' : list (state * tnet)) : Prop := {
    ex_inv : GInv st' L';
    ex_heap : extends (s_world st) (s_world st');
    ex_fr : forall n, In n (s_fringe st) -> In n (s_fringe st');
    ex_L : forall p, In p L -> In p L';
    ex_new : forall s tn, In (s, tn) L' -> In (s, tn) L \/
               (subopt E = true /\ (Compl -> forall k plan, solvesk P s tn k plan -> Wit st' k)) }.

  Lemma Wit_mono st st' L k : GInv st L -> extends (s_world st) (s_world st') ->
    (forall n, In n (s_fringe st) -> In n (s_fringe st')) -> Wit st k -> Wit st' k.
  Proof.
    intros ((W & _) & _) (e & H) F (n & s & tn & pi & k' & plan & Hn & N & Hk & HS).
    exists n, s, tn, pi, k', plan. split; auto. split; [eapply NInv_ext; eauto|]. auto.
  Qed.
  Lemma Cov_mono st L st' L' k : GInv st L -> Ext st L st' L' -> Cov st L k -> Cov st' L' k.
  Proof.
    intros G X [Wt|(s & tn & k' & plan & Hin & Hk & HS)].
    - left. eapply Wit_mono; eauto; apply X.
    - right. exists s, tn, k', plan. split; auto. now apply X.
  Qed.
  Lemma Ext_refl st L : GInv st L -> Ext st L st L.
  Proof. intros G. split; auto using extends_refl. Qed.
  Lemma Ext_trans a La b Lb c Lc : Ext a La b Lb -> Ext b Lb c Lc -> Ext a La c Lc.
  Proof.
    intros X Y. split.
    - apply Y.
    - eapply extends_trans; [apply X|apply Y].
    - intros n Hn. apply Y, X, Hn.
    - intros p Hp. apply Y, X, Hp.
    - intros s tn H. destruct (ex_new _ _ _ _ Y s tn H) as [H1|H1]; [|auto].
      destruct (ex_new _ _ _ _ X s tn H1) as [H2|[H2 H3]]; [auto|]. right. split; auto.
      intros HC k plan HS. eapply Wit_mono; [apply X|apply Y|apply Y|eauto].
  Qed.

  (** The pop side: goal test false means that something remains to be done. *)
  Lemma not_goal_nonempty w n s tn pi k plan : NInv w n s tn pi -> isGoal P n = Some false ->
    solvesk P s tn k plan -> heads n <> [].
  Proof.
    intros (R & _) G HS. intros HE. apply app_eq_nil in HE as [NA NP].
    unfold isGoal in G. rewrite NA, NP in G.
    assert (EM : forall x, ~ t_in tn x).
    { intros x Hx. apply (r_in _ _ _ _ _ _ R) in Hx as (i & (r & Hr & _) & _). unfold heads in Hr. rewrite NA, NP in Hr. destruct Hr. }
    destruct (solvesk_empty P s tn k plan (wf_acyclic P WP) (r_wf _ _ _ _ _ _ R) (wf_nonempty P WP) EM HS) as [_ GS].
    assert (false = true); [|discriminate]. apply (all_true_spec _ _ _ G).
    intros f Hf. apply (r_state _ _ _ _ _ _ R). auto.
  Qed.

  Lemma Ext_same st L w v' rn : GInv st L -> extends (s_world st) w -> wf_heap P (w_heap w) -> VI v' L ->
    Ext st L {| s_world := w; s_fringe := s_fringe st; s_vis := v'; s_rnd := rn |} L.
  Proof.
    intros ((W & F) & HV & HL) X Ww HV'. split; simpl; auto.
    split; [|split; auto]. split; simpl; auto. intros n Hn. apply (FInv_ext (s_world st)); auto.
  Qed.

  (** Two representations of the same node are isomorphic. *)
  Lemma Rep_iso h n s tn pi s' tn' pi' : wf_heap P h -> Rep P h n s tn pi -> Rep P h n s' tn' pi' -> same_node s tn s' tn'.
  Proof.
    intros Wh R R'. split.
    - intros f. rewrite (r_state _ _ _ _ _ _ R), (r_state _ _ _ _ _ _ R'). tauto.
    - exists (fun x y => exists i, live h n i /\ x = pi i /\ y = pi' i). split.
      + intros x y (i & Hi & -> & ->). split; [apply (r_in _ _ _ _ _ _ R)|apply (r_in _ _ _ _ _ _ R')]; eauto.
      + intros x Hx. apply (r_in _ _ _ _ _ _ R) in Hx as (i & Hi & <-). eauto.
      + intros x Hx. apply (r_in _ _ _ _ _ _ R') in Hx as (i & Hi & <-). eauto.
      + intros x y y' (i & Hi & -> & ->) (j & Hj & E1 & ->). f_equal. apply (r_inj _ _ _ _ _ _ R); auto.
      + intros x x' y (i & Hi & -> & ->) (j & Hj & -> & E1). f_equal. apply (r_inj _ _ _ _ _ _ R'); auto.
      + intros x y (i & Hi & -> & ->).
        destruct (get_some h i) as (ps & G); [eapply live_lt; eauto; apply R|].
        now rewrite (r_lab _ _ _ _ _ _ R i ps), (r_lab _ _ _ _ _ _ R' i ps).
      + intros x y x' y' (i & Hi & -> & ->) (j & Hj & -> & ->).
        now rewrite (r_ord _ _ _ _ _ _ R), (r_ord _ _ _ _ _ _ R').
  Qed.

  Lemma treat_ok st L w n2 s tn pi r : J w n2 ->
    GInv st L -> extends (s_world st) w -> wf_heap P (w_heap w) -> NInv w n2 s tn pi ->
    treat_successor P E st w n2 = r ->
    match r with
    | GStop w' n' => w' = w /\ n' = n2 /\ isGoal P n2 = Some true
    | GCont st' => exists L', Ext st L st' L' /\ s_world st' = w /\
                    (Compl -> n_reach n2 = true -> forall k plan, solvesk P s tn k plan -> Cov st' L' k)
    | GCrash => True
    end.
  Proof.
    intros HJ ((Wst & Fst) & HV & HL) X W N H. unfold treat_successor in H.
    assert (FE : forall n, In n (s_fringe st) -> FInv w n) by (intros; apply (FInv_ext (s_world st)); auto).
    pose proof N as (R & _).
    destruct (n_reach n2) eqn:Rc.
    2:{ subst r. exists L. split; [|split; [auto|intros _; discriminate]].
        apply Ext_same; auto. split; [split; auto|split; auto]. }
    destruct (if subopt E then v_insert E w (s_vis st) n2 else (true, s_vis st)) as [ok v'] eqn:EV.
    assert (VC : (ok = true /\ exists L', VI v' L' /\ (forall p, In p L -> In p L') /\ (forall s tn, In (s, tn) L' -> wf_tn tn) /\
                    (forall p, In p L' -> In p L \/ (subopt E = true /\ p = (s, tn)))) \/
                 (ok = false /\ VI v' L /\ (Compl -> exists s2 tn2, In (s2, tn2) L /\ same_node s tn s2 tn2))).
    { destruct (subopt E).
      - destruct ok.
        + left. split; auto. exists ((s, tn) :: L). split; [eapply vis_new; eauto|]. split; [intros; simpl; auto|].
          split.
          * intros a b [[= <- <-]|Hab]; [apply (r_wf _ _ _ _ _ _ R)|eauto].
          * intros p [<-|Hp]; auto.
        + right. split; auto. eapply vis_old; eauto.
      - injection EV as <- <-. left. split; auto. exists L. split; [auto|]. split; [auto|]. split; eauto. }
    destruct VC as [(-> & L' & VI' & LL & LW & LN)|(-> & VI' & SM)].
    - destruct (h_dead E w n2) eqn:DD.
      + subst r. exists L'. assert (DE := fun HC => dead_ok' w n2 s tn pi HC HJ W R DD).
        split; [|split; [auto|]].
        * split; simpl; auto.
          -- split; [split; auto|]. auto.
          -- intros a b Hab. destruct (LN _ Hab) as [|[So [= -> ->]]]; auto. right. split; auto.
             intros HC k plan HS. exfalso. eapply DE; eauto.
        * intros HC _ k plan HS. exfalso. eapply DE; eauto.
      + destruct (if subopt E then isGoal P n2 else Some false) as [[|]|] eqn:GG.
        * destruct (subopt E); [|discriminate]. subst r. auto.
        * subst r. exists L'.
          assert (IN : forall n, In n (e_push E n2 (s_fringe st)) <-> n = n2 \/ In n (s_fringe st)).
          { intros n. rewrite (Permutation_in' eq_refl (push_perm n2 (s_fringe st))). simpl. intuition. }
          assert (WT : forall k plan, solvesk P s tn k plan ->
                    Wit {| s_world := w; s_fringe := e_push E n2 (s_fringe st); s_vis := v'; s_rnd := s_rnd st |} k).
          { intros k plan HS. exists n2, s, tn, pi, k, plan. simpl. rewrite IN. auto. }
          split; [|split; [auto|]].
          -- split; simpl; auto.
             ++ split; [split; [auto|]|auto]. simpl. intros n Hn. apply IN in Hn as [->|Hn]; auto.
                split; [eauto|]. intros So. rewrite So in GG. congruence.
             ++ intros n Hn. apply IN. auto.
             ++ intros a b Hab. destruct (LN _ Hab) as [|[So [= -> ->]]]; auto.
          -- intros _ _ k plan HS. left. eauto.
        * subst r. exact I.
    - subst r. exists L. split; [|split; [auto|]].
      + apply Ext_same; auto. split; [split; auto|split; auto].
      + intros HC _ k plan HS. destruct (SM HC) as (s2 & tn2 & Hin & SM2). right. exists s2, tn2, k, plan. split; auto. split; auto.
        eapply solvesk_iso; [apply wf_acyclic; auto| | |exact SM2|exact HS]; [apply (r_wf _ _ _ _ _ _ R)|eauto].
  Qed.

  Lemma NInv_succ w n s tn pi w' n' acts s' tn' pi' :
    NInv w n s tn pi -> Rep P (w_heap w') n' s' tn' pi' -> plan_of n' = plan_of n ++ acts ->
    n_cost n' = n_cost n + plan_cost P acts -> (sol_ok (n_sol n) -> sol_ok (n_sol n')) ->
    Snd P s tn acts s' tn' -> NInv w' n' s' tn' pi'.
  Proof.
    intros (R & SO & CO & SN) R' PL CO' SO' SN'. split; auto. split; auto. split.
    - rewrite CO', CO, PL, plan_cost_app. reflexivity.
    - rewrite PL. eapply Snd_trans; eauto.
  Qed.

  Lemma expand_actions_ok fuel n s tn pi l i st L r : n_abs n = [] -> HSt P C st n ->
    GInv st L -> NInv (s_world st) n s tn pi ->
    (forall j, get l j = get (n_prim n) (i + j)) ->
    expand_actions P C E fuel st n i l = r ->
    match r with
    | GStop w' n' => isGoal P n' = Some true /\ exists s' tn' pi', NInv w' n' s' tn' pi'
    | GCont st' => exists L', Ext st L st' L' /\
         (Compl -> forall x ps, In x l -> get (w_heap (s_world st)) x = Some ps -> applicable P s (ps_task ps) ->
            forall k plan, solvesk P (result P s (ps_task ps)) (minus tn (pi x)) k plan -> Cov st' L' k)
    | GCrash => True
    end.
  Proof.
    intros NAn. revert i st L r. induction l as [|x l IH]; intros i st L r HS0 G N HL H; simpl in H.
    - subst r. exists L. split; [now apply Ext_refl|]. intros HC x ps [].
    - destruct (tk <- task_of (w_heap (s_world st)) x;; isApplicable P (n_state n) tk) as [b|] eqn:EA; [|subst r; exact I].
      apply obind_some in EA as (tk & ET & EA). unfold task_of in ET. apply obind_some in ET as (ps & Gp & [= <-]).
      pose proof N as (R & _).
      pose proof (isApplicable_spec _ _ _ _ s EA (r_state _ _ _ _ _ _ R)) as AP.
      assert (HL' : forall j, get l j = get (n_prim n) (S i + j)).
      { intros j. replace (S i + j) with (i + S j) by lia. rewrite <- (HL (S j)). reflexivity. }
      destruct b.
      + destruct (apply P C fuel (s_world st) n i) as [(w1 & n2)|] eqn:EP; [|subst r; exact I].
        assert (Gx : get (n_prim n) i = Some x).
        { specialize (HL 0). rewrite Nat.add_0_r in HL. rewrite <- HL. reflexivity. }
        pose proof G as ((Wst & _) & _).
        destruct (proj1 (apply_ok P C WP HP fuel) (s_world st) n i w1 n2 s tn pi x ps Wst R Gx Gp (proj1 AP eq_refl) EP)
          as (s' & tn' & acts & Hh & R' & PL & CO & SO & SN & CM & _).
        assert (Min : minimal tn (pi x)).
        { apply (r_min _ _ _ _ _ _ R). unfold heads. apply in_or_app. right. eapply nth_error_In; exact Gx. }
        assert (Lab : t_lab tn (pi x) = ps_task ps).
        { eapply (r_lab _ _ _ _ _ _ R); eauto. apply live_head. unfold heads. apply in_or_app. right. eapply nth_error_In; exact Gx. }
        assert (Prm : primitive P (ps_task ps)).
        { eapply (r_prim _ _ _ _ _ _ R); eauto. eapply nth_error_In; exact Gx. }
        assert (N2 : NInv w1 n2 s' tn' pi).
        { eapply NInv_succ; eauto. intros k plan HS. destruct (SN _ _ HS) as (k' & HS').
          exists (S k'). rewrite <- Lab in *. simpl. apply solvesk_act; auto; [apply wf_acyclic; auto|apply (r_wf _ _ _ _ _ _ R)|now apply AP]. }
        assert (X1 : extends (s_world st) w1) by (exists []; now rewrite app_nil_r).
        assert (W1 : wf_heap P (w_heap w1)) by (now rewrite Hh).
        destruct HS0 as (lh & Hh0 & INh & Hnh).
        assert (HH : history P C w1 (n2 :: lh)).
        { eapply h_apply; eauto. unfold task_of. rewrite Gp. reflexivity. }
        pose proof (treat_ok st L w1 n2 s' tn' pi _ (J_hist _ _ _ HH (or_introl eq_refl)) G X1 W1 N2 eq_refl) as T.
        pose proof (treat_hist P C E push_perm st w1 n n2 (n2 :: lh) HH (fun q Hq => or_intror (INh q Hq)) (or_intror Hnh) (or_introl eq_refl)) as TH.
        destruct (treat_successor P E st w1 n2) as [wq nq|st1|] eqn:ETR; [|clear ETR|].
        * subst r. destruct T as (-> & -> & GL). split; auto. eauto.
        * destruct T as (L1 & EX1 & WS1 & CV1).
          assert (N' : NInv (s_world st1) n s tn pi).
          { destruct X1 as (e & X1). rewrite WS1. apply (NInv_ext (s_world st) w1 e); auto. }
          specialize (IH (S i) st1 L1 r TH (ex_inv _ _ _ _ EX1) N' HL' H).
          destruct r as [w' n'|st'|]; auto.
          destruct IH as (L' & EX2 & CV2). exists L'. split; [eapply Ext_trans; eauto|].
          intros HC y py Hy Gy Ay k plan HS. destruct Hy as [<-|Hy].
          -- rewrite Gp in Gy. injection Gy as <-.
             destruct (CM _ _ HS) as (Rc & k' & plan' & Lk & _ & HS').
             eapply Cov_mono; [apply EX1|exact EX2|].
             destruct (CV1 HC Rc _ _ HS') as [(q & sq & tq & pq & kq & plq & A1 & A2 & A3 & A4)|(sq & tq & kq & plq & A1 & A2 & A3)].
             ++ left. exists q, sq, tq, pq, kq, plq. split; [auto|]. split; [auto|]. split; [lia|auto].
             ++ right. exists sq, tq, kq, plq. split; [auto|]. split; [lia|auto].
          -- eapply CV2; eauto. rewrite WS1, Hh. exact Gy.
        * subst r. exact I.
      + specialize (IH (S i) st L r HS0 G N HL' H). destruct r as [w' n'|st'|]; auto.
        destruct IH as (L' & EX2 & CV2). exists L'. split; auto.
        intros HC y py [<-|Hy] Gy Ay; [|eauto]. exfalso. rewrite Gp in Gy. injection Gy as <-.
        apply AP in Ay. discriminate.
  Qed.

  Lemma expand_methods_ok fuel n s tn pi step x ps ms st L r : HSt P C st n -> incl ms (task_to_methods P (ps_task ps)) ->
    GInv st L -> NInv (s_world st) n s tn pi ->
    get (n_abs n) step = Some x -> get (w_heap (s_world st)) x = Some ps ->
    (forall mi, In mi ms -> exists m, nth_error (p_methods P) mi = Some m /\ ps_task ps = m_task m) ->
    expand_methods P C E fuel st n step ms = r ->
    match r with
    | GStop w' n' => isGoal P n' = Some true /\ exists s' tn' pi', NInv w' n' s' tn' pi'
    | GCont st' => exists L', Ext st L st' L' /\
         (Compl -> forall mi m, In mi ms -> nth_error (p_methods P) mi = Some m ->
            forall c, decomposes P tn (pi x) m c ->
            forall k plan, solvesk P s c k plan -> Cov st' L' k)
    | GCrash => True
    end.
  Proof.
    revert st L r. induction ms as [|mi ms IH]; intros st L r HS0 IM G N Gx Gp HM H; simpl in H.
    - subst r. exists L. split; [now apply Ext_refl|]. intros HC mi m [].
    - destruct (decompose P C fuel (s_world st) n step mi) as [(w1 & n2)|] eqn:EP; [|subst r; exact I].
      pose proof N as (R & _). pose proof G as ((Wst & _) & _).
      destruct (HM mi) as (m & Gm & Tm); [simpl; auto|].
      destruct (decompose_ok P C WP HP fuel (s_world st) n step mi w1 n2 s tn pi x ps m Wst R Gx Gp Gm Tm EP)
        as (e & pi' & s' & tn' & acts & Hh & W1 & R' & PL & CO & SO & SN & CM).
      assert (N2 : NInv w1 n2 s' tn' pi') by (eapply NInv_succ; eauto).
      assert (X1 : extends (s_world st) w1) by (exists e; exact Hh).
      destruct HS0 as (lh & Hh0 & INh & Hnh).
      assert (HH : history P C w1 (n2 :: lh)).
      { eapply h_decompose; eauto; [unfold task_of; rewrite Gp; reflexivity|apply IM; left; auto]. }
      pose proof (treat_ok st L w1 n2 s' tn' pi' _ (J_hist _ _ _ HH (or_introl eq_refl)) G X1 W1 N2 eq_refl) as T.
      pose proof (treat_hist P C E push_perm st w1 n n2 (n2 :: lh) HH (fun q Hq => or_intror (INh q Hq)) (or_intror Hnh) (or_introl eq_refl)) as TH.
      destruct (treat_successor P E st w1 n2) as [wq nq|st1|] eqn:ETR; [|clear ETR|].
      + subst r. destruct T as (-> & -> & GL). split; auto. eauto.
      + destruct T as (L1 & EX1 & WS1 & CV1).
        assert (N' : NInv (s_world st1) n s tn pi) by (rewrite WS1; apply (NInv_ext (s_world st) w1 e); auto).
        assert (Gp' : get (w_heap (s_world st1)) x = Some ps).
        { rewrite WS1, Hh. rewrite get_app_l; auto. eapply get_lt; eauto. }
        assert (HM' : forall mi, In mi ms -> exists m, nth_error (p_methods P) mi = Some m /\ ps_task ps = m_task m).
        { intros q Hq. apply HM. simpl; auto. }
        specialize (IH st1 L1 r TH (fun q Hq => IM q (or_intror Hq)) (ex_inv _ _ _ _ EX1) N' Gx Gp' HM' H).
        destruct r as [w' n'|st'|]; auto.
        destruct IH as (L' & EX2 & CV2). exists L'. split; [eapply Ext_trans; eauto|].
        intros HC mj mm [<-|Hm] Gmm c Dc k plan HS.
        * rewrite Gm in Gmm. injection Gmm as <-.
          destruct (CM c Dc _ _ HS) as (Rc & k' & plan' & Lk & _ & HS').
          eapply Cov_mono; [apply EX1|exact EX2|].
          destruct (CV1 HC Rc _ _ HS') as [(q & sq & tq & pq & kq & plq & A1 & A2 & A3 & A4)|(sq & tq & kq & plq & A1 & A2 & A3)].
          -- left. exists q, sq, tq, pq, kq, plq. split; [auto|]. split; [auto|]. split; [lia|auto].
          -- right. exists sq, tq, kq, plq. split; [auto|]. split; [lia|auto].
        * eapply CV2; eauto.
      + subst r. exact I.
  Qed.

  Lemma expand_ok fuel n s tn pi st L r : HSt P C st n ->
    GInv st L -> NInv (s_world st) n s tn pi ->
    expand P C E fuel st n = r ->
    match r with
    | GStop w' n' => isGoal P n' = Some true /\ exists s' tn' pi', NInv w' n' s' tn' pi'
    | GCont st' => exists L', Ext st L st' L' /\
         (Compl -> heads n <> [] -> forall k plan, solvesk P s tn k plan -> exists k', k = S k' /\ Cov st' L' k')
    | GCrash => True
    end.
  Proof.
    intros HS0 G N H. unfold expand in H. pose proof N as (R & _).
    destruct (n_abs n) as [|a0 ar] eqn:NA.
    - pose proof (expand_actions_ok fuel n s tn pi (n_prim n) 0 st L r NA HS0 G N (fun j => eq_refl) H) as A.
      destruct r as [w' n'|st'|]; auto. destruct A as (L' & EX & CV). exists L'. split; auto.
      intros HC NH k plan HS.
      assert (NT : exists x, t_in tn x).
      { destruct (heads n) as [|q hs] eqn:Eh; [congruence|]. exists (pi q). apply (r_min _ _ _ _ _ _ R). rewrite Eh; simpl; auto. }
      destruct (solvesk_act_complete P s tn k plan (wf_acyclic P WP) (wf_abstract P WP) (wf_nonempty P WP) (r_wf _ _ _ _ _ _ R) NT
                 (primitive_heads P n s tn pi _ R NA) HS)
          as (x & k' & plan' & Mx & Ax & -> & -> & HS').
      exists k'. split; auto.
      destruct (minimal_head _ _ _ _ _ _ _ R Mx) as (y & Hy & <-).
      destruct (get_some (w_heap (s_world st)) y) as (q & Gq); [now apply (r_lt _ _ _ _ _ _ R)|].
      assert (Lq : t_lab tn (pi y) = ps_task q) by (eapply (r_lab _ _ _ _ _ _ R); eauto; now apply live_head).
      rewrite Lq in *. eapply CV; eauto. unfold heads in Hy. rewrite NA in Hy. exact Hy.
    - set (step := Nat.modulo (rnd E (s_rnd st)) (length (a0 :: ar))) in *.
      destruct (x <- get (a0 :: ar) step;; task_of (w_heap (s_world st)) x) as [tk|] eqn:ET; [|subst r; exact I].
      apply obind_some in ET as (x & Gx & ET). unfold task_of in ET. apply obind_some in ET as (ps & Gp & [= <-]).
      rewrite <- NA in Gx.
      set (st1 := {| s_world := s_world st; s_fringe := s_fringe st; s_vis := s_vis st; s_rnd := S (s_rnd st) |}) in *.
      assert (G1 : GInv st1 L) by exact G.
      assert (HM : forall mi, In mi (task_to_methods P (ps_task ps)) -> exists m, nth_error (p_methods P) mi = Some m /\ ps_task ps = m_task m).
      { intros mi Hm. unfold task_to_methods in Hm. apply filter_In in Hm as [_ Hm].
        destruct (nth_error (p_methods P) mi) as [m|]; [|discriminate]. apply Nat.eqb_eq in Hm. eauto. }
      pose proof (expand_methods_ok fuel n s tn pi step x ps _ st1 L r HS0 (incl_refl _) G1 N Gx Gp HM H) as A.
      destruct r as [w' n'|st'|]; auto. destruct A as (L' & EX & CV). exists L'. split.
      { split; try apply EX. }
      intros HC NH k plan HS.
      assert (Hx : In x (n_abs n)) by (eapply nth_error_In; exact Gx).
      assert (Hxh : In x (heads n)) by (unfold heads; apply in_or_app; auto).
      assert (Lab : t_lab tn (pi x) = ps_task ps) by (eapply (r_lab _ _ _ _ _ _ R); eauto; now apply live_head).
      assert (NP : ~ primitive P (t_lab tn (pi x))).
      { rewrite Lab. unfold primitive. rewrite (r_abs _ _ _ _ _ _ R x ps Hx Gp). discriminate. }
      destruct (solvesk_dec_complete P s tn (pi x) k plan (wf_acyclic P WP) (r_wf _ _ _ _ _ _ R)) as (m & c & k' & -> & D & HS'); auto.
      { apply (r_min _ _ _ _ _ _ R). auto. }
      exists k'. split; auto.
      destruct (In_nth_error _ _ (d_method _ _ _ _ _ D)) as (mi & Gm).
      eapply CV; eauto. unfold task_to_methods. apply filter_In. split.
      + apply in_seq. split; [lia|]. simpl. apply nth_error_Some. congruence.
      + rewrite Gm. apply Nat.eqb_eq. rewrite <- Lab. symmetry. apply D.
  Qed.

  (** ** The main loop *)
  Definition Loop (st : sstate V) (L : list (state * tnet)) : Prop :=
    GInv st L /\ (exists l, history P C (s_world st) l /\ incl (s_fringe st) l) /\
    (Compl -> forall s tn k plan, In (s, tn) L -> solvesk P s tn k plan ->
       Wit st k /\ (subopt E = false -> exists k', k = S k' /\ Wit st k')) /\
    (Compl -> forall k plan, solvesk P s0 tn0 k plan -> Wit st k).

  Lemma Wit_le st k k' : k <= k' -> Wit st k -> Wit st k'.
  Proof.
    intros L0 (q & sq & tq & pq & kq & plq & A1 & A2 & A3 & A4).
    exists q, sq, tq, pq, kq, plq. split; [auto|]. split; [auto|]. split; [lia|auto].
  Qed.

  Lemma isGoal_total w n s tn pi : NInv w n s tn pi -> exists b, isGoal P n = Some b.
  Proof.
    intros (R & _). unfold isGoal. destruct (n_abs n); [|eauto]. destruct (n_prim n); [|eauto].
    apply all_true_total. rewrite (r_len _ _ _ _ _ _ R). apply (wf_goal _ WP).
  Qed.

  Lemma loop_ok afuel fuel st L r :
    Loop st L -> search_loop P C E afuel fuel st = r ->
    match r with
    | Solved w n => solution P (printed_plan n) /\ n_cost n = plan_cost P (printed_plan n)
    | Unsolvable => Compl -> forall k plan, ~ solvesk P s0 tn0 k plan
    | _ => True
    end.
  Proof.
    revert st L r. induction fuel as [|fuel IH]; intros st L r (G & (lh & HHl & INl) & HW & HI) H; simpl in H.
    - destruct (e_pop E (s_fringe st)) as [(n & fr)|] eqn:EP; [subst r; exact I|].
      subst r. intros HC k plan HS. destruct (HI HC _ _ HS) as (n & ? & ? & ? & ? & ? & Hn & _).
      rewrite (pop_none _ EP) in Hn. destruct Hn.
    - destruct (e_pop E (s_fringe st)) as [(n & fr)|] eqn:EP.
      2:{ subst r. intros HC k plan HS. destruct (HI HC _ _ HS) as (n & ? & ? & ? & ? & ? & Hn & _).
          rewrite (pop_none _ EP) in Hn. destruct Hn. }
      pose proof (pop_some _ _ _ EP) as PM.
      assert (IN : forall q, In q (s_fringe st) <-> q = n \/ In q fr).
      { intros q. rewrite (Permutation_in' eq_refl PM). simpl. intuition. }
      destruct G as ((W & F) & HV & HL).
      destruct (F n) as ((s & tn & pi & N) & NG); [apply IN; auto|].
      pose proof N as (R & _).
      destruct (if subopt E then (true, s_vis st) else v_insert E (s_world st) (s_vis st) n) as [ok v'] eqn:EV.
      set (st1 := {| s_world := s_world st; s_fringe := fr; s_vis := v'; s_rnd := s_rnd st |}) in *.
      assert (SK : forall s2 tn2, same_node s tn s2 tn2 -> wf_tn tn2 -> forall k plan, solvesk P s tn k plan -> solvesk P s2 tn2 k plan).
      { intros s2 tn2 SM W2 k plan HS. eapply solvesk_iso; [apply wf_acyclic; auto| | |exact SM|exact HS]; [apply (r_wf _ _ _ _ _ _ R)|auto]. }
      (* witnesses survive unless they are [n] *)
      assert (WN : forall k, Wit st k -> Wit st1 k \/ exists k' plan, k' <= k /\ solvesk P s tn k' plan).
      { intros k (q & sq & tq & pq & kq & plq & A1 & A2 & A3 & A4). apply IN in A1 as [->|A1].
        - right. exists kq, plq. split; auto.
          destruct A2 as (Rq & _). eapply solvesk_iso; [apply wf_acyclic; auto| | | |exact A4].
          + apply (r_wf _ _ _ _ _ _ Rq).
          + apply (r_wf _ _ _ _ _ _ R).
          + apply (Rep_iso (w_heap (s_world st)) n sq tq pq s tn pi); auto.
        - left. exists q, sq, tq, pq, kq, plq. auto. }
      assert (F1 : SInv st1).
      { split; simpl; auto. intros q Hq. apply F, IN. auto. }
      assert (HFr : incl fr lh) by (intros q Hq; apply INl, IN; auto).
      assert (Hnl : In n lh) by (apply INl, IN; auto).
      assert (HS1 : HSt P C st1 n) by (exists lh; auto).
      pose proof (expand_hist P C E push_perm afuel n st1 HS1) as XH.
      assert (HS2 : forall st2 : sstate V, HSt P C st2 n -> exists l, history P C (s_world st2) l /\ incl (s_fringe st2) l).
      { intros st2 (l2 & A & B & _). eauto. }
      assert (NE : isGoal P n <> Some true -> forall k plan, solvesk P s tn k plan -> heads n <> []).
      { intros Gn k plan HS. destruct (isGoal_total _ _ _ _ _ N) as ([|] & Gb); [congruence|].
        eapply not_goal_nonempty; eauto. }
      destruct (subopt E) eqn:So.
      + (* insertion at generation *)
        injection EV as <- <-.
        assert (G1 : GInv st1 L) by (split; [auto|split; auto]).
        pose proof (expand_ok afuel n s tn pi st1 L _ HS1 G1 N eq_refl) as X.
        destruct (expand P C E afuel st1 n) as [w' n'|st2|] eqn:EX; [|clear EX|subst r; exact I].
        * subst r. destruct X as (Gg & s' & tn' & pi' & N'). eapply goal_solution; eauto.
        * destruct X as (L2 & X & CV).
          assert (HA : Compl -> forall k s' tn' plan, In (s', tn') L2 -> solvesk P s' tn' k plan -> Wit st2 k).
          { intros HC. induction k as [k IK] using lt_wf_ind. intros s' tn' plan Hin HS.
            destruct (ex_new _ _ _ _ X s' tn' Hin) as [Hold|[_ Hnew]]; [|eauto].
            destruct (HW HC _ _ _ _ Hold HS) as [Wt _]. destruct (WN _ Wt) as [Wt1|(k' & plan' & Lk & HS')].
            - eapply Wit_mono; [exact G1|apply X|apply X|exact Wt1].
            - destruct (CV HC (NE (NG So) _ _ HS') _ _ HS') as (j & -> & [Wt2|(sq & tq & kq & plq & A1 & A2 & A3)]).
              + eapply Wit_le; [|exact Wt2]. lia.
              + eapply Wit_le; [|eapply (IK kq); [|exact A1|exact A3]]; lia. }
          apply (IH st2 L2); auto. split; [apply X|]. split; [auto|]. split.
          -- intros HC s' tn' k plan Hin HS. split; [eauto|congruence].
          -- intros HC k plan HS. destruct (WN _ (HI HC _ _ HS)) as [Wt1|(k' & plan' & Lk & HS')].
             ++ eapply Wit_mono; [exact G1|apply X|apply X|exact Wt1].
             ++ destruct (CV HC (NE (NG So) _ _ HS') _ _ HS') as (j & -> & [Wt2|(sq & tq & kq & plq & A1 & A2 & A3)]).
                ** eapply Wit_le; [|exact Wt2]. lia.
                ** eapply Wit_le; [|eapply (HA HC kq); [exact A1|exact A3]]. lia.
      + destruct ok.
        * (* new node *)
          pose proof (vis_new _ _ _ _ _ _ _ _ (J_hist _ _ _ HHl Hnl) W R HV EV) as HV1.
          set (L1 := (s, tn) :: L) in *.
          assert (G1 : GInv st1 L1).
          { split; [auto|split; [auto|]]. intros a b [[= <- <-]|Hab]; [apply (r_wf _ _ _ _ _ _ R)|eauto]. }
          destruct (isGoal P n) as [[|]|] eqn:Gn; [| |subst r; exact I].
          { subst r. eapply goal_solution; eauto. }
          pose proof (expand_ok afuel n s tn pi st1 L1 _ HS1 G1 N eq_refl) as X.
          destruct (expand P C E afuel st1 n) as [w' n'|st2|] eqn:EX; [|clear EX|subst r; exact I].
          { subst r. destruct X as (Gg & s' & tn' & pi' & N'). eapply goal_solution; eauto. }
          destruct X as (L2 & X & CV).
          assert (NE' := NE ltac:(discriminate)).
          assert (HA : Compl -> forall k s' tn' plan, In (s', tn') L2 -> solvesk P s' tn' k plan -> exists k', k = S k' /\ Wit st2 k').
          { intros HC. induction k as [k IK] using lt_wf_ind. intros s' tn' plan Hin HS.
            destruct (ex_new _ _ _ _ X s' tn' Hin) as [[[= <- <-]|Hold]|[So' _]]; [| |congruence].
            - destruct (CV HC (NE' _ _ HS) _ _ HS) as (j & -> & [Wt2|(sq & tq & kq & plq & A1 & A2 & A3)]).
              + eauto.
              + exists j. split; auto. destruct (IK kq) with (3 := A3) as (i & -> & Wi); [lia|auto|].
                eapply Wit_le; [|exact Wi]. lia.
            - destruct (HW HC _ _ _ _ Hold HS) as [_ WS]. destruct (WS eq_refl) as (k' & -> & Wt).
              exists k'. split; auto. destruct (WN _ Wt) as [Wt1|(kk & plan' & Lk & HS')].
              + eapply Wit_mono; [exact G1|apply X|apply X|exact Wt1].
              + destruct (IK kk) with (3 := HS') as (i & -> & Wi); [lia| |].
                * apply X. left. reflexivity.
                * eapply Wit_le; [|exact Wi]. lia. }
          apply (IH st2 L2); auto. split; [apply X|]. split; [auto|]. split.
          -- intros HC s' tn' k plan Hin HS. destruct (HA HC _ _ _ _ Hin HS) as (k' & -> & Wk). split; [|eauto].
             eapply Wit_le; [|exact Wk]. lia.
          -- intros HC k plan HS. destruct (WN _ (HI HC _ _ HS)) as [Wt1|(k' & plan' & Lk & HS')].
             ++ eapply Wit_mono; [exact G1|apply X|apply X|exact Wt1].
             ++ destruct (HA HC k' s tn plan') as (j & -> & Wj); auto.
                { apply X. left. reflexivity. }
                eapply Wit_le; [|exact Wj]. lia.
        * (* already visited *)
          destruct (vis_old _ _ _ _ _ _ _ _ (J_hist _ _ _ HHl Hnl) W R HV EV) as (HV1 & SMC).
          assert (HA : Compl -> forall k s' tn' plan, In (s', tn') L -> solvesk P s' tn' k plan -> exists k', k = S k' /\ Wit st1 k').
          { intros HC. destruct (SMC HC) as (s2 & tn2 & Hin2 & SM). pose proof (SK s2 tn2 SM (HL _ _ Hin2)) as SK2. induction k as [k IK] using lt_wf_ind. intros s' tn' plan Hin HS.
            destruct (HW HC _ _ _ _ Hin HS) as [_ WS]. destruct (WS eq_refl) as (k' & -> & Wt).
            exists k'. split; auto. destruct (WN _ Wt) as [Wt1|(kk & plan' & Lk & HS')]; auto.
            destruct (IK kk) with (3 := SK2 _ _ HS') as (i & -> & Wi); [lia|auto|].
            eapply Wit_le; [|exact Wi]. lia. }
          apply (IH st1 L); auto. split; [split; [auto|split; auto]|]. split; [exists lh; auto|]. split.
          -- intros HC s' tn' k plan Hin HS. destruct (HA HC _ _ _ _ Hin HS) as (k' & -> & Wk). split; [|eauto].
             eapply Wit_le; [|exact Wk]. lia.
          -- intros HC k plan HS. destruct (WN _ (HI HC _ _ HS)) as [Wt1|(k' & plan' & Lk & HS')]; auto.
             destruct (SMC HC) as (s2 & tn2 & Hin2 & SM). pose proof (SK s2 tn2 SM (HL _ _ Hin2)) as SK2.
             destruct (HA HC k' s2 tn2 plan') as (j & -> & Wj); auto.
             eapply Wit_le; [|exact Wj]. lia.
  Qed.

  (** ** Whole searches *)
  Lemma init_rep w n : init_node P = Some (w, n) ->
    wf_heap P (w_heap w) /\ NInv w n s0 tn0 (fun _ => []) /\ n_abs n = [0].
  Proof.
    unfold init_node. intros H. apply obind_some in H as (st & E1 & H). injection H as <- <-.
    destruct (write_all_spec _ _ _ _ E1) as (LN & GT). rewrite repeat_length in LN. simpl.
    set (h := [{| ps_task := p_init P; ps_succ := []; ps_parent := 0; ps_pos := 0 |}]) in *.
    assert (NoE : forall i j, ~ edge h i j).
    { intros i j (ps & Gp & Hj). destruct i as [|[|i]]; simpl in Gp; try discriminate. injection Gp as <-. destruct Hj. }
    assert (NoT : forall i j, ~ tc h i j) by (intros i j H; induction H; [eapply NoE; eauto|auto]).
    assert (Wh : wf_heap P h).
    { split.
      - intros i j He. destruct (NoE _ _ He).
      - intros i ps Gp. destruct i as [|[|i]]; simpl in Gp; try discriminate. injection Gp as <-. simpl.
        apply nth_error_Some. rewrite (wf_init _ WP). discriminate. }
    assert (LV : forall n i, n_abs n = [0] -> n_prim n = [] -> (live h n i <-> i = 0)).
    { intros n i HA HPr. unfold live, heads. rewrite HA, HPr. simpl. split.
      - intros (r & [<-|[]] & HR). apply rtc_cases in HR as [->|HT]; auto. destruct (NoT _ _ HT).
      - intros ->. exists 0. split; auto. apply rt_refl. }
    split; [auto|split; [|auto]]. split; [|split; [left; auto|split; [reflexivity|]]].
    - split; simpl; auto.
      + intros f. unfold s0, initial_state. rewrite GT. destruct (memb f (p_s0 P)) eqn:M.
        * apply memb_In in M. tauto.
        * apply memb_false in M. split; [tauto|]. intros Hg. unfold get in Hg. apply nth_error_In in Hg. apply repeat_spec in Hg. discriminate.
      + intros i [<-|[]]. simpl. lia.
      + intros x. split.
        * intros ->. exists 0. split; auto. apply LV; auto.
        * intros (i & _ & <-). auto.
      + intros i j Hi Hj _. apply LV in Hi; auto. apply LV in Hj; auto. congruence.
      + intros i ps Hi Gp. apply LV in Hi; auto. subst i. simpl in Gp. injection Gp as <-. reflexivity.
      + intros i j _ _. split; [tauto|]. apply NoT.
      + repeat constructor. auto.
      + intros i _. split; simpl; auto.
      + intros i ps [<-|[]] Gp. simpl in Gp. injection Gp as <-. apply (wf_init _ WP).
      + intros i ps [].
      + split; simpl; intros; try tauto. congruence.
    - unfold plan_of. simpl. apply Snd_refl.
  Qed.

  Lemma search_ok v0 afuel fuel : VI v0 [] ->
    match search P C E v0 afuel fuel with
    | Solved w n => solution P (printed_plan n) /\ n_cost n = plan_cost P (printed_plan n)
    | Unsolvable => Compl -> forall plan, ~ solution P plan
    | _ => True
    end.
  Proof.
    intros V0. unfold search. destruct (init_node P) as [(w & n)|] eqn:EI; [|exact I].
    destruct (init_rep w n EI) as (Wh & N & NA).
    set (st := {| s_world := w; s_fringe := e_push E n []; s_vis := v0; s_rnd := 0 |}).
    assert (IN : forall q, In q (e_push E n []) <-> q = n).
    { intros q. rewrite (Permutation_in' eq_refl (push_perm n [])). simpl. intuition. }
    assert (LP : Loop st []).
    { split; [split; [split; [auto|]|split; [auto|intros ? ? []]]|split; [exists [n]; split; [now apply h_init|intros q Hq; left; apply IN in Hq; auto]|split; [intros ? ? ? ? ? []|]]].
      - simpl. intros q Hq. apply IN in Hq. subst q. split; [eauto|].
        intros _. unfold isGoal. rewrite NA. discriminate.
      - intros HC k plan HS. exists n, s0, tn0, (fun _ => []), k, plan. simpl. rewrite IN. auto. }
    pose proof (loop_ok afuel fuel st [] _ LP eq_refl) as H.
    destruct (search_loop P C E afuel fuel st); auto.
    intros HC plan HS. apply solves_solvesk in HS; [|auto using wf_acyclic|apply N].
    destruct HS as (k & HS). eapply H; eauto.
  Qed.
End Search.

(** Soundness needs no assumption on the visited list and on the heuristic. *)
Lemma search_ok_sound {V} P C (E : search_env V) : wf_problem P -> (forall l, Permutation l (c_perm C l)) ->
  (forall fr n fr', e_pop E fr = Some (n, fr') -> Permutation fr (n :: fr')) ->
  (forall fr, e_pop E fr = None -> fr = []) -> (forall n fr, Permutation (e_push E n fr) (n :: fr)) ->
  forall v0 afuel fuel w n, search P C E v0 afuel fuel = Solved w n ->
  solution P (printed_plan n) /\ n_cost n = plan_cost P (printed_plan n).
Proof.
  intros WP HP F1 F2 F3 v0 afuel fuel w n H.
  pose proof (search_ok P C E WP HP F1 F2 F3 False (fun _ _ => True)) as Q.
  specialize (Q (fun _ _ _ _ _ => I) (fun _ _ => True) ltac:(intros; exact I) ltac:(intros; split; [auto|intros []]) ltac:(intros []) v0 afuel fuel I). rewrite H in Q. exact Q.
Qed.
