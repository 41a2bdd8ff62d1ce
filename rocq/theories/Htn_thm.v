(** Theorems about progression search (properties C01-C07, C10, C11, C52). Proofs are in Htn_sem, Htn_rep, Htn_proof,
    Htn_search, Htn_hist and Htn_total. *)
From Verif Require Import Base Htn_model Htn_spec Htn_sem Htn_iso Htn_rep Htn_proof Htn_history Htn_search Htn_hist Htn_total.

(** ** Contracts of the components *)

(** The fringe is a bag: popping returns some element, and fails only on the empty fringe. *)
Definition fringe_ok {V} (E : search_env V) : Prop :=
  (forall fr n fr', e_pop E fr = Some (n, fr') -> Permutation fr (n :: fr')) /\
  (forall fr, e_pop E fr = None -> fr = []) /\
  (forall n fr, Permutation (e_push E n fr) (n :: fr)).

(** The iteration order of a std::set of pointers is some permutation. *)
Definition config_ok (C : config) : Prop := forall l, Permutation l (c_perm C l).

(** The visited list only rejects nodes that are equal, up to renaming of tasks, to a node inserted before.
    [I v L] reads "exactly the nodes [L] have been accepted by [v]". Only nodes that the search can create matter. *)
Definition visited_ok {V} (P : problem) (C : config) (E : search_env V) (v0 : V) : Prop :=
  exists I : V -> list (state * tnet) -> Prop, I v0 [] /\
  (forall w l v n s tn pi L v', history P C w l -> In n l -> wf_heap P (w_heap w) -> Rep P (w_heap w) n s tn pi -> I v L ->
     v_insert E w v n = (true, v') -> I v' ((s, tn) :: L)) /\
  (forall w l v n s tn pi L v', history P C w l -> In n l -> wf_heap P (w_heap w) -> Rep P (w_heap w) n s tn pi -> I v L ->
     v_insert E w v n = (false, v') -> I v' L /\ exists s2 tn2, In (s2, tn2) L /\ same_node s tn s2 tn2).

(** The heuristic calls a node that the search can create a dead end only if no plan solves it. *)
Definition dead_ends_ok {V} (P : problem) (C : config) (E : search_env V) : Prop :=
  forall w l n s tn pi, history P C w l -> In n l -> wf_heap P (w_heap w) -> Rep P (w_heap w) n s tn pi ->
    h_dead E w n = true -> forall plan, ~ solves P s tn plan.

(** ** C01, C02, C07: search *)

Theorem search_sound : forall V (P : problem) (C : config) (E : search_env V) v0 afuel fuel w n,
  wf_problem P -> config_ok C -> fringe_ok E ->
  search P C E v0 afuel fuel = Solved w n -> solution P (printed_plan n).
Proof.
  intros V P C E v0 afuel fuel w n WP HC (F1 & F2 & F3) H.
  apply (search_ok_sound P C E WP HC F1 F2 F3 v0 afuel fuel w n H).
Qed.

Theorem search_cost : forall V (P : problem) (C : config) (E : search_env V) v0 afuel fuel w n,
  wf_problem P -> config_ok C -> fringe_ok E ->
  search P C E v0 afuel fuel = Solved w n -> n_cost n = plan_cost P (printed_plan n).
Proof.
  intros V P C E v0 afuel fuel w n WP HC (F1 & F2 & F3) H.
  apply (search_ok_sound P C E WP HC F1 F2 F3 v0 afuel fuel w n H).
Qed.

Theorem search_unsolvable : forall V (P : problem) (C : config) (E : search_env V) v0 afuel fuel,
  wf_problem P -> config_ok C -> fringe_ok E -> visited_ok P C E v0 -> dead_ends_ok P C E ->
  search P C E v0 afuel fuel = Unsolvable -> forall plan, ~ solution P plan.
Proof.
  intros V P C E v0 afuel fuel WP HC (F1 & F2 & F3) (VI & V0 & V1 & V2) DE H.
  pose proof (search_ok P C E WP HC F1 F2 F3 True (fun w n => exists l, history P C w l /\ In n l)
    (fun w l n h i => ex_intro _ l (conj h i)) VI) as Q.
  specialize (Q ltac:(intros ? ? ? ? ? ? ? ? (? & ? & ?); eauto) ltac:(intros ? ? ? ? ? ? ? ? (? & ? & ?) ? ? ? X; destruct (V2 _ _ _ _ _ _ _ _ _ H0 H1 H2 H3 H4 X); auto)
    ltac:(intros _ ? ? ? ? ? (? & ? & ?); eauto) v0 afuel fuel V0).
  rewrite H in Q. auto.
Qed.

(** ** C52: no undefined behaviour *)
Theorem search_no_crash : forall V (P : problem) (C : config) (E : search_env V) v0 fuel,
  wf_problem P -> config_ok C -> fringe_ok E ->
  exists F r, r <> Crash /\ forall afuel, F <= afuel -> search P C E v0 afuel fuel = r.
Proof.
  intros V P C E v0 fuel WP HC (F1 & F2 & F3).
  destruct (search_total P C E WP HC F1 F3 v0 fuel) as (F & r & H & N). eauto.
Qed.

(** ** C03, C04: states *)
Theorem apply_effects_exact : forall P a s s',
  apply_effects P a s = Some s' ->
  length s' = length s /\
  forall f, get s' f = Some true <-> adds P a f \/ (get s f = Some true /\ ~ dels P a f).
Proof.
  intros P a s s' H. destruct (apply_effects_spec P a s s' (fun f => get s f = Some true) H) as [L G]; [tauto|].
  split; auto. intros f. rewrite <- G. reflexivity.
Qed.

Theorem apply_effects_defined : forall P a s,
  wf_problem P -> length s = p_nfacts P -> primitive P a -> exists s', apply_effects P a s = Some s'.
Proof. intros P a s WP L Pa. now apply apply_effects_total. Qed.

Theorem isApplicable_exact : forall P s a b,
  isApplicable P s a = Some b -> (b = true <-> forall f, precs P a f -> get s f = Some true).
Proof.
  intros P s a b H. exact (isApplicable_spec P s a b (fun f => get s f = Some true) H (fun f => iff_refl _)).
Qed.

Theorem isApplicable_defined : forall P a s,
  wf_problem P -> length s = p_nfacts P -> primitive P a -> exists b, isApplicable P s a = Some b.
Proof. intros P a s WP L Pa. now apply isApplicable_total. Qed.

Theorem isGoal_exact : forall P n b,
  isGoal P n = Some b ->
  (b = true <-> n_abs n = [] /\ n_prim n = [] /\ forall f, In f (p_goal P) -> get (n_state n) f = Some true).
Proof.
  intros P n b H. unfold isGoal in H.
  destruct (n_abs n); [|injection H as <-; split; [discriminate|intros (F & _); discriminate]].
  destruct (n_prim n); [|injection H as <-; split; [discriminate|intros (_ & F & _); discriminate]].
  rewrite (all_true_spec _ _ _ H). tauto.
Qed.

(** The goal test holds exactly for represented nodes with an empty network and a goal state. *)
Theorem isGoal_rep : forall P h n s tn pi,
  wf_problem P -> Rep P h n s tn pi ->
  exists b, isGoal P n = Some b /\ (b = true <-> (forall x, ~ t_in tn x) /\ goal_state P s).
Proof.
  intros P h n s tn pi WP R.
  assert (T : exists b, isGoal P n = Some b).
  { unfold isGoal. destruct (n_abs n); [|eauto]. destruct (n_prim n); [|eauto].
    apply all_true_total. rewrite (r_len _ _ _ _ _ _ R). apply (wf_goal _ WP). }
  destruct T as (b & E). exists b. split; auto. rewrite (isGoal_exact _ _ _ E). unfold goal_state. split.
  - intros (A & B & G). split.
    + intros x Hx. apply (r_in _ _ _ _ _ _ R) in Hx as (i & (r & Hr & _) & _). unfold heads in Hr. rewrite A, B in Hr. destruct Hr.
    + intros f Hf. apply (r_state _ _ _ _ _ _ R). auto.
  - intros (A & G).
    assert (HE : heads n = []).
    { destruct (heads n) as [|r l] eqn:Eh; auto. exfalso. apply (A (pi r)). apply (r_min _ _ _ _ _ _ R). rewrite Eh. simpl; auto. }
    apply app_eq_nil in HE as [NA NP]. split; auto. split; auto. intros f Hf. apply (r_state _ _ _ _ _ _ R). auto.
Qed.

(** ** C05, C06: task networks of the successors *)

(** In every history every node represents a state and a task network; its ready tasks are exactly the minimal ones,
    split into primitive and abstract ones, none listed twice. *)
Theorem history_represents : forall P C w l n,
  wf_problem P -> config_ok C -> history P C w l -> In n l ->
  exists s tn pi, Rep P (w_heap w) n s tn pi /\ NoDup (n_abs n ++ n_prim n) /\
    (forall x, minimal tn x <-> exists i, In i (n_abs n ++ n_prim n) /\ pi i = x) /\
    (forall i, In i (n_prim n) -> primitive P (t_lab tn (pi i))) /\
    (forall i, In i (n_abs n) -> ~ primitive P (t_lab tn (pi i))) /\
    n_cost n = plan_cost P (printed_plan n) /\
    (forall plan, solves P s tn plan -> solution P (printed_plan n ++ plan)).
Proof.
  intros P C w l n WP HC H Hn. destruct (history_node P C WP HC w l n H Hn) as (s & tn & pi & R & CO & SO).
  exists s, tn, pi. split; [exact R|]. split; [apply R|]. split; [now apply (Rep_ready _ _ _ _ _ _ R)|].
  assert (G : forall i, In i (heads n) -> exists ps, get (w_heap w) i = Some ps /\ t_lab tn (pi i) = ps_task ps).
  { intros i Hi. destruct (get_some (w_heap w) i) as (ps & G); [now apply (r_lt _ _ _ _ _ _ R)|].
    exists ps. split; auto. eapply (r_lab _ _ _ _ _ _ R); eauto. now apply live_head. }
  split; [|split; [|split; [exact CO|exact SO]]].
  - intros i Hi. destruct (G i) as (ps & Gp & ->); [apply in_or_app; auto|]. eapply (r_prim _ _ _ _ _ _ R); eauto.
  - intros i Hi. destruct (G i) as (ps & Gp & ->); [apply in_or_app; auto|]. unfold primitive.
    rewrite (r_abs _ _ _ _ _ _ R _ _ Hi Gp). discriminate.
Qed.

Theorem decompose_replaces_task : forall P C w n taskNo mi w' n' s tn pi,
  wf_problem P -> wf_heap P (w_heap w) -> Rep P (w_heap w) n s tn pi ->
  (forall i ps m, get (n_abs n) taskNo = Some i -> get (w_heap w) i = Some ps -> nth_error (p_methods P) mi = Some m ->
     ps_task ps = m_task m) ->
  decompose1 P (c_eff C) w n taskNo mi = Some (w', n') ->
  exists i m pi' tn', get (n_abs n) taskNo = Some i /\ nth_error (p_methods P) mi = Some m /\
    decomposes P tn (pi i) m tn' /\ Rep P (w_heap w') n' s tn' pi' /\ n_state n' = n_state n.
Proof.
  intros P C w n taskNo mi w' n' s tn pi WP W R HM H.
  destruct (decompose1_rep P C w n taskNo mi w' n' s tn pi (wf_methods _ WP) W R H HM) as
    (i & ps & m & pi' & e & Gi & _ & Gm & _ & _ & _ & D & R').
  exists i, m, pi', (decF tn (pi i) m). split; auto. split; auto. split; auto. split; auto.
  unfold decompose1 in H. inv_opt. destruct (forallb _ _); [|discriminate]. inv_opt. destruct x2. inv_opt. subst. reflexivity.
Qed.

Theorem apply_removes_task : forall P C fuel w n taskNo w' n' s tn pi,
  config_ok C -> wf_heap P (w_heap w) -> Rep P (w_heap w) n s tn pi ->
  apply1 P (c_perm C) (c_eff C) fuel w n taskNo = Some (w', n') ->
  exists i, get (n_prim n) taskNo = Some i /\ minimal tn (pi i) /\
    Rep P (w_heap w') n' (result P s (t_lab tn (pi i))) (minus tn (pi i)) pi.
Proof.
  intros P C fuel w n taskNo w' n' s tn pi HC W R H.
  destruct (apply1_rep P C fuel w n taskNo w' n' s tn pi HC W R H) as (i & ps & Gi & _ & Lab & M & _ & _ & R').
  exists i. rewrite Lab. auto.
Qed.

(** ** C10, C11: branching *)
Theorem one_task_branching : forall P s tn x plan,
  wf_problem P -> wf_tn tn -> minimal tn x -> ~ primitive P (t_lab tn x) ->
  (solves P s tn plan <-> exists m tn', decomposes P tn x m tn' /\ solves P s tn' plan).
Proof. exact decompose_choice. Qed.

Theorem ready_action_branching : forall P s tn plan,
  wf_problem P -> wf_tn tn -> (forall x, minimal tn x -> primitive P (t_lab tn x)) -> (exists x, t_in tn x) ->
  (solves P s tn plan <-> exists x plan', minimal tn x /\ applicable P s (t_lab tn x) /\ plan = t_lab tn x :: plan' /\
                            solves P (result P s (t_lab tn x)) (minus tn x) plan').
Proof. exact action_choice. Qed.

Theorem effectless_progression_safe : forall P s tn x,
  wf_problem P -> wf_tn tn -> minimal tn x -> primitive P (t_lab tn x) ->
  applicable P s (t_lab tn x) -> (forall f, ~ adds P (t_lab tn x) f) -> (forall f, ~ dels P (t_lab tn x) f) ->
  (forall plan, solves P (result P s (t_lab tn x)) (minus tn x) plan -> solves P s tn (t_lab tn x :: plan)) /\
  (forall plan, solves P s tn plan ->
     exists plan', Permutation plan (t_lab tn x :: plan') /\ solves P (result P s (t_lab tn x)) (minus tn x) plan').
Proof. intros P s tn x WP W M Pr A E1 E2. apply effectless_safe; auto. split; auto. Qed.

(** The whole operations (with any combination of the eager progressions): the successor has the same solutions as the
    raw successor, up to reordering of the eagerly executed actions. *)
Theorem eager_apply_safe : forall P C fuel w n taskNo w' n' s tn pi i ps,
  wf_problem P -> config_ok C -> wf_heap P (w_heap w) -> Rep P (w_heap w) n s tn pi ->
  get (n_prim n) taskNo = Some i -> get (w_heap w) i = Some ps -> applicable P s (ps_task ps) ->
  apply P C fuel w n taskNo = Some (w', n') ->
  exists s' tn' acts, Rep P (w_heap w') n' s' tn' pi /\
    (forall plan, solves P s' tn' plan -> solves P (result P s (ps_task ps)) (minus tn (pi i)) (acts ++ plan)) /\
    (forall plan, solves P (result P s (ps_task ps)) (minus tn (pi i)) plan ->
       n_reach n' = true /\ exists plan', Permutation plan (acts ++ plan') /\ solves P s' tn' plan').
Proof.
  intros P C fuel w n taskNo w' n' s tn pi i ps WP HC W R Gi Gp Ap H.
  destruct (proj1 (apply_ok P C WP HC fuel) w n taskNo w' n' s tn pi i ps W R Gi Gp Ap H)
    as (s' & tn' & acts & Hh & R' & _ & _ & _ & SN & CM & _).
  assert (WM : wf_tn (minus tn (pi i))) by (apply minus_wf, R).
  assert (WT : wf_tn tn') by apply R'.
  exists s', tn', acts. split; auto. split.
  - intros plan HS. apply solves_solvesk in HS as (k & HS); auto using wf_acyclic.
    apply solves_solvesk; auto using wf_acyclic. destruct (SN _ _ HS) as (k' & HS'). eauto.
  - intros plan HS. apply solves_solvesk in HS as (k & HS); auto using wf_acyclic.
    destruct (CM _ _ HS) as (Rc & k' & plan' & _ & PM & HS'). split; auto. exists plan'. split; auto.
    apply solves_solvesk; eauto using wf_acyclic.
Qed.

(** ** Non-vacuity *)
Module Ex.
  (** Facts 0,1,2. Actions 0 (adds 0), 1 (needs 0, adds 1), 2 (no effects). Abstract tasks 3 (initial) and 4.
      3 -> [4 < 1, 2]; 4 -> [0, 2] or 4 -> [1]. *)
  Definition prob (goal : list nat) : problem :=
    {| p_nfacts := 3; p_prim := [true; true; true; false; false];
       p_prec := [[]; [0]; []]; p_add := [[0]; [1]; []]; p_del := [[]; [0]; []]; p_cost := [3; 4; 1];
       p_methods := [ {| m_task := 3; m_subs := [4; 1; 2]; m_ord := [(0, 1)] |};
                      {| m_task := 4; m_subs := [0; 2]; m_ord := [] |};
                      {| m_task := 4; m_subs := [1]; m_ord := [] |} ];
       p_init := 3; p_s0 := []; p_goal := goal |}.

  Definition env (so : bool) : search_env unit :=
    {| e_pop := fun l => match l with [] => None | x :: t => Some (x, t) end;
       e_push := fun n l => n :: l;
       v_insert := fun _ v _ => (true, v);
       h_dead := fun _ _ => false;
       rnd := fun i => i; subopt := so |}.

  Definition conf (e o : bool) : config := {| c_eff := e; c_one := o; c_perm := fun l => l |}.

  Lemma wf goal : (forall f, In f goal -> f < 3) -> wf_problem (prob goal).
  Proof.
    intros HG. split; simpl; auto.
    - intros t H. do 5 (destruct t as [|t]; simpl in H; [first [lia|discriminate]|]). destruct t; discriminate.
    - intros l f [H|[H|H]] Hf; repeat (destruct H as [<-|H]; [simpl in Hf; intuition lia|]); destruct H.
    - intros f [].
    - intros m [<-|[<-|[<-|[]]]]; split; simpl; auto; try discriminate; try (intros; intuition lia); try (intros; intuition; subst; lia).
      + intros j k [[= <- <-]|[]]. lia.
      + intros j H. assert (Q : forall a b, m_lt {| m_task := 3; m_subs := [4; 1; 2]; m_ord := [(0, 1)] |} a b -> a = 0 /\ b = 1).
        { intros a b Q. induction Q as [a b Q|a b c _ IH1 _ IH2]; [destruct Q as [[= <- <-]|[]]; auto|lia]. }
        apply Q in H. lia.
      + intros j H. induction H as [a b Q|a b c _ IH1 _ IH2]; [destruct Q|auto].
      + intros j H. induction H as [a b Q|a b c _ IH1 _ IH2]; [destruct Q|auto].
  Qed.

  Lemma conf_ok e o : config_ok (conf e o).
  Proof. intros l. apply Permutation_refl. Qed.
  Lemma env_fringe so : fringe_ok (env so).
  Proof.
    split; [|split]; simpl.
    - intros [|x t] n fr' [= <- <-]. apply Permutation_refl.
    - intros [|x t]; [auto|discriminate].
    - intros. apply Permutation_refl.
  Qed.
  Lemma env_visited P C so : visited_ok P C (env so) tt.
  Proof. exists (fun _ _ => True). simpl. repeat split; auto; discriminate. Qed.
  Lemma env_dead P C so : dead_ends_ok P C (env so).
  Proof. intros w l n s tn pi _ _ _ _ H. discriminate. Qed.

  Example solved : forall so e o, exists w n,
    search (prob [1]) (conf e o) (env so) tt 50 50 = Solved w n /\ solution (prob [1]) (printed_plan n) /\ n_cost n = 9.
  Proof.
    intros so e o.
    assert (Q : exists w n, search (prob [1]) (conf e o) (env so) tt 50 50 = Solved w n /\ n_cost n = 9).
    { destruct so, e, o; vm_compute; eauto. }
    destruct Q as (w & n & Q & Cn). exists w, n. split; auto. split; auto.
    apply (search_sound _ _ _ _ _ _ _ _ _ (wf [1] ltac:(simpl; lia)) (conf_ok e o) (env_fringe so) Q).
  Qed.

  (** C03/C04: action 1 deletes 0 and adds 1. *)
  Example effects : apply_effects (prob [1]) 1 [true; false; true] = Some [false; true; true].
  Proof. reflexivity. Qed.
  Example applicability : isApplicable (prob [1]) [true; false; true] 1 = Some true /\
                          isApplicable (prob [1]) [false; true; true] 1 = Some false.
  Proof. split; reflexivity. Qed.

  (** C05-C07: a history with two decompositions and two executions; its last node has a partially executed network. *)
  Example hist : exists w l n, history (prob [1]) (conf false false) w l /\ In n l /\ length l = 5 /\
    printed_plan n = [2; 0] /\ n_cost n = 4 /\ n_abs n = [] /\ length (n_prim n) = 1 /\ length (w_heap w) = 6.
  Proof.
    eexists _, _, _. split.
    - eapply h_apply with (fuel := 20) (i := 0).
      + eapply h_apply with (fuel := 20) (i := 0).
        * eapply h_decompose with (fuel := 20) (i := 0) (mi := 1).
          -- eapply h_decompose with (fuel := 20) (i := 0) (mi := 0).
             ++ apply h_init. reflexivity.
             ++ left. reflexivity.
             ++ reflexivity.
             ++ reflexivity.
             ++ left. reflexivity.
             ++ vm_compute. reflexivity.
          -- left. reflexivity.
          -- reflexivity.
          -- reflexivity.
          -- left. reflexivity.
          -- vm_compute. reflexivity.
        * left. reflexivity.
        * reflexivity.
        * reflexivity.
        * reflexivity.
        * reflexivity.
        * vm_compute. reflexivity.
      + left. reflexivity.
      + reflexivity.
      + reflexivity.
      + reflexivity.
      + reflexivity.
      + vm_compute. reflexivity.
    - split; [left; reflexivity|]. vm_compute. auto 10.
  Qed.

  Example unsolvable : forall so e o,
    search (prob [0; 1]) (conf e o) (env so) tt 50 50 = Unsolvable /\ forall plan, ~ solution (prob [0; 1]) plan.
  Proof.
    intros so e o.
    assert (Q : search (prob [0; 1]) (conf e o) (env so) tt 50 50 = Unsolvable) by (destruct so, e, o; vm_compute; reflexivity).
    split; [exact Q|].
    apply (search_unsolvable _ _ _ _ _ _ _ (wf [0; 1] ltac:(simpl; lia)) (conf_ok e o) (env_fringe so) (env_visited _ _ so) (env_dead _ _ so) Q).
  Qed.
End Ex.

Print Assumptions search_sound.
Print Assumptions search_cost.
Print Assumptions search_unsolvable.
Print Assumptions search_no_crash.
Print Assumptions history_represents.
Print Assumptions decompose_replaces_task.
Print Assumptions apply_removes_task.
Print Assumptions eager_apply_safe.
Print Assumptions apply_effects_defined.
Print Assumptions apply_effects_exact.
Print Assumptions effectless_progression_safe.
Print Assumptions isApplicable_defined.
Print Assumptions isApplicable_exact.
Print Assumptions isGoal_exact.
Print Assumptions isGoal_rep.
Print Assumptions one_task_branching.
Print Assumptions ready_action_branching.
