(** The search that frees memory runs in lockstep with the search of Htn_model. *)
From Coq Require Import Relations.
From Verif Require Import Base Htn_model Htn_history Htn_rep Htn_total Mem_model Mem_spec Mem_store Mem_proof.

(** ** Pairs of nodes *)
Definition corrp (v : mworld) (w : world) (L : list (mnode * node)) : Prop := corr v (map fst L) w (map snd L).

Lemma F2_pairs {A B} (R : A -> B -> Prop) (L : list (A * B)) : Forall2 R (map fst L) (map snd L) <-> forall p, In p L -> R (fst p) (snd p).
Proof.
  split.
  - induction L as [|q L IH]; cbn; intros F p Hp; [destruct Hp|]. inversion F; subst. destruct Hp as [<-|Hp]; auto.
  - induction L as [|q L IH]; cbn; intros F; constructor; auto.
Qed.
Lemma flat_perm {A} (f : A -> list nat) l l' : Permutation l l' -> forall k, cnt (flat_map f l) k = cnt (flat_map f l') k.
Proof. induction 1 as [|x l l' H IH|x y l|l1 l2 l3 H1 IH1 H2 IH2]; intros k; cbn [flat_map]; rewrite ?count_occ_app; [auto|now rewrite IH|lia|now rewrite IH1]. Qed.
Lemma corrp_perm v w L L' : Permutation L L' -> corrp v w L -> corrp v w L'.
Proof.
  intros PM [? ? ? ? ? R1 R2 ? F]. constructor; auto.
  - eapply RInv_eq; [|exact R1]. apply flat_perm, Permutation_map, PM.
  - eapply RInv_eq; [|exact R2]. apply flat_perm, Permutation_map, PM.
  - apply F2_pairs. intros p Hp. apply (proj1 (F2_pairs _ L) F). eapply Permutation_in; [symmetry; exact PM|exact Hp].
Qed.
Lemma corrp_same v w L p : corrp v w L -> In p L -> same_node (v_ss v) (fst p) (snd p).
Proof. intros CO. apply F2_pairs. apply CO. Qed.
Lemma corrp_steps v w L p : corrp v w L -> In p L -> same_steps v w (fst p).
Proof.
  intros CO Hp r i Hr R. assert (A : alive (v_ps v) i).
  { assert (A : alive (v_ps v) r) by (eapply (co_head _ _ _ _ CO (fst p)); [now apply in_map|exact Hr]). clear Hr. revert A. apply clos_rt_rt1n in R. induction R as [|x y z (c & G & H) R IH]; auto.
    intros A. apply IH; auto. eapply (ri_succ _ _ _ (co_ps _ _ _ _ CO)); [exact G|exact H]. }
  destruct A as (c & G). exists c. split; auto. now apply (co_val _ _ _ _ CO).
Qed.
Lemma corrp_delete v w k n L : corrp v w ((k, n) :: L) -> exists v', delete_node v k = Some v' /\ corrp v' w L.
Proof. intros CO. apply (delete_lock v [] k (map fst L) w [] n (map snd L) eq_refl CO). Qed.

Section Search.
Context {V : Type}.
Variables (P : problem) (C : config) (D : menv V) (E : search_env V).
Hypothesis HP : forall l, Permutation l (c_perm C l).
Hypothesis EA : env_agree D E.

(** the states: the node in expansion, the fringe, the nodes that are kept *)
Definition lst (cur : list (mnode * node)) (ts : mstate V) (st : sstate V) : Prop :=
  exists Lf K, corrp (t_world ts) (s_world st) (cur ++ Lf ++ K) /\ t_fringe ts = map fst Lf /\ s_fringe st = map snd Lf /\ t_vis ts = s_vis st /\ t_rnd ts = s_rnd st.
Definition glock (cur : list (mnode * node)) (g : gen_result V) (m : mgen V) : Prop :=
  match g with
  | GStop w n => exists v k L, m = MStop v k /\ corrp v w L /\ In (k, n) L
  | GCont st => exists ts, m = MCont ts /\ lst cur ts st
  | GCrash => m = MGCrash
  end.

Lemma misGoal_eq S k n : same_node S k n -> misGoal P k = isGoal P n.
Proof. intros [A1 A2 A3 _ _ _ _ _]. unfold misGoal, isGoal. now rewrite A1, A2, A3. Qed.

Lemma mtreat_lock cur ts st v w k2 n2 Lf K : corrp v w ((k2, n2) :: cur ++ Lf ++ K) -> t_fringe ts = map fst Lf -> s_fringe st = map snd Lf -> t_vis ts = s_vis st -> t_rnd ts = s_rnd st ->
  glock cur (treat_successor P E st w n2) (mtreat P D ts v k2).
Proof.
  intros CO EF1 EF2 EV ER. assert (SM := corrp_same _ _ _ _ CO (or_introl eq_refl)). assert (SS := corrp_steps _ _ _ _ CO (or_introl eq_refl)). cbn [fst snd] in SM, SS.
  assert (DEL : forall x', exists vd, delete_node v k2 = Some vd /\ lst cur {| t_world := vd; t_fringe := t_fringe ts; t_vis := x'; t_rnd := t_rnd ts |} {| s_world := w; s_fringe := s_fringe st; s_vis := x'; s_rnd := s_rnd st |}).
  { intros x'. destruct (corrp_delete _ _ _ _ _ CO) as (vd & Ed & COd). exists vd. split; auto. exists Lf, K. auto. }
  unfold treat_successor, mtreat. rewrite (ea_subopt _ _ EA), <- (sn_reach _ _ _ SM), EV. destruct (k_reach k2).
  - rewrite (ea_insert _ _ EA _ w _ _ n2 SM SS). destruct (if subopt E then v_insert E w (s_vis st) n2 else (true, s_vis st)) as [ok x']. destruct ok.
    + rewrite (ea_dead _ _ EA _ w _ n2 SM SS). destruct (h_dead E w n2).
      * destruct (subopt E && m_candel D)%bool.
        { destruct (DEL x') as (vd & Ed & Ld). rewrite Ed. cbn. eauto. }
        cbn. eexists. split; [reflexivity|]. exists Lf, ((k2, n2) :: K). split; auto. eapply corrp_perm; [|exact CO]. rewrite (app_assoc cur Lf), (app_assoc cur Lf ((k2, n2) :: K)). apply Permutation_middle.
      * assert (EG : (if subopt E then misGoal P k2 else Some false) = (if subopt E then isGoal P n2 else Some false)) by (destruct (subopt E); auto; eapply misGoal_eq; eauto). rewrite EG.
        destruct (if subopt E then isGoal P n2 else Some false) as [[]|]; [| |reflexivity].
        { exists v, k2, ((k2, n2) :: cur ++ Lf ++ K). split; auto. split; auto. now left. }
        cbn. eexists. split; [reflexivity|]. destruct (ea_push _ _ EA (v_ss v) Lf k2 n2) as (L' & PM & P1 & P2); auto.
        { intros p Hp. eapply corrp_same; [exact CO|]. right. apply in_or_app. right. apply in_or_app. auto. }
        exists L', K. cbn [t_world t_fringe t_vis t_rnd s_world s_fringe s_vis s_rnd]. rewrite EF1, EF2. split; auto. eapply corrp_perm; [|exact CO]. transitivity (cur ++ ((k2, n2) :: Lf) ++ K); [apply Permutation_middle|].
        apply Permutation_app_head, Permutation_app_tail. now symmetry.
    + destruct (DEL x') as (vd & Ed & Ld). rewrite Ed. cbn. eauto.
  - destruct (DEL (s_vis st)) as (vd & Ed & Ld). rewrite Ed. cbn. eauto.
Qed.

Lemma cur_in (k : mnode) (n : node) (Lf K : list (mnode * node)) : In k (map fst ([(k, n)] ++ Lf ++ K)). Proof. now left. Qed.

Lemma actions_lock f k n lst0 : forall i ts st, lst [(k, n)] ts st -> incl lst0 (k_prim k) -> glock [(k, n)] (expand_actions P C E f st n i lst0) (mexpand_actions P C D f ts k i lst0).
Proof.
  induction lst0 as [|x t IH]; intros i ts st LS IN; cbn [expand_actions mexpand_actions]; [cbn; eauto|].
  pose proof LS as (Lf & K & CO & EF1 & EF2 & EV & ER). assert (SM := corrp_same _ _ _ _ CO (or_introl eq_refl)). cbn [fst snd] in SM.
  rewrite (rtask_eq _ _ _ (co_live _ _ _ _ CO)) by (eapply (co_head _ _ _ _ CO k); [apply cur_in|]; apply in_or_app; right; apply IN; now left).
  rewrite (sn_state _ _ _ SM). destruct (obind (task_of (w_heap (s_world st)) x) (fun tk => isApplicable P (n_state n) tk)) as [[]|]; [| |reflexivity].
  - pose proof (proj1 (apply_lock P C HP f) _ _ _ _ k n i CO (cur_in k n Lf K) SM) as Q. unfold locked in Q. destruct (apply P C f (s_world st) n i) as [[w n2]|]; [|rewrite Q; reflexivity].
    destruct Q as (v & k2 & Q & CO2). rewrite Q. pose proof (mtreat_lock [(k, n)] ts st v w k2 n2 Lf K CO2 EF1 EF2 EV ER) as T. unfold glock in T.
    destruct (treat_successor P E st w n2) as [w' n'|st'|]; [destruct T as (v' & k' & L & -> & T); cbn; eauto|destruct T as (ts' & -> & T); apply IH; auto; intros z Hz; apply IN; now right|rewrite T; reflexivity].
  - apply IH; auto. intros z Hz. apply IN. now right.
Qed.
Lemma methods_lock f k n step ms : forall ts st, lst [(k, n)] ts st -> glock [(k, n)] (expand_methods P C E f st n step ms) (mexpand_methods P C D f ts k step ms).
Proof.
  induction ms as [|mi t IH]; intros ts st LS; cbn [expand_methods mexpand_methods]; [cbn; eauto|].
  pose proof LS as (Lf & K & CO & EF1 & EF2 & EV & ER). assert (SM := corrp_same _ _ _ _ CO (or_introl eq_refl)). cbn [fst snd] in SM.
  pose proof (decompose_lock P C HP f _ _ _ _ k n step mi CO (cur_in k n Lf K) SM) as Q. unfold locked in Q. destruct (decompose P C f (s_world st) n step mi) as [[w n2]|]; [|rewrite Q; reflexivity].
  destruct Q as (v & k2 & Q & CO2). rewrite Q. pose proof (mtreat_lock [(k, n)] ts st v w k2 n2 Lf K CO2 EF1 EF2 EV ER) as T. unfold glock in T.
  destruct (treat_successor P E st w n2) as [w' n'|st'|]; [destruct T as (v' & k' & L & -> & T); cbn; eauto|destruct T as (ts' & -> & T); now apply IH|rewrite T; reflexivity].
Qed.
Lemma expand_lock f k n ts st : lst [(k, n)] ts st -> glock [(k, n)] (expand P C E f st n) (mexpand P C D f ts k).
Proof.
  intros LS. pose proof LS as (Lf & K & CO & EF1 & EF2 & EV & ER). assert (SM := corrp_same _ _ _ _ CO (or_introl eq_refl)). cbn [fst snd] in SM.
  unfold expand, mexpand. rewrite <- (sn_abs _ _ _ SM), <- (sn_prim _ _ _ SM). destruct (k_abs k) as [|y r] eqn:EAb; [apply actions_lock; auto; apply incl_refl|].
  rewrite (ea_rnd _ _ EA), ER. set (step := Nat.modulo (rnd E (s_rnd st)) (length (y :: r))). destruct (get (y :: r) step) as [x|] eqn:Gx; cbn [obind]; [|reflexivity].
  rewrite (rtask_eq _ _ _ (co_live _ _ _ _ CO)) by (eapply (co_head _ _ _ _ CO k); [apply cur_in|]; apply in_or_app; left; rewrite EAb; eapply nth_error_In; exact Gx).
  destruct (task_of (w_heap (s_world st)) x) as [tk|]; [|reflexivity]. apply methods_lock. exists Lf, K. cbn. auto.
Qed.

Definition rlock (r : search_result) (m : mresult) : Prop :=
  match r with
  | Solved w n => exists v k, m = MSolved v k /\ same_node (v_ss v) k n
  | Unsolvable => m = MUnsolvable
  | OutOfFuel => m = MOutOfFuel
  | Crash => m = MCrash
  end.
Lemma loop_lock af fuel : forall ts st, lst [] ts st -> rlock (search_loop P C E af fuel st) (msearch_loop P C D af fuel ts).
Proof.
  induction fuel as [|f IH]; intros ts st (Lf & K & CO & EF1 & EF2 & EV & ER); cbn [search_loop msearch_loop]; rewrite EF1, EF2; cbn [app] in CO;
    (pose proof (ea_pop _ _ EA (v_ss (t_world ts)) Lf) as PO; destruct (m_pop D (map fst Lf)) as [[k fr]|], (e_pop E (map snd Lf)) as [[n fr']|]; try (destruct PO; intros p Hp; eapply corrp_same; [exact CO|]; apply in_or_app; auto; fail); [|reflexivity]).
  - reflexivity.
  - destruct PO as (L' & PM & -> & ->). { intros p Hp. eapply corrp_same; [exact CO|]. apply in_or_app. auto. }
    assert (CO1 : corrp (t_world ts) (s_world st) ((k, n) :: L' ++ K)) by (eapply corrp_perm; [|exact CO]; apply (Permutation_app_tail K PM)).
    assert (SM := corrp_same _ _ _ _ CO1 (or_introl eq_refl)). assert (SS := corrp_steps _ _ _ _ CO1 (or_introl eq_refl)). cbn [fst snd] in SM, SS.
    rewrite (ea_subopt _ _ EA), EV, (ea_insert _ _ EA _ (s_world st) _ _ n SM SS). destruct (if subopt E then (true, s_vis st) else v_insert E (s_world st) (s_vis st) n) as [ok x']. destruct ok.
    + rewrite (misGoal_eq _ _ _ SM). destruct (if subopt E then Some false else isGoal P n) as [[]|]; [cbn; eauto| |reflexivity].
      pose proof (expand_lock af k n {| t_world := t_world ts; t_fringe := map fst L'; t_vis := x'; t_rnd := t_rnd ts |} {| s_world := s_world st; s_fringe := map snd L'; s_vis := x'; s_rnd := s_rnd st |}) as X.
      assert (LS : lst [(k, n)] {| t_world := t_world ts; t_fringe := map fst L'; t_vis := x'; t_rnd := t_rnd ts |} {| s_world := s_world st; s_fringe := map snd L'; s_vis := x'; s_rnd := s_rnd st |}) by (exists L', K; auto).
      specialize (X LS). unfold glock in X. destruct (expand P C E af _ n) as [w' n'|st2|]; [|destruct X as (ts2 & -> & (Lf2 & K2 & CO2 & F1 & F2 & EV2 & ER2))|rewrite X; reflexivity].
      * destruct X as (v' & k' & L & -> & COL & IN). cbn. exists v', k'. split; auto. exact (corrp_same _ _ _ _ COL IN).
      * destruct (m_candel D).
        { destruct (corrp_delete _ _ _ _ _ CO2) as (vd & Ed & COd). rewrite Ed. apply IH. exists Lf2, K2. auto. }
        apply IH. exists Lf2, ((k, n) :: K2). cbn [app t_world t_fringe t_vis t_rnd]. split; auto. eapply corrp_perm; [|exact CO2]. cbn [app]. apply Permutation_middle.
    + destruct (corrp_delete _ _ _ _ _ CO1) as (vd & Ed & COd). rewrite Ed. apply IH. exists L', K. auto.
Qed.
Lemma search_lock x0 af fuel : rlock (search P C E x0 af fuel) (msearch P C D x0 af fuel).
Proof.
  unfold search, msearch. pose proof (init_lock P) as Q. destruct (init_node P) as [[w n]|]; [|rewrite Q; reflexivity]. destruct Q as (v & k & Q & CO). rewrite Q. apply loop_lock.
  destruct (ea_push _ _ EA (v_ss v) [] k n) as (L' & PM & P1 & P2); [intros p []|eapply corr_same; exact CO|]. exists L', []. cbn [t_world t_fringe t_vis t_rnd s_world s_fringe s_vis s_rnd]. split; auto.
  eapply corrp_perm; [|exact (CO : corrp v w [(k, n)])]. rewrite app_nil_r. cbn [app]. now symmetry.
Qed.
End Search.

Lemma mchain_ok S o l : sol_chain S o l -> forall f, length l < f -> mchain f S o = Some l.
Proof.
  induction 1 as [|i c l G CH IH]; intros [|f] L; cbn [length] in L; try lia; [reflexivity|]. cbn [mchain]. unfold rd. rewrite (proj2 (rdc_get S i c) G). cbn [obind]. rewrite IH by lia. reflexivity.
Qed.
