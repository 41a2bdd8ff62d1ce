(** Breadth-first and depth-first search as described in src/options.ggo 38-40 (C207, C208): with the heuristic zero and the g value path the search
    expands a node of least depth next, with the inverted heuristic modDepth and the g value none a node of greatest depth. *)
From Coq Require Import Permutation.
From Verif Require Import Base Htn_problem Htn_model Fringe_model Fringe_thm Astar_model Vis_thm Astar_thm.
Local Open Scope Z_scope.

(** *** Successors are deeper. *)
Lemma apply1_depth P perm pe f w n k w' n' : apply1 P perm pe f w n k = Some (w', n') -> (n_depth n < n_depth n')%nat.
Proof.
  unfold apply1. intros Q. apply obind_some in Q as (x & _ & Q). apply obind_some in Q as (ps & _ & Q). apply obind_some in Q as (s' & _ & Q). apply obind_some in Q as (nf & _ & Q). apply obind_some in Q as ([nfp nfa] & _ & Q).
  apply obind_some in Q as (c & _ & Q). apply obind_some in Q as (eff & _ & Q). destruct (n_sol n); [discriminate|]. injection Q as _ <-. cbn. lia.
Qed.
Lemma apply_depth P C f : (forall w n k w' n', apply P C f w n k = Some (w', n') -> (n_depth n < n_depth n')%nat) /\ (forall w n ac w' n', eff_loop P C f w n ac = Some (w', n') -> (n_depth n <= n_depth n')%nat).
Proof.
  induction f as [|f [IA IL]]; (split; [intros w n k w' n' Q|intros w n [i|] w' n' Q]); cbn [apply eff_loop] in Q; try discriminate; try (injection Q as _ <-; lia).
  - apply obind_some in Q as ([w1 r1] & E1 & Q). apply apply1_depth in E1. apply obind_some in Q as ([w2 r2] & E2 & Q). assert (L : (n_depth r1 <= n_depth r2)%nat).
    { destruct (c_eff C); [|injection E2 as _ <-; lia]. destruct (eff_first w1) as [w1' ac]. now apply IL in E2. }
    assert (G : (n_depth r2 <= n_depth n')%nat); [|lia]. destruct (c_one C); [|injection Q as _ <-; lia]. destruct (n_abs r2); [|injection Q as _ <-; lia]. destruct (n_prim r2); [injection Q as _ <-; lia|].
    apply obind_some in Q as (o & _ & Q). destruct o; [injection Q as _ <-; cbn; lia|apply IA in Q; lia|injection Q as _ <-; lia].
  - apply obind_some in Q as ([w1 r1] & E1 & Q). apply IA in E1. destruct (eff_next w1) as [w2 ac']. apply IL in Q. lia.
Qed.
Lemma decompose_depth P C f w n k m w' n' : decompose P C f w n k m = Some (w', n') -> (n_depth n < n_depth n')%nat.
Proof.
  unfold decompose. intros Q. apply obind_some in Q as ([w1 r1] & E1 & Q). apply obind_some in Q as ([w2 r2] & E2 & Q). destruct (apply_depth P C f) as [IA IL].
  assert (L1 : (n_depth n < n_depth r1)%nat).
  { unfold decompose1 in E1. apply obind_some in E1 as (x & _ & E1). apply obind_some in E1 as (ps & _ & E1). apply obind_some in E1 as (md & _ & E1). destruct (forallb _ _); [|discriminate]. apply obind_some in E1 as ([fp fa] & _ & E1). apply obind_some in E1 as (eff & _ & E1). injection E1 as _ <-. cbn. lia. }
  assert (L2 : (n_depth r1 <= n_depth r2)%nat) by (destruct (c_eff C); [destruct (eff_first w1) as [w1' ac]; now apply IL in E2|injection E2 as _ <-; lia]).
  unfold one_mod in Q. assert (G : (n_depth r2 <= n_depth n')%nat); [|lia]. destruct (c_one C); [|injection Q as _ <-; lia]. destruct (n_abs r2); [|injection Q as _ <-; lia]. destruct (n_prim r2); [injection Q as _ <-; lia|].
  apply obind_some in Q as (o & _ & Q). destruct o; [injection Q as _ <-; cbn; lia|apply IA in Q; lia|injection Q as _ <-; lia].
Qed.

Section Order.
  Context {V : Type}.
  Variables (P : problem) (C : config) (E : aenv V) (afuel : nat).

  (** One pass of the loop that does not end the search: the node is skipped or expanded. *)
  Inductive next (st : astate V) : entry node -> astate V -> Prop :=
  | n_skip : forall e fr v', a_pop E (t_fringe st) = Some (e, fr) -> a_sub E = false -> a_vis E (t_world st) (t_vis st) (en_node e) (Some (en_f e)) = (false, v') ->
      next st e {| t_world := t_world st; t_fringe := fr; t_vis := v'; t_rnd := t_rnd st |}
  | n_expand : forall e fr v' st2, a_pop E (t_fringe st) = Some (e, fr) -> (if a_sub E then (true, t_vis st) else a_vis E (t_world st) (t_vis st) (en_node e) (Some (en_f e))) = (true, v') ->
      (if a_sub E then Some false else isGoal P (en_node e)) = Some false -> a_expand P C E afuel {| t_world := t_world st; t_fringe := fr; t_vis := v'; t_rnd := t_rnd st |} (en_node e) = ACont st2 -> next st e st2.
  (** The states of the loop *)
  Inductive visited (v0 : V) : astate V -> Prop :=
  | v_start : forall w n st, init_node P = Some (w, n) -> push_entry E {| t_world := w; t_fringe := []; t_vis := v0; t_rnd := 0 |} w v0 n (map (fun _ => 0) (a_hs E)) = Some st -> visited v0 st
  | v_next : forall st e st', visited v0 st -> next st e st' -> visited v0 st'.

  (** The relation describes the loop: the search goes on with the next state, and with no other. *)
  Lemma loop_next st e st' f : next st e st' -> a_loop P C E afuel (S f) st = a_loop P C E afuel f st'.
  Proof.
    intros [e1 fr v' EP S0 EV|e1 fr v' st2 EP EV G X]; cbn [a_loop]; rewrite EP; [rewrite S0, EV; reflexivity|]. rewrite EV, G, X. reflexivity.
  Qed.

  (** The queue holds nodes that were pushed with the values of the first heuristic. *)
  Variables (a : nat) (h : world -> node -> option Z) (hs : list (nat * (world -> node -> option Z))) (v : node -> Z).
  Hypothesis HS : a_hs E = (a, h) :: hs.
  Hypothesis HV : forall w n x, h w n = Some x -> x = v n.
  Hypothesis H0 : forall w n, init_node P = Some (w, n) -> v n = 0.
  Hypothesis PQ : pq_ok (length (a_hs E)) (a_push E) (a_pop E).

  Definition pushed (e : entry node) : Prop := length (en_h e) = length (a_hs E) /\ en_f e = f_value (a_gval E) (a_weight E) (v (en_node e)) (n_depth (en_node e)) (n_cost (en_node e)) (n_mixed (en_node e)).

  Lemma eval_length l : forall prev w n vs, eval_hs l prev w n = Some vs -> length vs = length l.
  Proof.
    induction l as [|[b f] l IH]; intros prev w n vs Q; cbn [eval_hs] in Q; [now injection Q as <-|]. apply obind_some in Q as (x & _ & Q). apply obind_some in Q as (ys & Ey & Q). injection Q as <-. cbn. f_equal. eauto.
  Qed.
  Lemma push_pushed st w v' n hv st' : Forall pushed (t_fringe st) -> length hv = length (a_hs E) -> get hv 0 = Some (v n) -> push_entry E st w v' n hv = Some st' -> Forall pushed (t_fringe st').
  Proof.
    intros F L G Q. unfold push_entry in Q. rewrite G in Q. cbn [obind] in Q. injection Q as <-. cbn [t_fringe]. apply (Permutation_Forall (Permutation_sym (proj1 PQ _ _))). constructor; auto. split; auto.
  Qed.
  Lemma treat_pushed st w n2 st' : Forall pushed (t_fringe st) -> a_treat P E st w n2 = ACont st' -> Forall pushed (t_fringe st').
  Proof.
    intros F. unfold a_treat. destruct (n_reach n2); [|intros Q; now injection Q as <-]. destruct (if a_sub E then _ else _) as [ok v']. destruct ok; [|intros Q; now injection Q as <-].
    destruct (eval_hs (a_hs E) [] w n2) as [hv|] eqn:EH; [|intros Q; now injection Q as <-]. destruct (if a_sub E then _ else _) as [[|]|]; try discriminate.
    destruct (push_entry E st w v' n2 hv) as [st2|] eqn:EP; [|discriminate]. intros Q. injection Q as <-. eapply push_pushed; eauto; [eapply eval_length; eauto|].
    rewrite HS in EH. cbn [eval_hs find] in EH. apply obind_some in EH as (x & Ex & EH). apply obind_some in EH as (ys & _ & EH). injection EH as <-. cbn. f_equal. eauto.
  Qed.
  Lemma actions_pushed l : forall st n i st', Forall pushed (t_fringe st) -> a_actions P C E afuel st n i l = ACont st' -> Forall pushed (t_fringe st').
  Proof.
    induction l as [|x l IH]; intros st n i st' F Q; cbn [a_actions] in Q; [now injection Q as <-|]. destruct (obind _ _) as [[|]|]; try discriminate; [|eauto]. destruct (apply P C afuel (t_world st) n i) as [[w n2]|]; [|discriminate].
    destruct (a_treat P E st w n2) as [| |] eqn:T; try discriminate. eapply IH; [|exact Q]. eapply treat_pushed; eauto.
  Qed.
  Lemma methods_pushed l : forall st n i st', Forall pushed (t_fringe st) -> a_methods P C E afuel st n i l = ACont st' -> Forall pushed (t_fringe st').
  Proof.
    induction l as [|x l IH]; intros st n i st' F Q; cbn [a_methods] in Q; [now injection Q as <-|]. destruct (decompose P C afuel (t_world st) n i x) as [[w n2]|]; [|discriminate].
    destruct (a_treat P E st w n2) as [| |] eqn:T; try discriminate. eapply IH; [|exact Q]. eapply treat_pushed; eauto.
  Qed.
  Lemma expand_pushed st n st' : Forall pushed (t_fringe st) -> a_expand P C E afuel st n = ACont st' -> Forall pushed (t_fringe st').
  Proof.
    intros F. unfold a_expand. destruct (n_abs n) as [|x l]; [now apply actions_pushed|]. destruct (obind _ _) as [tk|]; [|discriminate]. intros Q. eapply methods_pushed; [|exact Q]. exact F.
  Qed.
  Lemma pop_pushed q e fr : Forall pushed q -> a_pop E q = Some (e, fr) -> Forall pushed (e :: fr).
  Proof. intros F Q. destruct PQ as (_ & P2 & _). destruct (P2 q e fr) as [PE _]; auto; [revert F; apply Forall_impl; intros x H; apply H|]. now apply (Permutation_Forall PE). Qed.
  Lemma visited_pushed v0 st : visited v0 st -> Forall pushed (t_fringe st).
  Proof.
    induction 1 as [w n st EI EP|st e st' VS IH NX].
    - eapply push_pushed; [| | |exact EP]; [constructor|now rewrite map_length|]. rewrite HS. cbn. f_equal. symmetry. eauto.
    - destruct NX as [e fr v' EP S0 EV|e fr v' st2 EP EV G X]; pose proof (pop_pushed _ _ _ IH EP) as F; inversion F; subst; auto. eapply expand_pushed; [|exact X]. auto.
  Qed.
  Lemma least v0 st e fr : visited v0 st -> a_pop E (t_fringe st) = Some (e, fr) -> forall x, In x (t_fringe st) ->
    f_value (a_gval E) (a_weight E) (v (en_node e)) (n_depth (en_node e)) (n_cost (en_node e)) (n_mixed (en_node e)) <= f_value (a_gval E) (a_weight E) (v (en_node x)) (n_depth (en_node x)) (n_cost (en_node x)) (n_mixed (en_node x)).
  Proof.
    intros VS EP x Hx. pose proof (visited_pushed _ _ VS) as F. pose proof (pop_pushed _ _ _ F EP) as FE. inversion FE as [|? ? [_ E1] _]; subst. rewrite Forall_forall in F. destruct (F x Hx) as [_ E2]. rewrite <- E1, <- E2.
    assert (FL : Forall (fun e0 => length (en_h e0) = length (a_hs E)) (t_fringe st)) by (apply Forall_forall; intros y Hy; now apply F).
    now apply (queue_pops_minimum node (length (a_hs E)) (a_push E) (a_pop E) (t_fringe st) e fr PQ FL EP x Hx).
  Qed.
  (** The successors of a node in the queue are deeper than the node. *)
  Definition fresh (n : node) (st st' : astate V) : Prop := forall x, In x (t_fringe st') -> In x (t_fringe st) \/ (n_depth n < n_depth (en_node x))%nat.
  Lemma treat_fresh n st w n2 st' : (n_depth n < n_depth n2)%nat -> a_treat P E st w n2 = ACont st' -> fresh n st st'.
  Proof.
    intros D. unfold a_treat, fresh. destruct (n_reach n2); [|intros Q; injection Q as <-; auto]. destruct (if a_sub E then _ else _) as [ok v']. destruct ok; [|intros Q; injection Q as <-; auto].
    destruct (eval_hs (a_hs E) [] w n2) as [hv|] eqn:EH; [|intros Q; injection Q as <-; auto]. destruct (if a_sub E then _ else _) as [[|]|]; try discriminate.
    destruct (push_entry E st w v' n2 hv) as [st2|] eqn:EP; [|discriminate]. intros Q. injection Q as <-. unfold push_entry in EP. apply obind_some in EP as (h0 & _ & EP). injection EP as <-. cbn [t_fringe].
    intros x Hx. apply (Permutation_in _ (proj1 PQ _ _)) in Hx as [<-|Hx]; auto.
  Qed.
  Lemma fresh_trans n st st1 st2 : fresh n st st1 -> fresh n st1 st2 -> fresh n st st2.
  Proof. intros A B x Hx. destruct (B x Hx) as [H|H]; auto. Qed.
  Lemma actions_fresh l : forall st n i st', a_actions P C E afuel st n i l = ACont st' -> fresh n st st'.
  Proof.
    induction l as [|x l IH]; intros st n i st' Q; cbn [a_actions] in Q; [injection Q as <-; intros y Hy; auto|]. destruct (obind _ _) as [[|]|]; try discriminate; [|eauto]. destruct (apply P C afuel (t_world st) n i) as [[w n2]|] eqn:EA; [|discriminate].
    destruct (a_treat P E st w n2) as [| |] eqn:T; try discriminate. eapply fresh_trans; [eapply treat_fresh; eauto; eapply (proj1 (apply_depth P C afuel)); eauto|eauto].
  Qed.
  Lemma methods_fresh l : forall st n i st', a_methods P C E afuel st n i l = ACont st' -> fresh n st st'.
  Proof.
    induction l as [|x l IH]; intros st n i st' Q; cbn [a_methods] in Q; [injection Q as <-; intros y Hy; auto|]. destruct (decompose P C afuel (t_world st) n i x) as [[w n2]|] eqn:EA; [|discriminate].
    destruct (a_treat P E st w n2) as [| |] eqn:T; try discriminate. eapply fresh_trans; [eapply treat_fresh; eauto; eapply decompose_depth; eauto|eauto].
  Qed.
  Lemma expand_fresh st n st' : a_expand P C E afuel st n = ACont st' -> fresh n st st'.
  Proof.
    unfold a_expand. destruct (n_abs n) as [|x l]; [apply actions_fresh|]. destruct (obind _ _) as [tk|]; [|discriminate]. intros Q. apply methods_fresh in Q. exact Q.
  Qed.
End Order.

Lemma init_depth P w n : init_node P = Some (w, n) -> n_depth n = 0%nat.
Proof. unfold init_node. intros Q. apply obind_some in Q as (s & _ & Q). now injection Q as <- <-. Qed.

(** C207: breadth-first search *)
Theorem bfs_order : forall V P C (E : aenv V) afuel a hs v0 st e fr,
  a_hs E = (a, h_zero) :: hs -> a_gval E = GPath -> pq_ok (length (a_hs E)) (a_push E) (a_pop E) -> visited P C E afuel v0 st -> a_pop E (t_fringe st) = Some (e, fr) ->
  forall x, In x (t_fringe st) -> (n_depth (en_node e) <= n_depth (en_node x))%nat.
Proof.
  intros V P C E afuel a hs v0 st e fr HS G PQ VS EP x Hx. pose proof (least P C E afuel a h_zero hs (fun _ => 0) HS ltac:(intros w n y Q; now injection Q) ltac:(reflexivity) PQ v0 st e fr VS EP x Hx) as Q. unfold f_value in Q. rewrite G in Q. lia.
Qed.
(** The depth of the expanded nodes never decreases. *)
Theorem bfs_layers : forall V P C (E : aenv V) afuel a hs v0 st e st' e' fr',
  a_hs E = (a, h_zero) :: hs -> a_gval E = GPath -> pq_ok (length (a_hs E)) (a_push E) (a_pop E) -> visited P C E afuel v0 st -> next P C E afuel st e st' -> a_pop E (t_fringe st') = Some (e', fr') ->
  (n_depth (en_node e) <= n_depth (en_node e'))%nat.
Proof.
  intros V P C E afuel a hs v0 st e st' e' fr' HS G PQ VS NX EP'.
  assert (HV : forall w n y, h_zero w n = Some y -> y = (fun _ : node => 0) n) by (intros w n y Q; now injection Q).
  assert (I' : In e' (t_fringe st')).
  { assert (VS' : visited P C E afuel v0 st') by (eapply v_next; eauto). pose proof (visited_pushed P C E afuel a h_zero hs (fun _ => 0) HS HV ltac:(reflexivity) PQ v0 st' VS') as F. destruct PQ as (_ & P2 & _).
    destruct (P2 (t_fringe st') e' fr') as [PE _]; auto; [revert F; apply Forall_impl; intros y H; apply H|]. apply (Permutation_in _ (Permutation_sym PE)). now left. }
  assert (POP : forall e0 fr, a_pop E (t_fringe st) = Some (e0, fr) -> forall x, In x fr -> In x (t_fringe st)).
  { intros e0 fr EP x Hx. pose proof (visited_pushed P C E afuel a h_zero hs (fun _ => 0) HS HV ltac:(reflexivity) PQ v0 st VS) as F. destruct PQ as (_ & P2 & _).
    destruct (P2 (t_fringe st) e0 fr) as [PE _]; auto; [revert F; apply Forall_impl; intros y H; apply H|]. apply (Permutation_in _ (Permutation_sym PE)). now right. }
  destruct NX as [e fr v' EP S0 EV|e fr v' st2 EP EV GO X]; cbn [t_fringe] in I'.
  - eapply bfs_order; eauto.
  - apply (expand_fresh P C E afuel PQ) in X. destruct (X e' I') as [Q|Q]; [|lia]. cbn [t_fringe] in Q. eapply bfs_order; eauto.
Qed.
(** C208: depth-first search *)
Theorem dfs_order : forall V P C (E : aenv V) afuel a hs v0 st e fr,
  a_hs E = (a, h_modDepth true) :: hs -> a_gval E = GNone -> 0 < a_weight E -> pq_ok (length (a_hs E)) (a_push E) (a_pop E) -> visited P C E afuel v0 st -> a_pop E (t_fringe st) = Some (e, fr) ->
  forall x, In x (t_fringe st) -> (n_depth (en_node x) <= n_depth (en_node e))%nat.
Proof.
  intros V P C E afuel a hs v0 st e fr HS G W PQ VS EP x Hx.
  assert (HV : forall w n y, h_modDepth true w n = Some y -> y = (fun n : node => Z.of_nat (n_depth n) * -1) n) by (intros w n y Q; unfold h_modDepth in Q; congruence).
  assert (H0 : forall w n, init_node P = Some (w, n) -> (fun n : node => Z.of_nat (n_depth n) * -1) n = 0) by (intros w n Q; cbn beta; rewrite (init_depth P w n Q); reflexivity).
  pose proof (least P C E afuel a (h_modDepth true) hs _ HS HV H0 PQ v0 st e fr VS EP x Hx) as Q. cbn beta in Q.
  unfold f_value in Q. rewrite G in Q. nia.
Qed.
Module Ex.
  Import Vis_thm.Ex Astar_thm.Ex.
  (** The problem of Astar_thm without visited list: the states after the start and after one expansion and after two. *)
  Definition env (h : world -> node -> option Z) (g : gval) : aenv unit :=
    {| a_hs := [(0%nat, h)]; a_gval := g; a_weight := 1; a_push := cons; a_pop := pq_pop; a_vis := fun _ v _ _ => (true, v); a_rnd := fun _ => 7; a_sub := false |}.
  Definition start (E : aenv unit) : option (astate unit) := '(w, n) <- init_node aprob ;; push_entry E {| t_world := w; t_fringe := []; t_vis := tt; t_rnd := 0 |} w tt n (map (fun _ => 0) (a_hs E)).
  Definition step (E : aenv unit) (st : astate unit) : option (astate unit) :=
    '(e, fr) <- a_pop E (t_fringe st) ;;
    match isGoal aprob (en_node e), a_expand aprob conf E 50 {| t_world := t_world st; t_fringe := fr; t_vis := tt; t_rnd := t_rnd st |} (en_node e) with Some false, ACont st2 => Some st2 | _, _ => None end.
  Definition depths (st : astate unit) : list nat := map (fun e => n_depth (en_node e)) (t_fringe st).
  Lemma step_visited E st st' : a_sub E = false -> a_vis E = (fun _ v _ _ => (true, v)) -> visited aprob conf E 50 tt st -> step E st = Some st' -> visited aprob conf E 50 tt st'.
  Proof.
    intros S0 EV VS Q. unfold step in Q. apply obind_some in Q as ([e fr] & EP & Q). destruct (isGoal aprob (en_node e)) as [[|]|] eqn:G; try discriminate. destruct (a_expand _ _ _ _ _ _) as [| |] eqn:X; try discriminate. injection Q as <-.
    eapply v_next; [exact VS|]. eapply n_expand; [exact EP|rewrite S0, EV; reflexivity|rewrite S0; exact G|]. destruct (t_vis st). exact X.
  Qed.
  Lemma three E : a_sub E = false -> a_vis E = (fun _ v _ _ => (true, v)) -> forall ds, option_map depths (st0 <- start E ;; st1 <- step E st0 ;; step E st1) = Some ds -> exists st, visited aprob conf E 50 tt st /\ depths st = ds.
  Proof.
    intros S0 EV ds Q. destruct (obind (start E) _) as [st2|] eqn:R; [|discriminate]. injection Q as <-. exists st2. split; auto. apply obind_some in R as (st0 & E0 & R). apply obind_some in R as (st1 & E1 & R).
    eapply step_visited; eauto. eapply step_visited; eauto. unfold start in E0. apply obind_some in E0 as ([w n] & EI & E0). eapply v_start; eauto.
  Qed.
  (** Breadth first: two nodes of depths 1 and 2 are in the queue, the first is expanded next. *)
  Example bfs_ex : exists st, visited aprob conf (env h_zero GPath) 50 tt st /\ depths st = [2; 1]%nat /\ forall e fr, pq_pop (t_fringe st) = Some (e, fr) -> n_depth (en_node e) = 1%nat.
  Proof.
    destruct (three (env h_zero GPath) eq_refl eq_refl [2; 1]%nat) as (st & VS & D); [vm_compute; reflexivity|]. exists st. split; auto. split; auto. intros e fr EP.
    pose proof (bfs_order _ _ _ (env h_zero GPath) 50 0 [] tt st e fr eq_refl eq_refl (pq_pop_ok _ _) VS EP) as L. assert (I : forall d, In d (depths st) -> (n_depth (en_node e) <= d)%nat) by (intros d H; apply in_map_iff in H as (x & <- & H); auto).
    assert (J : In (n_depth (en_node e)) (depths st)). { destruct (t_fringe st) as [|x q] eqn:ET; [discriminate|]. unfold depths. rewrite ET. apply (in_map (fun e => n_depth (en_node e))).
      pose proof (visited_pushed aprob conf (env h_zero GPath) 50 0 h_zero [] (fun _ => 0) eq_refl ltac:(intros w n y Q; now injection Q) ltac:(reflexivity) (pq_pop_ok _ _) tt st VS) as F. rewrite ET in F.
      destruct (proj1 (proj2 (pq_pop_ok node 1)) (x :: q) e fr) as [PE _]; [revert F; apply Forall_impl; intros y H; apply H|exact EP|]. apply (Permutation_in _ (Permutation_sym PE)). now left. }
    rewrite D in *. specialize (I 1%nat ltac:(cbn; auto)). destruct J as [J|[J|[]]]; lia.
  Qed.
  (** Depth first: the second. *)
  Example dfs_ex : exists st, visited aprob conf (env (h_modDepth true) GNone) 50 tt st /\ depths st = [2; 1]%nat /\ forall e fr, pq_pop (t_fringe st) = Some (e, fr) -> (2 <= n_depth (en_node e))%nat.
  Proof.
    destruct (three (env (h_modDepth true) GNone) eq_refl eq_refl [2; 1]%nat) as (st & VS & D); [vm_compute; reflexivity|]. exists st. split; auto. split; auto. intros e fr EP.
    pose proof (dfs_order _ _ _ (env (h_modDepth true) GNone) 50 0 [] tt st e fr eq_refl eq_refl ltac:(reflexivity) (pq_pop_ok _ _) VS EP) as L. assert (I : forall d, In d (depths st) -> (d <= n_depth (en_node e))%nat) by (intros d H; apply in_map_iff in H as (x & <- & H); auto).
    apply I. rewrite D. now left.
  Qed.
End Ex.

Print Assumptions bfs_order.
Print Assumptions bfs_layers.
Print Assumptions dfs_order.
