(** The stores run in lockstep with the growing heap of Htn_model. *)
From Coq Require Import Relations.
From Verif Require Import Base Htn_model Htn_history Htn_rep Htn_total Mem_model Mem_spec Mem_store.

(** ** Reading *)
Section Reading.
Variables (h : nat -> option pstep) (H : list pstep) (live : nat -> Prop).
Hypothesis HL : forall i, live i -> h i = get H i.
Hypothesis HS : forall i ps, live i -> h i = Some ps -> forall j, In j (ps_succ ps) -> live j.

Lemma rtask_eq i : live i -> rtask h i = task_of H i.
Proof. intros L. unfold rtask, task_of. now rewrite HL. Qed.
Lemma rsucc_eq i : live i -> rsucc h i = succ_of H i.
Proof. intros L. unfold rsucc, succ_of. now rewrite HL. Qed.
Lemma succ_live i ss : live i -> succ_of H i = Some ss -> forall j, In j ss -> live j.
Proof. intros L E j Hj. unfold succ_of in E. apply obind_some in E as (ps & G & E). injection E as <-. eapply HS; eauto. now rewrite HL. Qed.

Lemma rpush_eq l : forall acc, (forall i, In i l -> live i) -> rpush_succs h l acc = push_succs H l acc.
Proof.
  unfold rpush_succs, push_succs. induction l as [|i l IH]; intros acc A; cbn [ofold]; auto. rewrite rsucc_eq by (apply A; now left).
  destruct (succ_of H i) as [ss|]; cbn [obind]; auto. apply IH. intros k Hk. apply A. now right.
Qed.
Lemma push_live l : forall acc r, (forall i, In i l -> live i) -> (forall i, In i acc -> live i) -> push_succs H l acc = Some r -> forall i, In i r -> live i.
Proof.
  unfold push_succs. induction l as [|i l IH]; intros acc r A B E; cbn [ofold] in E; [injection E as <-; auto|].
  destruct (succ_of H i) as [ss|] eqn:ES; cbn [obind] in E; [|discriminate]. eapply IH; [| |exact E]; [intros k Hk; apply A; now right|].
  intros k Hk. apply in_app_or in Hk as [Hk|Hk]; auto. apply in_rev in Hk. eapply succ_live; eauto. apply A. now left.
Qed.
Lemma relim_eq fuel : forall pf pp dn, (forall i, In i pp -> live i) -> relim_loop h fuel pf pp dn = elim_loop fuel H pf pp dn.
Proof.
  induction fuel as [|f IH]; intros [|p pf] [|x pp] dn A; cbn [relim_loop elim_loop]; auto. rewrite rsucc_eq by (apply A; now left).
  destruct (succ_of H x) as [ss|] eqn:ES; cbn [obind]; auto. apply IH. intros i Hi. apply in_app_or in Hi as [Hi|Hi]; [|apply A; now right].
  apply in_rev in Hi. apply filter_In in Hi as [Hi _]. eapply succ_live; eauto. apply A. now left.
Qed.
Lemma elim_incl fuel : forall pf pp dn r, elim_loop fuel H pf pp dn = Some r -> forall i, In i r -> In i pf.
Proof.
  induction fuel as [|f IH]; intros [|p pf] [|x pp] dn r E i Hi; cbn [elim_loop] in E; try (injection E as <-; auto; fail); try discriminate.
  destruct (succ_of H x) as [ss|]; cbn [obind] in E; [|discriminate]. eapply IH in E; eauto. now apply filter_In in E.
Qed.
Lemma rnew_eq perm fuel k n t ps : k_abs k = n_abs n -> k_prim k = n_prim n -> (forall i, In i (steps k) -> live i) -> (forall i, In i (ps_succ ps) -> live i) ->
  rnew_firsts h perm fuel k t ps = new_firsts perm fuel H n t ps.
Proof.
  intros EA EP A B. unfold rnew_firsts, new_firsts. rewrite <- EA, <- EP. unfold steps in A. setoid_rewrite in_app_iff in A. rewrite rpush_eq by auto.
  destruct (push_succs H (ps_succ ps) []) as [p1|] eqn:E1; cbn [obind]; auto. rewrite rpush_eq by auto.
  destruct (push_succs H (k_abs k) p1) as [p2|] eqn:E2; cbn [obind]; auto. assert (A3 : forall i, In i (remove_at t (k_prim k)) -> live i) by (intros i Hi; apply remove_at_incl in Hi; auto). rewrite rpush_eq by auto.
  destruct (push_succs H (remove_at t (k_prim k)) p2) as [p3|] eqn:E3; cbn [obind]; auto. rewrite relim_eq; auto.
  eapply push_live; [exact A3| |exact E3]. eapply push_live; [| |exact E2]; auto. eapply push_live; [| |exact E1]; auto. intros i [].
Qed.
Lemma rsplit_eq P l : (forall i, In i l -> live i) -> rsplit_prim h P l = split_prim P H l.
Proof.
  induction l as [|x l IH]; intros A; cbn [rsplit_prim split_prim]; auto. rewrite rtask_eq by (apply A; now left). rewrite IH by (intros i Hi; apply A; now right). reflexivity.
Qed.
Lemma reff_eq P s l : forall from, (forall i, In i l -> live i) -> reff_indices h P s from l = eff_indices P H s from l.
Proof.
  induction l as [|x l IH]; intros from A; cbn [reff_indices eff_indices]; auto. rewrite rtask_eq by (apply A; now left). rewrite IH by (intros i Hi; apply A; now right). reflexivity.
Qed.
Lemma rone_eq P s l : forall i acc, (forall i, In i l -> live i) -> rone_applicable h P s i l acc = one_applicable P H s i l acc.
Proof.
  induction l as [|x l IH]; intros i acc A; cbn [rone_applicable one_applicable]; auto. rewrite rtask_eq by (apply A; now left).
  destruct (task_of H x) as [tk|]; cbn [obind]; auto. destruct (isApplicable P s tk) as [b|]; cbn [obind]; auto. assert (B : forall i, In i l -> live i) by (intros j Hj; apply A; now right). destruct b; [destruct acc|]; auto.
Qed.
End Reading.

(** ** Correspondence *)
Record corr (v : mworld) (l : list mnode) (w : world) (lh : list node) : Prop := {
  co_inst : v_inst v = w_inst w; co_eff : v_eff v = w_eff w; co_iter : v_iter v = w_iter w;
  co_len : length (v_ps v) = length (w_heap w);
  co_val : forall i c, get (v_ps v) i = Some (Some c) -> get (w_heap w) i = Some (c_val c);
  co_ps : RInv ps_succ (v_ps v) (flat_map steps l);
  co_ss : RInv prev_of (v_ss v) (flat_map sols l);
  co_prev : forall i c, get (v_ss v) i = Some (Some c) -> forall j, In j (prev_of (c_val c)) -> j < i;
  co_nodes : Forall2 (same_node (v_ss v)) l lh }.

Lemma chain_grow S S' o l : grow S S' -> sol_chain S o l -> sol_chain S' o l.
Proof.
  intros G. induction 1 as [|i c l E C IH]; [constructor|]. destruct (G i c E) as (c' & E' & V). rewrite <- V in *. now constructor.
Qed.
Lemma chain_sub S S' r o l : sub S' S -> RInv prev_of S' r -> (forall i, o = Some i -> alive S' i) -> sol_chain S o l -> sol_chain S' o l.
Proof.
  intros [_ SU] RI A C. revert A. induction C as [|i c l E C IH]; intros A; [constructor|]. destruct (A i eq_refl) as (c' & E'). destruct (SU i c' E') as (c0 & E0 & V). unfold get in E0. assert (c0 = c) as -> by congruence.
  rewrite V in *. constructor; auto. apply IH. intros j Hj. eapply (ri_succ _ _ _ RI); [exact E'|]. unfold prev_of. rewrite Hj. now left.
Qed.
Lemma same_grow S S' k n : grow S S' -> same_node S k n -> same_node S' k n.
Proof. intros G [? ? ? ? ? ? ? H]. constructor; auto. eapply chain_grow; eauto. Qed.
Lemma F2_impl {A B} (R R' : A -> B -> Prop) l l' : (forall a b, In a l -> R a b -> R' a b) -> Forall2 R l l' -> Forall2 R' l l'.
Proof. intros I F. induction F; constructor; [apply I; auto; now left|]. apply IHF. intros a b Ha. apply I. now right. Qed.

Lemma in_steps k (l : list mnode) : In k l -> forall i, In i (steps k) -> In i (flat_map steps l).
Proof. intros Hk i Hi. apply in_flat_map. eauto. Qed.

Section Corr.
Variables (v : mworld) (l : list mnode) (w : world) (lh : list node).
Hypothesis CO : corr v l w lh.

Lemma co_live i : alive (v_ps v) i -> rd (v_ps v) i = get (w_heap w) i.
Proof. intros (c & G). unfold rd. rewrite (proj2 (rdc_get _ _ _) G). cbn. symmetry. now apply (co_val _ _ _ _ CO). Qed.
Lemma co_succ i ps : alive (v_ps v) i -> rd (v_ps v) i = Some ps -> forall j, In j (ps_succ ps) -> alive (v_ps v) j.
Proof. intros (c & G) E. unfold rd in E. rewrite (proj2 (rdc_get _ _ _) G) in E. cbn in E. injection E as <-. eapply (ri_succ _ _ _ (co_ps _ _ _ _ CO)); eauto. Qed.
Lemma co_head k : In k l -> forall i, In i (steps k) -> alive (v_ps v) i.
Proof. intros Hk i Hi. apply (ri_root _ _ _ (co_ps _ _ _ _ CO)). eapply in_steps; eauto. Qed.
Lemma co_sol k i : In k l -> k_sol k = Some i -> alive (v_ss v) i.
Proof. intros Hk E. apply (ri_root _ _ _ (co_ss _ _ _ _ CO)). apply in_flat_map. exists k. split; auto. unfold sols. rewrite E. now left. Qed.
End Corr.

(** A new solution step *)
Open Scope Z_scope.
Lemma new_sol_ok S r st prev : RInv prev_of S r -> (forall i, In i (ptr prev) -> alive S i) -> (forall i c, get S i = Some (Some c) -> forall j, In j (prev_of (c_val c)) -> (j < i)%nat) ->
  exists S', ofold (inc 1) (ptr prev) (new_sol S st prev) = Some S' /\ RInv prev_of S' (length S :: r) /\ grow S S' /\ (exists c, get S' (length S) = Some (Some c) /\ c_val c = (st, prev)) /\
    (forall i c, get S' i = Some (Some c) -> forall j, In j (prev_of (c_val c)) -> (j < i)%nat).
Proof.
  intros RI A PR. unfold new_sol. set (M := S ++ _).
  assert (LM : forall i, alive S i -> alive M i) by (intros i (c & G); destruct (grow_app S [Some {| c_val := (st, prev); c_cnt := 1 |}] i c G) as (c' & G' & _); eexists; exact G').
  assert (LI : forall i, alive S i -> (i < length S)%nat) by (intros i (c & G); eapply get_lt; eauto).
  destruct (incs_ok 1 (ptr prev) M) as (S' & E & L & K); [auto|]. exists S'. split; auto.
  assert (K' : forall k, exists d, get S' k = bump d (get M k)) by (intros k; eauto).
  assert (OU : outs prev_of S' = outs prev_of S ++ ptr prev).
  { rewrite (outs_same prev_of M S' L) by (intros k z <-; auto). unfold M. rewrite outs_app. cbn. now rewrite app_nil_r. }
  assert (GN : get M (length S) = Some (Some {| c_val := (st, prev); c_cnt := 1 |})) by (unfold M, get; rewrite nth_error_app2, Nat.sub_diag; auto).
  assert (FR : cnt r (length S) = 0%nat). { apply count_occ_not_In. intros H. apply (ri_root _ _ _ RI), LI in H. lia. }
  assert (FO : cnt (outs prev_of S) (length S) = 0%nat).
  { apply count_occ_not_In. intros H. apply in_flat_map in H as ([c|] & Hc & H); [|destruct H]. apply In_nth_error in Hc as (k & Hc). apply (ri_succ _ _ _ RI k c Hc), LI in H. lia. }
  assert (FP : cnt (ptr prev) (length S) = 0%nat). { apply count_occ_not_In. intros H. apply A, LI in H. lia. }
  assert (CM : forall k c, get M k = Some (Some c) -> (k < length S)%nat /\ get S k = Some (Some c) \/ k = length S /\ c = {| c_val := (st, prev); c_cnt := 1 |}).
  { intros k c G. destruct (Nat.lt_ge_cases k (length S)); [left; split; auto; unfold M, get in G; rewrite nth_error_app1 in G by auto; exact G|]. right. assert (k = length S). { apply get_lt in G. unfold M in G. rewrite app_length in G. cbn in G. lia. } subst k. split; auto. congruence. }
  split; [|split; [|split]].
  - constructor.
    + intros k c G. rewrite K, Z.mul_1_l in G. destruct (get M k) as [[c0|]|] eqn:G0; cbn in G; try discriminate. injection G as <-. cbn [c_cnt]. rewrite OU, count_occ_app. cbn [count_occ].
      apply CM in G0 as [[Lk G0]|[-> ->]]; [|destruct (Nat.eq_dec (length S) (length S)); [cbn [c_cnt]; lia|congruence]].
      destruct (Nat.eq_dec (length S) k); [lia|]. destruct (ri_cnt _ _ _ RI k c0 G0). lia.
    + intros k Hk. apply (alive_bump M S' k _ (K k)). destruct Hk as [<-|Hk]; [eexists; exact GN|]. apply LM, (ri_root _ _ _ RI), Hk.
    + intros k c G i Hi. apply (alive_bump M S' i _ (K i)), LM. rewrite K in G. destruct (get M k) as [[c0|]|] eqn:G0; cbn in G; try discriminate. injection G as <-.
      apply CM in G0 as [[Lk G0]|[-> ->]]; [|now apply A]. eapply (ri_succ _ _ _ RI); eauto.
  - apply (grow_trans S M S'); [apply grow_app|now apply grow_bump].
  - destruct (K' (length S)) as (d & Ed). rewrite GN in Ed. cbn in Ed. eexists; split; [exact Ed|reflexivity].
  - intros i c G j Hj. rewrite K in G. destruct (get M i) as [[c0|]|] eqn:G0; cbn in G; try discriminate. injection G as <-. cbn [c_val] in Hj.
    apply CM in G0 as [[Lk G0]|[-> ->]]; [eapply PR; eauto|]. apply LI, A, Hj.
Qed.
Close Scope Z_scope.

(** ** The counters of the plan steps of a method *)
Lemma combine_get {A B} (a : list A) (b : list B) j x y : nth_error a j = Some x -> nth_error b j = Some y -> nth_error (combine a b) j = Some (x, y).
Proof. revert a b. induction j as [|j IH]; intros [|u a] [|t b] H1 H2; cbn in *; try discriminate; [congruence|auto]. Qed.
Section NewSteps.
Variables (m : method) (base inst : nat) (os : list nat).
Let K := length (m_subs m).
Definition succs_of (j : nat) : list nat := if is_last m j then os else map (fun o => base + snd o) (filter (fun o => Nat.eqb (fst o) j) (m_ord m)).

Lemma new_cells_length : length (new_cells m base inst os) = K.
Proof. unfold new_cells. rewrite map_length, combine_length, seq_length, method_steps_length. apply Nat.min_id. Qed.
Lemma new_cells_get j c : get (new_cells m base inst os) j = Some (Some c) ->
  get (method_steps m base inst os) j = Some (c_val c) /\ c_cnt c = Z.of_nat (cnt (map snd (m_ord m)) j) /\ ps_succ (c_val c) = succs_of j /\ j < K.
Proof.
  unfold new_cells, get. intros E. assert (L : j < K). { assert (j < length (new_cells m base inst os)) by (apply nth_error_Some; unfold new_cells; congruence). now rewrite new_cells_length in H. }
  destruct (get_some (m_subs m) j L) as (t & Gt). pose proof (method_steps_get m base inst os j t Gt) as Gm.
  assert (GC : nth_error (combine (seq 0 K) (method_steps m base inst os)) j = Some (j, method_step m base inst os j t)).
  { assert (GS : nth_error (seq 0 K) j = Some j) by (rewrite (nth_error_nth' _ 0) by (now rewrite seq_length); f_equal; now rewrite seq_nth).
    exact (combine_get _ _ j _ _ GS Gm). }
  rewrite (map_nth_error _ _ _ GC) in E. injection E as <-. cbn [c_val c_cnt]. split; [exact Gm|]. split; auto.
Qed.
Lemma new_cells_alive j : j < K -> exists c, get (new_cells m base inst os) j = Some (Some c).
Proof.
  intros L. unfold new_cells, get. destruct (get_some (combine (seq 0 K) (method_steps m base inst os)) j) as ([a b] & E); [rewrite combine_length, seq_length, method_steps_length; fold K; lia|].
  fold K. rewrite (map_nth_error _ _ _ E). eauto.
Qed.
Lemma flat_all (X : store pstep) n : length X = n -> (forall j, j < n -> exists c, get X j = Some (Some c) /\ ps_succ (c_val c) = succs_of j) -> outs ps_succ X = flat_map succs_of (seq 0 n).
Proof.
  revert n. induction X as [|o X IH] using rev_ind; intros n L H; cbn in L.
  - subst n. reflexivity.
  - rewrite app_length in L. cbn in L. subst n. rewrite outs_app. rewrite seq_app. rewrite flat_map_app. f_equal.
    + apply IH; auto. intros j Lj. destruct (H j ltac:(lia)) as (c & G & V). exists c. split; auto. unfold get in *. now rewrite nth_error_app1 in G by auto.
    + destruct (H (length X) ltac:(lia)) as (c & G & V). unfold get in G. rewrite nth_error_app2, Nat.sub_diag in G by auto. cbn in G. injection G as ->. cbn. now rewrite V.
Qed.
Lemma new_outs : outs ps_succ (new_cells m base inst os) = flat_map succs_of (seq 0 K).
Proof.
  apply flat_all; [apply new_cells_length|]. intros j L. destruct (new_cells_alive j L) as (c & G). exists c. split; auto. now apply new_cells_get in G.
Qed.

Lemma cnt_map_add (l : list (nat * nat)) q : cnt (map (fun o => base + snd o) l) (base + q) = cnt (map snd l) q.
Proof. induction l as [|o l IH]; cbn [map count_occ]; auto. destruct (Nat.eq_dec (base + snd o) (base + q)), (Nat.eq_dec (snd o) q); lia. Qed.
Lemma cnt_low (l : list nat) k : (forall i, In i l -> i < base) -> base <= k -> cnt l k = 0.
Proof. intros A L. apply count_occ_not_In. intros H. apply A in H. lia. Qed.

Lemma new_cnt_old l k : k < base -> cnt (flat_map succs_of l) k = length (filter (is_last m) l) * cnt os k.
Proof.
  intros L. induction l as [|j l IH]; cbn; auto. rewrite count_occ_app, IH. unfold succs_of. destruct (is_last m j); cbn; auto.
  rewrite (proj1 (count_occ_not_In Nat.eq_dec _ _)); auto. intros H. apply in_map_iff in H as (o & E & _). lia.
Qed.
Lemma ord_sum (l : list nat) q ord : (forall o, In o ord -> cnt l (fst o) = 1) -> cnt (flat_map (fun j => map snd (filter (fun o => Nat.eqb (fst o) j) ord)) l) q = cnt (map (@snd nat nat) ord) q.
Proof.
  induction ord as [|o ord IH]; intros A; cbn [map count_occ filter].
  - clear. induction l; cbn; auto.
  - transitivity ((if Nat.eq_dec (snd o) q then cnt l (fst o) else 0) + cnt (flat_map (fun j => map snd (filter (fun o => Nat.eqb (fst o) j) ord)) l) q).
    + clear. induction l as [|j l IH]; [cbn; destruct (Nat.eq_dec _ _); auto|]. cbn [flat_map count_occ]. rewrite !count_occ_app, IH. cbn [filter]. destruct (Nat.eqb_spec (fst o) j) as [E|E]; cbn [map count_occ].
      * destruct (Nat.eq_dec (snd o) q), (Nat.eq_dec j (fst o)); try congruence; lia.
      * destruct (Nat.eq_dec (snd o) q), (Nat.eq_dec j (fst o)); try congruence; lia.
    + rewrite IH by (intros o' H'; apply A; now right). rewrite (A o) by (now left). destruct (Nat.eq_dec (snd o) q); lia.
Qed.
Lemma new_cnt_new q : (forall i, In i os -> i < base) -> (forall o, In o (m_ord m) -> fst o < K) -> cnt (flat_map succs_of (seq 0 K)) (base + q) = cnt (map snd (m_ord m)) q.
Proof.
  intros A R. rewrite <- (ord_sum (seq 0 K) q (m_ord m)).
  - induction (seq 0 K) as [|j l IH]; cbn [flat_map]; auto. rewrite !count_occ_app, IH. f_equal. unfold succs_of. destruct (is_last m j) eqn:E; [|apply cnt_map_add].
    rewrite cnt_low by (auto; lia). unfold is_last in E. rewrite forallb_forall in E. destruct (filter (fun o => Nat.eqb (fst o) j) (m_ord m)) as [|o r] eqn:F; auto.
    assert (H : In o (filter (fun o => Nat.eqb (fst o) j) (m_ord m))) by (rewrite F; now left). apply filter_In in H as [H1 H2]. specialize (E o H1). rewrite H2 in E. discriminate.
  - intros o Ho. apply (NoDup_count_occ' Nat.eq_dec); [apply seq_NoDup|]. apply in_seq. specialize (R o Ho). lia.
Qed.
Lemma succs_new_alive j i : (forall o, In o (m_ord m) -> snd o < K) -> In i (succs_of j) -> In i os \/ exists q, i = base + q /\ q < K.
Proof.
  intros R. unfold succs_of. destruct (is_last m j); [auto|]. intros H. apply in_map_iff in H as (o & <- & H). apply filter_In in H as [H _]. right. eauto.
Qed.
End NewSteps.

(** The plan-step store after the pointer counts of a decomposition *)
Open Scope Z_scope.
Lemma new_steps_ok M r m inst os x c0 prims abs : RInv ps_succ M r -> get M x = Some (Some c0) -> ps_succ (c_val c0) = os ->
  (forall o, In o (m_ord m) -> (fst o < length (m_subs m))%nat /\ (snd o < length (m_subs m))%nat) ->
  (forall i, In i (abs ++ prims) -> alive M i \/ exists j, i = (length M + j)%nat /\ (j < length (m_subs m))%nat) ->
  (forall j, In j (first_tasks m) -> In (length M + j)%nat (abs ++ prims)) ->
  exists p1 p2 p3, ofold (inc 1) prims (M ++ new_cells m (length M) inst os) = Some p1 /\ ofold (inc 1) abs p1 = Some p2 /\ ofold (inc (Z.of_nat (length (last_tasks m)))) os p2 = Some p3 /\
    RInv ps_succ p3 ((abs ++ prims) ++ r) /\ length p3 = length (M ++ new_cells m (length M) inst os) /\ (forall k, exists d, get p3 k = bump d (get (M ++ new_cells m (length M) inst os) k)).
Proof.
  intros RI Gx Es RG NW FI. set (N := new_cells m (length M) inst os). set (M0 := M ++ N). set (K := length (m_subs m)) in *.
  assert (LN : length N = K) by apply new_cells_length.
  assert (LI : forall i, alive M i -> (i < length M)%nat) by (intros i (c & G); eapply get_lt; eauto).
  assert (A0 : forall i, alive M i \/ (exists j, i = (length M + j)%nat /\ (j < K)%nat) -> alive M0 i).
  { intros i [(c & G)|(j & -> & Lj)].
    - destruct (grow_app M N i c G) as (c' & G' & _). eexists; exact G'.
    - destruct (new_cells_alive m (length M) inst os j Lj) as (c & G). exists c. unfold M0. rewrite get_app_r. exact G. }
  assert (OA : forall i, In i os -> alive M i) by (intros i Hi; subst os; eapply (ri_succ _ _ _ RI); eauto).
  destruct (incs_ok 1 prims M0) as (p1 & E1 & L1 & B1). { intros i Hi. apply A0, NW. apply in_or_app. auto. }
  destruct (incs_ok 1 abs p1) as (p2 & E2 & L2 & B2). { intros i Hi. apply (alive_bump M0 p1 i _ (B1 i)), A0, NW. apply in_or_app. auto. }
  destruct (incs_ok (Z.of_nat (length (last_tasks m))) os p2) as (p3 & E3 & L3 & B3). { intros i Hi. apply (alive_bump p1 p2 i _ (B2 i)), (alive_bump M0 p1 i _ (B1 i)), A0. auto. }
  assert (B : forall k, get p3 k = bump (Z.of_nat (cnt (abs ++ prims) k) + Z.of_nat (length (last_tasks m) * cnt os k)) (get M0 k)).
  { intros k. rewrite B3, B2, B1, !bump_bump. f_equal. rewrite count_occ_app. lia. }
  assert (B' : forall k, exists d, get p3 k = bump d (get M0 k)) by (intros k; eauto).
  assert (LL : length p3 = length M0) by congruence.
  exists p1, p2, p3. split; auto. split; auto. split; auto. split; [|split; auto].
  assert (OU : outs ps_succ p3 = outs ps_succ M ++ flat_map (succs_of m (length M) os) (seq 0 K)).
  { rewrite (outs_same ps_succ M0 p3 LL) by (intros k z <-; auto). unfold M0. rewrite outs_app. f_equal. apply new_outs. }
  assert (LO : forall i, In i (outs ps_succ M) -> (i < length M)%nat).
  { intros i H. apply in_flat_map in H as ([c|] & Hc & H); [|destruct H]. apply In_nth_error in Hc as (k & Hc). eapply LI, (ri_succ _ _ _ RI); eauto. }
  assert (CM : forall k c, get M0 k = Some (Some c) -> ((k < length M)%nat /\ get M k = Some (Some c)) \/ exists j, k = (length M + j)%nat /\ get N j = Some (Some c)).
  { intros k c G. destruct (Nat.lt_ge_cases k (length M)) as [L|L]; [left; split; auto; unfold M0 in G; now rewrite get_app_l in G|].
    right. exists (k - length M)%nat. assert (Ek : k = (length M + (k - length M))%nat) by lia. split; auto. rewrite Ek in G. unfold M0 in G. now rewrite get_app_r in G. }
  constructor.
  - intros k c G. rewrite B in G. destruct (get M0 k) as [[c1|]|] eqn:G0; cbn [bump] in G; try discriminate. injection G as <-. cbn [c_cnt]. rewrite OU, !count_occ_app.
    apply CM in G0 as [[Lk G0]|(j & -> & G0)].
    + rewrite new_cnt_old by auto. change (length (filter (is_last m) (seq 0 K))) with (length (last_tasks m)). destruct (ri_cnt _ _ _ RI k c1 G0). lia.
    + apply new_cells_get in G0 as (_ & Cc & _ & Lj). rewrite new_cnt_new by (auto; intros o Ho; apply RG, Ho). rewrite Cc.
      rewrite (proj1 (count_occ_not_In Nat.eq_dec (outs ps_succ M) _)) by (intros H; apply LO in H; lia).
      rewrite (proj1 (count_occ_not_In Nat.eq_dec r _)) by (intros H; apply (ri_root _ _ _ RI), LI in H; lia).
      rewrite (proj1 (count_occ_not_In Nat.eq_dec os _)) by (intros H; apply OA, LI in H; lia). split; [lia|].
      destruct (is_first m j) eqn:IF.
      * assert (H : In (length M + j)%nat (abs ++ prims)) by (apply FI, first_tasks_spec; auto). apply (count_occ_In Nat.eq_dec) in H. rewrite count_occ_app in H. lia.
      * assert (H : In j (map snd (m_ord m))). { unfold is_first in IF. destruct (in_dec Nat.eq_dec j (map snd (m_ord m))) as [|NI]; auto. exfalso.
          assert (forallb (fun o : nat * nat => negb (snd o =? j)%nat) (m_ord m) = true); [|congruence]. apply forallb_forall. intros o Ho. apply Bool.negb_true_iff, Nat.eqb_neq. intros <-. apply NI. now apply in_map. }
        apply (count_occ_In Nat.eq_dec) in H. lia.
  - intros k Hk. apply (alive_bump M0 p3 k _ (B k)), A0. apply in_app_or in Hk as [Hk|Hk]; auto. left. apply (ri_root _ _ _ RI), Hk.
  - intros k c G i Hi. apply (alive_bump M0 p3 i _ (B i)), A0. rewrite B in G. destruct (get M0 k) as [[c1|]|] eqn:G0; cbn [bump] in G; try discriminate. injection G as <-. cbn [c_val] in Hi.
    apply CM in G0 as [[Lk G0]|(j & -> & G0)]; [left; eapply (ri_succ _ _ _ RI); eauto|].
    apply new_cells_get in G0 as (_ & _ & Vs & _). rewrite Vs in Hi. apply succs_new_alive in Hi as [Hi|Hi]; auto. intros o Ho. apply RG, Ho.
Qed.
Close Scope Z_scope.

(** ** apply1 *)
Section Lock.
Variables (P : problem) (C : config).
Hypothesis HP : forall l, Permutation l (c_perm C l).

Lemma apply1_lock f v l w lh k n t : corr v l w lh -> In k l -> same_node (v_ss v) k n ->
  match apply1 P (c_perm C) (c_eff C) f w n t with
  | None => mapply1 P (c_perm C) (c_eff C) f v k t = None
  | Some (w', n') => exists v' k', mapply1 P (c_perm C) (c_eff C) f v k t = Some (v', k') /\ corr v' (k' :: l) w' (n' :: lh)
  end.
Proof.
  intros CO Hk [E1 E2 E3 E4 E5 E6 E7 SC]. unfold apply1, mapply1. rewrite <- E3.
  pose proof (co_head _ _ _ _ CO k Hk) as HK. pose proof (co_live _ _ _ _ CO) as LV. pose proof (co_succ _ _ _ _ CO) as SV.
  destruct (get (k_prim k) t) as [x|] eqn:Gx; cbn [obind]; auto.
  assert (Lx : alive (v_ps v) x) by (apply HK; unfold steps; apply in_or_app; right; eapply nth_error_In; exact Gx).
  rewrite <- LV by auto. destruct (proj1 (rd_alive _ _) Lx) as (ps & Ex). rewrite Ex. cbn [obind]. rewrite <- E1.
  destruct (apply_effects P (ps_task ps) (k_state k)) as [s'|]; cbn [obind]; auto.
  rewrite (rnew_eq (rd (v_ps v)) (w_heap w) (alive (v_ps v)) LV SV (c_perm C) f k n t ps E2 E3 HK (SV x ps Lx Ex)).
  destruct (new_firsts (c_perm C) f (w_heap w) n t ps) as [nf|] eqn:EN; cbn [obind]; auto.
  assert (LN : forall i, In i nf -> alive (v_ps v) i).
  { unfold new_firsts in EN. inv_opt. intros i Hi. subst nf. apply (Permutation_in _ (Permutation_sym (HP _))) in Hi. match goal with H : elim_loop _ _ _ _ _ = Some _ |- _ => apply (elim_incl _ _ _ _ _ _ H) in Hi end.
    apply (fold_set_insert (ps_succ ps) [] (NoDup_nil _)) in Hi. destruct Hi as [[]|Hi]. eapply SV; eauto. }
  rewrite (rsplit_eq _ _ _ LV) by auto. destruct (split_prim P (w_heap w) nf) as [[nfp nfa]|] eqn:ES; cbn [obind]; auto.
  destruct (get (p_cost P) (ps_task ps)) as [c|]; cbn [obind]; auto.
  assert (SP : forall i, In i nfp \/ In i nfa -> In i nf). { intros i Hi. apply split_prim_spec in ES as (Q & _). apply (Permutation_in (l := nfp ++ nfa)); [|now apply in_or_app]. now symmetry. }
  assert (LP : forall i, In i (remove_at t (k_prim k) ++ nfp) -> alive (v_ps v) i).
  { intros i Hi. apply in_app_or in Hi as [Hi|Hi]; [|auto]. apply remove_at_incl in Hi. apply HK. unfold steps. apply in_or_app. auto. }
  assert (LA : forall i, In i (k_abs k ++ nfa) -> alive (v_ps v) i).
  { intros i Hi. apply in_app_or in Hi as [Hi|Hi]; [|auto]. apply HK. unfold steps. apply in_or_app. auto. }
  assert (EE : (if c_eff C then reff_indices (rd (v_ps v)) P s' 0 (remove_at t (k_prim k) ++ nfp) else Some (v_eff v)) =
    (if c_eff C then eff_indices P (w_heap w) s' 0 (remove_at t (k_prim k) ++ nfp) else Some (w_eff w))).
  { destruct (c_eff C); [eapply reff_eq; eauto|]. now rewrite (co_eff _ _ _ _ CO). }
  rewrite EE. destruct (if c_eff C then eff_indices P (w_heap w) s' 0 (remove_at t (k_prim k) ++ nfp) else Some (w_eff w)) as [eff|]; cbn [obind]; auto.
  destruct (k_sol k) as [q|] eqn:EQ; cbn [obind]; [|inversion SC; auto].
  assert (NN : n_sol n <> []) by (intros Z; rewrite Z in SC; inversion SC).
  destruct (new_sol_ok (v_ss v) (flat_map sols l) {| ss_task := ps_task ps; ss_method := None; ss_inst := v_inst v; ss_pos := ps_pos ps; ss_parent := ps_parent ps |} (Some q))
    as (S' & ES' & RS & GS & (cn & Gn & Vn) & PR); [apply CO|intros i [<-|[]]; eapply (co_sol _ _ _ _ CO); eauto|apply CO|].
  cbn [ofold ptr] in ES'. apply obind_some in ES' as (S1 & ES' & EI). injection EI as ->. rewrite ES'. cbn [obind].

  destruct (roots_ok ps_succ (remove_at t (k_prim k) ++ nfp) (v_ps v) (flat_map steps l) (co_ps _ _ _ _ CO) LP) as (p1 & EP1 & RI1 & L1 & B1). rewrite EP1. cbn [obind].
  destruct (roots_ok ps_succ (k_abs k ++ nfa) p1 _ RI1) as (p2 & EP2 & RI2 & L2 & B2).
  { intros i Hi. destruct (B1 i) as (d & Bi). apply (alive_bump _ _ _ _ Bi). auto. }
  rewrite EP2. cbn [obind].
  destruct (n_sol n) as [|y tl] eqn:EL; [congruence|]. eexists _, _. split; [reflexivity|].
  constructor; cbn [v_inst v_eff v_iter v_ps v_ss w_inst w_eff w_iter w_heap].
  - now rewrite (co_inst _ _ _ _ CO).
  - reflexivity.
  - apply CO.
  - rewrite L2, L1. apply CO.
  - intros i c' G. destruct (B2 i) as (d2 & Q2). destruct (B1 i) as (d1 & Q1). rewrite Q2, Q1, bump_bump in G. destruct (get (v_ps v) i) as [[c1|]|] eqn:G1; cbn in G; try discriminate. injection G as <-. cbn [c_val]. now apply (co_val _ _ _ _ CO).
  - cbn [flat_map]. unfold steps at 1. cbn [k_abs k_prim]. eapply RInv_eq; [|exact RI2]. intros i. rewrite !count_occ_app. lia.
  - cbn [flat_map]. unfold sols at 1. cbn [k_sol ptr app]. exact RS.
  - exact PR.
  - constructor.
    + constructor; cbn; auto; try congruence. rewrite <- (co_inst _ _ _ _ CO). change {| ss_task := ps_task ps; ss_method := None; ss_inst := v_inst v; ss_pos := ps_pos ps; ss_parent := ps_parent ps |} with
        (fst ({| ss_task := ps_task ps; ss_method := None; ss_inst := v_inst v; ss_pos := ps_pos ps; ss_parent := ps_parent ps |}, Some q)).
      rewrite <- Vn. constructor; [exact Gn|]. rewrite Vn. cbn [snd]. eapply chain_grow; eauto.
    + eapply F2_impl; [|exact (co_nodes _ _ _ _ CO)]. intros a b _ Hab. eapply same_grow; eauto.
Qed.

Lemma decompose1_lock v l w lh k n t mi : corr v l w lh -> In k l -> same_node (v_ss v) k n ->
  match decompose1 P (c_eff C) w n t mi with
  | None => mdecompose1 P (c_eff C) v k t mi = None
  | Some (w', n') => exists v' k', mdecompose1 P (c_eff C) v k t mi = Some (v', k') /\ corr v' (k' :: l) w' (n' :: lh)
  end.
Proof.
  intros CO Hk [E1 E2 E3 E4 E5 E6 E7 SC]. unfold decompose1, mdecompose1. rewrite <- E2, <- E3, <- E1.
  pose proof (co_head _ _ _ _ CO k Hk) as HK. pose proof (co_live _ _ _ _ CO) as LV.
  destruct (get (k_abs k) t) as [x|] eqn:Gx; cbn [obind]; auto.
  assert (Lx : alive (v_ps v) x) by (apply HK; unfold steps; apply in_or_app; left; eapply nth_error_In; exact Gx).
  rewrite <- LV by auto. destruct Lx as (c0 & G0). assert (Ex : rd (v_ps v) x = Some (c_val c0)) by (unfold rd; now rewrite (proj2 (rdc_get _ _ _) G0)). rewrite Ex. cbn [obind].
  destruct (get (p_methods P) mi) as [m|]; cbn [obind]; auto.
  destruct (forallb (fun o => Nat.ltb (fst o) (length (m_subs m)) && Nat.ltb (snd o) (length (m_subs m)))%bool (m_ord m)) eqn:RG; auto.
  assert (RG' : forall o, In o (m_ord m) -> fst o < length (m_subs m) /\ snd o < length (m_subs m)).
  { intros o Ho. rewrite forallb_forall in RG. specialize (RG o Ho). apply andb_prop in RG as [R1 R2]. apply Nat.ltb_lt in R1, R2. auto. }
  rewrite <- (co_len _ _ _ _ CO), <- (co_inst _ _ _ _ CO). set (ps := c_val c0) in *. set (base := length (v_ps v)). set (N := new_cells m base (v_inst v) (ps_succ ps)).
  set (H' := w_heap w ++ method_steps m base (v_inst v) (ps_succ ps)). set (p0 := v_ps v ++ N).
  assert (LEN : length (w_heap w) = base) by (symmetry; apply CO).
  assert (V0 : forall i c, get p0 i = Some (Some c) -> get H' i = Some (c_val c)).
  { intros i c G. destruct (Nat.lt_ge_cases i base) as [L|L].
    - unfold p0 in G. rewrite get_app_l in G by auto. unfold H'. rewrite get_app_l by lia. now apply (co_val _ _ _ _ CO).
    - assert (Ei : i = base + (i - base)) by lia. rewrite Ei in G |- *. unfold p0, base in G. rewrite get_app_r in G. unfold H'. rewrite <- LEN at 2. rewrite get_app_r. apply new_cells_get in G. fold base in G. apply G. }
  assert (LV0 : forall i, alive p0 i -> rd p0 i = get H' i).
  { intros i (c & G). unfold rd. rewrite (proj2 (rdc_get _ _ _) G). cbn. symmetry. auto. }
  assert (LF : forall i, In i (map (fun j => base + j) (first_tasks m)) -> exists j, i = base + j /\ j < length (m_subs m)).
  { intros i Hi. apply in_map_iff in Hi as (j & <- & Hj). apply first_tasks_spec in Hj as [Hj _]. eauto. }
  assert (LF0 : forall i, In i (map (fun j => base + j) (first_tasks m)) -> alive p0 i).
  { intros i Hi. apply LF in Hi as (j & -> & Lj). destruct (new_cells_alive m base (v_inst v) (ps_succ ps) j Lj) as (c & G). exists c. unfold p0, base. rewrite get_app_r. exact G. }
  rewrite (rsplit_eq (rd p0) H' (alive p0) LV0) by auto.
  destruct (split_prim P H' (map (fun j => base + j) (first_tasks m))) as [[fp fa]|] eqn:ES; cbn [obind]; auto.
  assert (SP : forall i, In i (fp ++ fa) <-> In i (map (fun j => base + j) (first_tasks m))). { intros i. apply split_prim_spec in ES as (Q & _). split; intros Hi; [eapply Permutation_in; [symmetry; exact Q|exact Hi]|eapply Permutation_in; [exact Q|exact Hi]]. }
  assert (EE : (if c_eff C then reff_indices (rd p0) P (k_state k) (length (k_prim k)) fp else Some (v_eff v)) =
    (if c_eff C then eff_indices P H' (k_state k) (length (k_prim k)) fp else Some (w_eff w))).
  { destruct (c_eff C); [|now rewrite (co_eff _ _ _ _ CO)]. eapply reff_eq; [exact LV0|]. intros i Hi. apply LF0, SP. apply in_or_app. auto. }
  rewrite EE. destruct (if c_eff C then eff_indices P H' (k_state k) (length (k_prim k)) fp else Some (w_eff w)) as [eff|]; cbn [obind]; auto.
  destruct (new_steps_ok (v_ps v) (flat_map steps l) m (v_inst v) (ps_succ ps) x c0 (k_prim k ++ fp) (remove_at t (k_abs k) ++ fa) (co_ps _ _ _ _ CO) G0 eq_refl RG')
    as (p1 & p2 & p3 & EP1 & EP2 & EP3 & RI & LP & BP).
  { intros i Hi. rewrite !in_app_iff in Hi. unfold steps in HK. setoid_rewrite in_app_iff in HK.
    destruct Hi as [[Hi|Hi]|[Hi|Hi]]; [left; apply HK; left; eapply remove_at_incl; eauto|right; apply LF, SP, in_or_app; auto|left; apply HK; auto|right; apply LF, SP, in_or_app; auto]. }
  { intros j Hj. assert (Hi : In (base + j) (map (fun j => base + j) (first_tasks m))) by (apply in_map_iff; eauto). apply SP in Hi. fold base. rewrite !in_app_iff in *. tauto. }
  fold base N p0 in EP1. rewrite EP1. cbn [obind]. rewrite EP2. cbn [obind]. rewrite EP3. cbn [obind].
  destruct (new_sol_ok (v_ss v) (flat_map sols l) {| ss_task := ps_task ps; ss_method := Some mi; ss_inst := v_inst v; ss_pos := ps_pos ps; ss_parent := ps_parent ps |} (k_sol k))
    as (S' & ES' & RS & GS & (cn & Gn & Vn) & PR); [apply CO|intros i Hi; destruct (k_sol k) eqn:EQ; [destruct Hi as [<-|[]]; eapply (co_sol _ _ _ _ CO); eauto|destruct Hi]|apply CO|].
  rewrite ES'. cbn [obind]. eexists _, _. split; [reflexivity|].
  constructor; cbn [v_inst v_eff v_iter v_ps v_ss w_inst w_eff w_iter w_heap].
  - reflexivity.
  - reflexivity.
  - apply CO.
  - rewrite LP. fold base. unfold H'. rewrite !app_length, new_cells_length, method_steps_length, LEN. reflexivity.
  - intros i c' G. destruct (BP i) as (d & Q). rewrite Q in G. fold base N p0 in G. destruct (get p0 i) as [[c1|]|] eqn:G1; cbn in G; try discriminate. injection G as <-. cbn [c_val]. auto.
  - cbn [flat_map]. unfold steps at 1. cbn [k_abs k_prim]. exact RI.
  - cbn [flat_map]. unfold sols at 1. cbn [k_sol ptr app]. exact RS.
  - exact PR.
  - constructor.
    + constructor; cbn; auto; try congruence. change {| ss_task := ps_task ps; ss_method := Some mi; ss_inst := v_inst v; ss_pos := ps_pos ps; ss_parent := ps_parent ps |} with
        (fst ({| ss_task := ps_task ps; ss_method := Some mi; ss_inst := v_inst v; ss_pos := ps_pos ps; ss_parent := ps_parent ps |}, k_sol k)).
      rewrite <- Vn. constructor; [exact Gn|]. rewrite Vn. cbn [snd]. eapply chain_grow; eauto.
    + eapply F2_impl; [|exact (co_nodes _ _ _ _ CO)]. intros a b _ Hab. eapply same_grow; eauto.
Qed.

(** ** Deleting a node *)
Lemma delete_lock v l1 k l2 w lh1 n lh2 : length l1 = length lh1 -> corr v (l1 ++ k :: l2) w (lh1 ++ n :: lh2) ->
  exists v', delete_node v k = Some v' /\ corr v' (l1 ++ l2) w (lh1 ++ lh2).
Proof.
  intros LL CO. unfold delete_node.
  assert (RP : RInv ps_succ (v_ps v) (k_abs k ++ k_prim k ++ flat_map steps (l1 ++ l2))).
  { eapply RInv_eq; [|exact (co_ps _ _ _ _ CO)]. intros i. rewrite !flat_map_app. cbn [flat_map]. unfold steps at 2. rewrite !count_occ_app. lia. }
  destruct (drops_ok ps_succ _ _ _ RP) as (p1 & E1 & R1 & S1). rewrite E1. cbn [obind].
  destruct (drops_ok ps_succ _ _ _ R1) as (p2 & E2 & R2 & S2). rewrite E2. cbn [obind].
  assert (RS : RInv prev_of (v_ss v) (ptr (k_sol k) ++ flat_map sols (l1 ++ l2))).
  { eapply RInv_eq; [|exact (co_ss _ _ _ _ CO)]. intros i. rewrite !flat_map_app. cbn [flat_map]. unfold sols at 2. rewrite !count_occ_app. lia. }
  destruct (drops_ok prev_of _ _ _ RS) as (s & E3 & R3 & S3). rewrite E3. cbn [obind]. eexists. split; [reflexivity|].
  pose proof (sub_trans _ _ _ S2 S1) as S12.
  constructor; cbn [v_inst v_eff v_iter v_ps v_ss]; try apply CO; auto.
  - rewrite (proj1 S12). apply CO.
  - intros i c G. apply (proj2 S12) in G as (c1 & G & V). rewrite <- V. now apply (co_val _ _ _ _ CO).
  - intros i c G j Hj. apply (proj2 S3) in G as (c1 & G & V). rewrite <- V in Hj. eapply (co_prev _ _ _ _ CO); eauto.
  - pose proof (co_nodes _ _ _ _ CO) as F. apply Forall2_app_inv_l in F as (a & b & Fa & Fb & E). assert (La : length a = length lh1) by (rewrite <- LL; clear - Fa; induction Fa; cbn; auto).
    assert (a = lh1 /\ b = n :: lh2) as [-> ->].
    { clear - E La. revert lh1 La E. induction a as [|y a IH]; intros [|z q] L E; try discriminate; [now split|]. cbn in E. injection E as -> E. destruct (IH q ltac:(cbn in L; lia) E) as [-> ->]. auto. }
    inversion Fb as [|? ? ? ? _ Fb']; subst. eapply F2_impl; [|apply Forall2_app; [exact Fa|exact Fb']].
    intros y z Hy [? ? ? ? ? ? ? Ch]. constructor; auto. eapply chain_sub; [exact S3|exact R3| |exact Ch].
    intros i Hi. apply (ri_root _ _ _ R3). apply in_flat_map. exists y. split; auto. unfold sols. rewrite Hi. now left.
Qed.
Lemma delete_second v k' k l w n' n lh : corr v (k' :: k :: l) w (n' :: n :: lh) -> exists v', delete_node v k = Some v' /\ corr v' (k' :: l) w (n' :: lh).
Proof. intros CO. apply (delete_lock v [k'] k l w [n'] n lh eq_refl CO). Qed.

Lemma corr_iter v l w lh i : corr v l w lh -> corr (mset_iter v i) l (set_iter w i) lh.
Proof. intros [? ? ? ? ? ? ? ? ?]. constructor; auto. Qed.
Lemma corr_same v k l w n lh : corr v (k :: l) w (n :: lh) -> same_node (v_ss v) k n.
Proof. intros CO. pose proof (co_nodes _ _ _ _ CO) as F. now inversion F. Qed.
Lemma eff_first_lock v l w lh : corr v l w lh -> snd (meff_first v) = snd (eff_first w) /\ corr (fst (meff_first v)) l (fst (eff_first w)) lh.
Proof. intros CO. unfold meff_first, eff_first. rewrite (co_eff _ _ _ _ CO). destruct (w_eff w); cbn; split; auto. now apply corr_iter. Qed.
Lemma eff_next_lock v l w lh : corr v l w lh -> snd (meff_next v) = snd (eff_next w) /\ corr (fst (meff_next v)) l (fst (eff_next w)) lh.
Proof. intros CO. unfold meff_next, eff_next. rewrite (co_iter _ _ _ _ CO), (co_eff _ _ _ _ CO). cbn; split; auto. now apply corr_iter. Qed.
Lemma corr_unreachable v k l w n lh : corr v (k :: l) w (n :: lh) -> corr v (mset_unreachable k :: l) w (set_unreachable n :: lh).
Proof.
  intros [? ? ? ? ? R1 R2 ? F]. inversion F as [|? ? ? ? [? ? ? ? ? ? ? ?] F']; subst. constructor; auto. constructor; auto. constructor; auto.
Qed.

Definition locked (l : list mnode) (lh : list node) (x : option (world * node)) (y : option (mworld * mnode)) : Prop :=
  match x with
  | None => y = None
  | Some (w', n') => exists v' k', y = Some (v', k') /\ corr v' (k' :: l) w' (n' :: lh)
  end.

Lemma apply_lock f :
  (forall v l w lh k n t, corr v l w lh -> In k l -> same_node (v_ss v) k n -> locked l lh (apply P C f w n t) (mapply P C f v k t)) /\
  (forall v l w lh k n ac, corr v (k :: l) w (n :: lh) -> locked l lh (eff_loop P C f w n ac) (meff_loop P C f v k ac)).
Proof.
  induction f as [|f [IHa IHe]].
  - split; [intros; reflexivity|]. intros v l w lh k n [i|] CO; cbn; [reflexivity|]. eauto.
  - assert (ON : forall v l w lh k n, corr v (k :: l) w (n :: lh) ->
      locked l lh (if c_one C then match n_abs n, n_prim n with
        | [], _ :: _ => o <- one_applicable P (w_heap w) (n_state n) 0 (n_prim n) OneNone ;; match o with OneIdx i => apply P C f w n i | OneNone => Some (w, set_unreachable n) | OneMany => Some (w, n) end
        | _, _ => Some (w, n) end else Some (w, n))
      (if c_one C then match k_abs k, k_prim k with
        | [], _ :: _ => o <- rone_applicable (rd (v_ps v)) P (k_state k) 0 (k_prim k) OneNone ;;
            match o with OneIdx i => '(v3, r3) <- mapply P C f v k i ;; v4 <- delete_node v3 k ;; Some (v4, r3) | OneNone => Some (v, mset_unreachable k) | OneMany => Some (v, k) end
        | _, _ => Some (v, k) end else Some (v, k))).
    { intros v l w lh k n CO. assert (SM := corr_same _ _ _ _ _ _ CO). destruct (c_one C); [|cbn; eauto]. rewrite <- (sn_abs _ _ _ SM), <- (sn_prim _ _ _ SM), <- (sn_state _ _ _ SM). destruct (k_abs k) eqn:EA; [|cbn; eauto]. destruct (k_prim k) eqn:EP; [cbn; eauto|].
      rewrite (rone_eq (rd (v_ps v)) (w_heap w) (alive (v_ps v)) (co_live _ _ _ _ CO)) by (intros i Hi; apply (co_head _ _ _ _ CO k (or_introl eq_refl)); unfold steps; rewrite EP; apply in_or_app; auto).
      destruct (one_applicable P (w_heap w) (k_state k) 0 (n0 :: l0) OneNone) as [[|i|]|]; cbn [obind]; [|pose proof (IHa v (k :: l) w (n :: lh) k n i CO (or_introl eq_refl) SM) as Q|cbn; eauto|reflexivity].
      - cbn. eexists _, _. split; [reflexivity|]. now apply corr_unreachable.
      - unfold locked in *. destruct (apply P C f w n i) as [[w3 n3]|]; [|now rewrite Q]. destruct Q as (v3 & k3 & Q & CO3). rewrite Q. cbn [obind].
        destruct (delete_second _ _ _ _ _ _ _ _ CO3) as (v4 & D & CO4). rewrite D. cbn [obind]. eauto. }
    split.
    + intros v l w lh k n t CO Hk SM. cbn [apply mapply]. pose proof (apply1_lock f v l w lh k n t CO Hk SM) as Q1.
      destruct (apply1 P (c_perm C) (c_eff C) f w n t) as [[w1 n1]|]; [|rewrite Q1; reflexivity]. destruct Q1 as (v1 & k1 & Q1 & CO1). rewrite Q1. cbn [obind].
      destruct (c_eff C).
      * destruct (eff_first_lock _ _ _ _ CO1) as [EF COF]. destruct (meff_first v1) as [v1' ac]. destruct (eff_first w1) as [w1' ac']. cbn [fst snd] in *. subst ac'.
        pose proof (IHe v1' l w1' lh k1 n1 ac COF) as Q2. unfold locked in Q2. destruct (eff_loop P C f w1' n1 ac) as [[w2 n2]|]; [|rewrite Q2; reflexivity]. destruct Q2 as (v2 & k2 & Q2 & CO2). rewrite Q2. cbn [obind]. now apply ON.
      * cbn [obind]. now apply ON.
    + intros v l w lh k n [i|] CO; cbn [eff_loop meff_loop]; [|cbn; eauto].
      pose proof (IHa v (k :: l) w (n :: lh) k n i CO (or_introl eq_refl) (corr_same _ _ _ _ _ _ CO)) as Q. unfold locked in Q. destruct (apply P C f w n i) as [[w1 n1]|]; [|rewrite Q; reflexivity].
      destruct Q as (v1 & k1 & Q & CO1). rewrite Q. cbn [obind]. destruct (delete_second _ _ _ _ _ _ _ _ CO1) as (v2 & D & CO2). rewrite D. cbn [obind].
      destruct (eff_next_lock _ _ _ _ CO2) as [EN CON]. destruct (meff_next v2) as [v3 ac]. destruct (eff_next w1) as [w3 ac']. cbn [fst snd] in *. subst ac'. now apply IHe.
Qed.

Lemma one_mod_lock f v l w lh k n : corr v (k :: l) w (n :: lh) -> locked l lh (one_mod P C f w n) (mone_mod P C f v k).
Proof.
  intros CO. assert (SM := corr_same _ _ _ _ _ _ CO). unfold one_mod, mone_mod. destruct (c_one C); [|cbn; eauto]. rewrite <- (sn_abs _ _ _ SM), <- (sn_prim _ _ _ SM), <- (sn_state _ _ _ SM). destruct (k_abs k) eqn:EA; [|cbn; eauto]. destruct (k_prim k) eqn:EP; [cbn; eauto|].
  rewrite (rone_eq (rd (v_ps v)) (w_heap w) (alive (v_ps v)) (co_live _ _ _ _ CO)) by (intros i Hi; apply (co_head _ _ _ _ CO k (or_introl eq_refl)); unfold steps; rewrite EP; apply in_or_app; auto).
  destruct (one_applicable P (w_heap w) (k_state k) 0 (n0 :: l0) OneNone) as [[|i|]|]; cbn [obind]; [|pose proof (proj1 (apply_lock f) v (k :: l) w (n :: lh) k n i CO (or_introl eq_refl) SM) as Q|cbn; eauto|reflexivity].
  - cbn. eexists _, _. split; [reflexivity|]. now apply corr_unreachable.
  - unfold locked in *. destruct (apply P C f w n i) as [[w3 n3]|]; [|now rewrite Q]. destruct Q as (v3 & k3 & Q & CO3). rewrite Q. cbn [obind].
    destruct (delete_second _ _ _ _ _ _ _ _ CO3) as (v4 & D & CO4). rewrite D. cbn [obind]. eauto.
Qed.

Lemma decompose_lock f v l w lh k n t mi : corr v l w lh -> In k l -> same_node (v_ss v) k n -> locked l lh (decompose P C f w n t mi) (mdecompose P C f v k t mi).
Proof.
  intros CO Hk SM. unfold decompose, mdecompose. pose proof (decompose1_lock v l w lh k n t mi CO Hk SM) as Q1.
  destruct (decompose1 P (c_eff C) w n t mi) as [[w1 n1]|]; [|rewrite Q1; reflexivity]. destruct Q1 as (v1 & k1 & Q1 & CO1). rewrite Q1. cbn [obind].
  destruct (c_eff C).
  - destruct (eff_first_lock _ _ _ _ CO1) as [EF COF]. destruct (meff_first v1) as [v1' ac]. destruct (eff_first w1) as [w1' ac']. cbn [fst snd] in *. subst ac'.
    pose proof (proj2 (apply_lock f) v1' l w1' lh k1 n1 ac COF) as Q2. unfold locked in Q2. destruct (eff_loop P C f w1' n1 ac) as [[w2 n2]|]; [|rewrite Q2; reflexivity]. destruct Q2 as (v2 & k2 & Q2 & CO2). rewrite Q2. cbn [obind]. now apply one_mod_lock.
  - cbn [obind]. now apply one_mod_lock.
Qed.

Lemma init_lock : match init_node P with None => minit P = None | Some (w, n) => exists v k, minit P = Some (v, k) /\ corr v [k] w [n] end.
Proof.
  unfold init_node, minit. destruct (write_all true (p_s0 P) (repeat false (p_nfacts P))) as [s|]; cbn [obind]; auto. eexists _, _. split; [reflexivity|].
  constructor; cbn [v_inst v_eff v_iter v_ps v_ss w_inst w_eff w_iter w_heap]; auto.
  - intros [|[|i]] c G; cbn in G; try discriminate. injection G as <-. reflexivity.
  - constructor.
    + intros [|[|i]] c G; cbn in G; try discriminate. injection G as <-. cbn. split; auto; lia.
    + intros i [<-|[]]. eexists; reflexivity.
    + intros [|[|i]] c G; cbn in G; try discriminate. injection G as <-. intros j [].
  - constructor; [intros [|i] c G; discriminate|intros i []|intros [|i] c G; discriminate].
  - intros [|i] c G; discriminate.
  - constructor; [|constructor]. constructor; auto. constructor.
Qed.

Lemma F2_in {A B} (R : A -> B -> Prop) l l' a : Forall2 R l l' -> In a l -> exists b, In b l' /\ R a b.
Proof. induction 1 as [|x y l l' H F IH]; intros Ha; [destruct Ha|]. destruct Ha as [->|Ha]; [exists y; split; auto; now left|]. destruct (IH Ha) as (b & Hb & Rb). exists b. split; auto. now right. Qed.

(** ** Every history of the stores is a history of Htn_model *)
Lemma mhistory_corr v l : mhistory P C v l -> exists w lh, history P C w lh /\ corr v l w lh.
Proof.
  induction 1 as [v n E|v l k i x tk fuel v' k' MH (w & lh & HH & CO) Hk NA Gx Tx AP E|v l k i x tk mi fuel v' k' MH (w & lh & HH & CO) Hk Gx Tx Hm E|v l1 k l2 v' MH (w & lh & HH & CO) E].
  - pose proof init_lock as Q. destruct (init_node P) as [[w m]|] eqn:EI; [|congruence]. destruct Q as (v0 & k0 & Q & CO). rewrite E in Q. injection Q as <- <-. exists w, [m]. split; auto. now constructor.
  - destruct (F2_in _ _ _ _ (co_nodes _ _ _ _ CO) Hk) as (n & Hn & SM). pose proof (proj1 (apply_lock fuel) v l w lh k n i CO Hk SM) as Q. unfold locked in Q. rewrite E in Q.
    destruct (apply P C fuel w n i) as [[w' n']|] eqn:EA; [|discriminate]. destruct Q as (v1 & k1 & Q & CO'). injection Q as <- <-. exists w', (n' :: lh). split; auto.
    rewrite (rtask_eq _ _ _ (co_live _ _ _ _ CO)) in Tx by (apply (co_head _ _ _ _ CO k Hk); apply in_or_app; right; eapply nth_error_In; exact Gx).
    eapply h_apply; eauto; [rewrite <- (sn_abs _ _ _ SM); auto|rewrite <- (sn_prim _ _ _ SM); auto|rewrite <- (sn_state _ _ _ SM); auto].
  - destruct (F2_in _ _ _ _ (co_nodes _ _ _ _ CO) Hk) as (n & Hn & SM). pose proof (decompose_lock fuel v l w lh k n i mi CO Hk SM) as Q. unfold locked in Q. rewrite E in Q.
    destruct (decompose P C fuel w n i mi) as [[w' n']|] eqn:EA; [|discriminate]. destruct Q as (v1 & k1 & Q & CO'). injection Q as <- <-. exists w', (n' :: lh). split; auto.
    rewrite (rtask_eq _ _ _ (co_live _ _ _ _ CO)) in Tx by (apply (co_head _ _ _ _ CO k Hk); apply in_or_app; left; eapply nth_error_In; exact Gx).
    eapply h_decompose; eauto. rewrite <- (sn_abs _ _ _ SM); auto.
  - pose proof (co_nodes _ _ _ _ CO) as F. apply Forall2_app_inv_l in F as (a & b & Fa & Fb & EL). inversion Fb as [|? n ? lh2 SM Fb']; subst.
    destruct (delete_lock v l1 k l2 w a n lh2) as (v1 & E1 & CO1); [clear - Fa; induction Fa; cbn; auto|exact CO|]. rewrite E in E1. injection E1 as <-. exists w, (a ++ lh2). split; auto.
    eapply h_forget; [exact HH|]. intros y Hy. apply in_app_or in Hy as [Hy|Hy]; apply in_or_app; auto. right. now right.
Qed.
End Lock.
