(** C15: strongly connected components; C16: graph queries; C50: reachable tasks; C57: cyclicity of components. *)
From Coq Require Import Relations Sorted.
From Verif Require Import Base Rel Htn_model Htn_spec Htn_sem Htn_rep Htn_history Htn_search Htn_hist Htn_proof Htn_thm.
From Verif Require Import Scc_spec Scc_model Tab_proof Scc_proof Reach_proof ReachHeap_proof.

(** [t'] is the name of a task of some network that results from decomposing a task [t]. *)
Definition occurs_in_decomposition (P : problem) (t t' : nat) : Prop :=
  exists tn y, refines P (single [] t) tn /\ t_in tn y /\ t_lab tn y = t'.

(** Every task can be reached from the initial task (the planner relies on it, Model.cpp 2282). *)
Definition connected (P : problem) : Prop := forall t, t < length (p_prim P) -> occurs_in_decomposition P (p_init P) t.

Lemma single_wf x t : wf_tn (single x t).
Proof.
  split; cbn; try easy. intros a b -> ->; auto.
Qed.

Lemma occurs_reach P t t' : wf_problem P -> t < length (p_prim P) ->
  occurs_in_decomposition P t t' <-> reach (task_graph P) t t'.
Proof.
  intros WP L. split.
  - intros (tn & y & R & I & <-). destruct (refines_labels P (single [] t) tn WP) with (y := y) as (x & _ & Q); auto.
  - intros R. apply (reach_refines P t t' WP L R (single [] t) []); auto; [apply single_wf|reflexivity].
Qed.

(** ** C15 *)

(** disabling_graph.cpp: all vertices. The contents of the fresh arrays dfsI and lowlink do not matter. *)
Theorem graph_sccs_exact : forall G dfsI lowlink, graph_wf G -> length dfsI = length G -> length lowlink = length G ->
  exists st, scc_all G dfsI lowlink = Some st /\ components G (fun v => v < length G) (t_scc st) (t_num st).
Proof. intros. now apply scc_all_ok. Qed.

(** Model.cpp: the vertices reachable from one vertex; the others get no number. *)
Theorem sccs_from_exact : forall G v0 dfsI lowlink, graph_wf G -> v0 < length G -> length dfsI = length G -> length lowlink = length G ->
  exists st, scc_from G v0 dfsI lowlink = Some st /\ components G (reach G v0) (t_scc st) (t_num st).
Proof. intros. now apply scc_from_ok. Qed.

(** In terms of decompositions: two tasks have the same number iff each occurs in a decomposition of the other, and decomposition
    never leads to a higher number. *)
Theorem task_sccs_exact : forall P dfsI lowlink, wf_problem P -> connected P ->
  length dfsI = length (p_prim P) -> length lowlink = length (p_prim P) ->
  exists C, calcSCCs (task_graph P) (p_init P) dfsI lowlink = Some C /\
    (forall t, t < length (p_prim P) -> exists k, nth_error (s_of C) t = Some (Some k) /\ k < s_num C) /\
    (forall t t' k k', nth_error (s_of C) t = Some (Some k) -> nth_error (s_of C) t' = Some (Some k') ->
       (k = k' <-> occurs_in_decomposition P t t' /\ occurs_in_decomposition P t' t)) /\
    (forall t t' k k', nth_error (s_of C) t = Some (Some k) -> nth_error (s_of C) t' = Some (Some k') ->
       occurs_in_decomposition P t t' -> k' <= k) /\
    (forall k row, nth_error (s_tasks C) k = Some row -> StronglySorted lt row /\ forall t, In t row <-> nth_error (s_of C) t = Some (Some k)).
Proof.
  intros P d l WP CN Ld Ll. assert (Li : p_init P < length (p_prim P)) by (apply nth_error_Some; rewrite (wf_init _ WP); discriminate).
  destruct (calcSCCs_ok (task_graph P) (p_init P) d l) as (C & E & OK); rewrite ?task_graph_len; auto using task_graph_wf.
  { intros v Lv. apply occurs_reach; auto. }
  exists C. split; auto. destruct (so_comp _ _ OK) as [C1 C2 C3 C4 C5 C6]. rewrite task_graph_len in *.
  assert (LT : forall t k, nth_error (s_of C) t = Some (Some k) -> t < length (p_prim P)).
  { intros t k H. rewrite <- C1. apply nth_error_Some. congruence. }
  split; [|split; [|split]].
  - intros t Lt. destruct (proj1 (C2 t) Lt) as (k & Hk). exists k. split; eauto.
  - intros t t' k k' H H'. rewrite (C5 t t' k k' H H'). rewrite !occurs_reach by eauto. reflexivity.
  - intros t t' k k' H H' O. rewrite occurs_reach in O by eauto. revert k k' H H'. induction O as [v|u v w Ed R IH]; intros k k' H H'.
    + assert (k = k') by congruence. lia.
    + destruct (C6 u v k H Ed) as (k2 & H2 & L2). specialize (IH k2 k' H2 H'). lia.
  - intros k row Hr. destruct (so_tasks _ _ OK) as [LTs HT].
    assert (Lk : k < s_num C). { rewrite <- LTs. apply nth_error_Some. congruence. }
    specialize (HT k Lk). unfold get in HT. rewrite Hr in HT. injection HT as ->. split; [|apply members_in].
    unfold members. clear. generalize (length (s_of C)) as n. generalize 0 as o. intros o n. revert o.
    induction n as [|n IH]; intros o; cbn; [constructor|]. destruct (isk k (nth o (s_of C) None)); [|apply IH]. constructor; [apply IH|].
    rewrite Forall_forall. intros x Hx. apply filter_In in Hx as [Hx _]. apply in_seq in Hx. lia.
Qed.

(** A task that cannot be reached from the initial task leads to an access outside the arrays. *)
Theorem unreachable_task_undefined : forall G v0 v dfsI lowlink, graph_wf G -> v0 < length G -> v < length G -> ~ reach G v0 v ->
  length dfsI = length G -> length lowlink = length G -> calcSCCs G v0 dfsI lowlink = None.
Proof.
  intros G v0 v d l WF L0 L NR Ld Ll. unfold calcSCCs. destruct (scc_from_ok G WF v0 d l L0 Ld Ll) as (st & -> & CP). cbn [obind].
  assert (N : nth_error (t_scc st) v = Some None).
  { destruct (nth_error (t_scc st) v) as [[k|]|] eqn:E; auto.
    - exfalso. apply NR. apply (c_dom _ _ _ _ CP). eauto.
    - apply nth_error_None in E. rewrite (c_len _ _ _ _ CP) in E. lia. }
  assert (scc_sizes (t_num st) (t_scc st) = None) as ->; [|reflexivity].
  unfold scc_sizes. apply nth_error_split in N as (l1 & l2 & -> & _). rewrite ofold_app.
  destruct (ofold _ l1 _) as [[sz c]|]; reflexivity.
Qed.

(** ** C57: cyclicity *)

(** The components listed as cyclic are exactly those in which some task can be reached from itself by at least one decomposition; a
    component is flagged acyclic iff no such task can be reached from it. *)
Theorem cyclic_sccs_exact : forall P dfsI lowlink, wf_problem P -> connected P ->
  length dfsI = length (p_prim P) -> length lowlink = length (p_prim P) ->
  exists C S Pr a, calcSCCs (task_graph P) (p_init P) dfsI lowlink = Some C /\ scc_graph (task_graph P) C = Some (S, Pr) /\ scc_acyclic C S = Some a /\
    NoDup (s_cyclic C) /\
    (forall k, In k (s_cyclic C) <-> exists t t', nth_error (s_of C) t = Some (Some k) /\ Scc_spec.edge (task_graph P) t t' /\ reach (task_graph P) t' t) /\
    (forall t k, nth_error (s_of C) t = Some (Some k) -> exists b, nth_error a k = Some b /\
       (b = true <-> ~ exists u w, reach (task_graph P) t u /\ Scc_spec.edge (task_graph P) u w /\ reach (task_graph P) w u)).
Proof.
  intros P d l WP CN Ld Ll. assert (Li : p_init P < length (p_prim P)) by (apply nth_error_Some; rewrite (wf_init _ WP); discriminate).
  assert (WF := task_graph_wf P WP).
  destruct (calcSCCs_ok (task_graph P) (p_init P) d l) as (C & E & OK); rewrite ?task_graph_len; auto.
  { intros v Lv. apply occurs_reach; auto. }
  destruct (scc_graph_ok _ WF C OK) as (Sc & Pr & EG & RO). destruct (scc_acyclic_ok _ WF C OK Sc Pr RO) as (a & Ea & La & Ha).
  exists C, Sc, Pr, a. split; auto. split; auto. split; auto. destruct (so_cyclic _ _ OK) as [NC HC]. split; auto. split.
  - intros k. rewrite HC. unfold cyclic, comp. split; [intros [_ H]; exact H|]. intros H. split; [|exact H].
    destruct H as (t & _ & H & _). eapply (c_lt _ _ _ _ (so_comp _ _ OK)); eauto.
  - intros t k H. assert (Lk : k < s_num C) by (eapply (c_lt _ _ _ _ (so_comp _ _ OK)); eauto).
    destruct (get_some a k) as (b & Eb); [lia|]. exists b. split; auto. exact (Ha t k b H Eb).
Qed.

(** ** C16 *)
Theorem can_reach_any_of_exact : forall G from to, graph_wf G -> (forall v, In v from -> v < length G) ->
  exists b, can_reach_any_of G from to = Some b /\ (b = true <-> exists v w, In v from /\ In w to /\ reach G v w).
Proof. intros. now apply can_reach_any_of_ok. Qed.

Theorem can_reach_any_of_directly_exact : forall G from to, (forall v, In v from -> v < length G) ->
  exists b, can_reach_any_of_directly G from to = Some b /\ (b = true <-> exists v w, In v from /\ In w to /\ (v = w \/ Scc_spec.edge G v w)).
Proof. intros. now apply can_reach_directly_ok. Qed.

(** ** C50 *)

(** The table of calcSCCGraph: row [t] holds exactly the tasks below [last] (numActions when only actions are tracked, numTasks when
    all tasks are) that occur in some decomposition of [t], in ascending order. *)
Theorem reachable_tasks_exact : forall P dfsI lowlink last, wf_problem P -> connected P ->
  length dfsI = length (p_prim P) -> length lowlink = length (p_prim P) ->
  exists C R, calcSCCs (task_graph P) (p_init P) dfsI lowlink = Some C /\ reach_table (task_graph P) C last = Some R /\
    length R = length (p_prim P) /\
    forall t, t < length (p_prim P) -> exists r, nth_error R t = Some (Some r) /\ StronglySorted lt r /\
      forall t', In t' r <-> t' < last /\ occurs_in_decomposition P t t'.
Proof.
  intros P d l last WP CN Ld Ll. assert (Li : p_init P < length (p_prim P)) by (apply nth_error_Some; rewrite (wf_init _ WP); discriminate).
  assert (WF := task_graph_wf P WP).
  destruct (calcSCCs_ok (task_graph P) (p_init P) d l) as (C & E & OK); rewrite ?task_graph_len; auto.
  { intros v Lv. apply occurs_reach; auto. }
  destruct (reach_table_ok (task_graph P) C last WF OK) as (R & ER & LR & HR). rewrite task_graph_len in *.
  exists C, R. split; auto. split; auto. split; auto. intros t Lt. destruct (HR t Lt) as (r & Er & Ar & Ir).
  exists r. split; auto. split; auto. intros t'. rewrite Ir, occurs_reach by auto. reflexivity.
Qed.

(** The rows stored with the plan steps, as they evolve: steps are created without a row, and rows are computed for the ready steps of
    nodes. *)
Inductive step_rows (P : problem) (C : config) (R : list (option (list nat))) (last : nat) : world -> list (option (list nat)) -> Prop :=
| sr_start : forall w n, init_node P = Some (w, n) -> step_rows P C R last w (repeat None (length (w_heap w)))
| sr_grow : forall w M w' l' e, step_rows P C R last w M -> history P C w' l' -> w_heap w' = w_heap w ++ e ->
    step_rows P C R last w' (M ++ repeat None (length e))
| sr_update : forall w M n s tn pi M', step_rows P C R last w M -> Rep P (w_heap w) n s tn pi ->
    update_reach R last (w_heap w) (length (w_heap w)) M n = Some M' -> step_rows P C R last w M'.

Lemma step_rows_ok P C R last w M : wf_problem P -> config_ok C ->
  (forall t, t < length (task_graph P) -> exists r, get R t = Some (Some r) /\ StronglySorted lt r /\ forall t', In t' r <-> t' < last /\ reach (task_graph P) t t') ->
  step_rows P C R last w M -> wf_heap P (w_heap w) /\ memo_ok P last (w_heap w) M.
Proof.
  intros WP HC HR H. induction H as [w n E|w M w' l' e H [IW IM] Hh E|w M n s tn pi M' H [IW IM] RP E].
  - destruct (history_ok P C WP HC w [n]) as (W & _); [now apply h_init|]. split; auto. split; [apply repeat_length|].
    intros i r Q. apply nth_error_In in Q. apply repeat_spec in Q. discriminate.
  - destruct (history_ok P C WP HC w' l' Hh) as (W & _). split; auto. rewrite E. apply memo_ok_ext; auto.
  - split; auto. destruct (update_reach_ok P WP last R HR (w_heap w) IW M n s tn pi IM RP) as (M2 & E2 & HM & _). congruence.
Qed.

(** For every node of a history the update succeeds, and the rows of the ready steps then name exactly those tasks (below [last])
    that occur in some decomposition of the step or of a step ordered behind it. *)
Theorem step_rows_exact : forall P C dfsI lowlink last SC R w l M n s tn pi, wf_problem P -> connected P -> config_ok C ->
  length dfsI = length (p_prim P) -> length lowlink = length (p_prim P) ->
  calcSCCs (task_graph P) (p_init P) dfsI lowlink = Some SC -> reach_table (task_graph P) SC last = Some R ->
  step_rows P C R last w M -> history P C w l -> In n l -> Rep P (w_heap w) n s tn pi ->
  exists M', update_reach R last (w_heap w) (length (w_heap w)) M n = Some M' /\ step_rows P C R last w M' /\
    forall i, In i (n_abs n ++ n_prim n) -> exists r, nth_error M' i = Some (Some r) /\ NoDup r /\
      forall t', In t' r <-> t' < last /\ exists x, t_in tn x /\ (x = pi i \/ t_ord tn (pi i) x) /\ occurs_in_decomposition P (t_lab tn x) t'.
Proof.
  intros P C d lo last SC R w l M n s tn pi WP CN HC Ld Ll ES ER HM Hh Hn RP.
  destruct (reachable_tasks_exact P d lo last WP CN Ld Ll) as (SC' & R' & ES' & ER' & LR & HR). assert (SC' = SC) by congruence. subst SC'.
  assert (R' = R) by congruence. subst R'.
  assert (HR' : forall t, t < length (task_graph P) -> exists r, get R t = Some (Some r) /\ StronglySorted lt r /\ forall t', In t' r <-> t' < last /\ reach (task_graph P) t t').
  { intros t Lt. rewrite task_graph_len in Lt. destruct (HR t Lt) as (r & E & A & I). exists r. split; auto. split; auto. intros t'. rewrite I, occurs_reach by auto. reflexivity. }
  destruct (step_rows_ok P C R last w M WP HC HR' HM) as [WH MO].
  destruct (update_reach_ok P WP last R HR' (w_heap w) WH M n s tn pi MO RP) as (M' & E & MO' & _ & Hr).
  exists M'. split; auto. split; [eapply sr_update; eauto|]. intros i Hi. destruct (Hr i Hi) as (r & Er & ND & Ir). exists r. split; auto. split; auto.
  assert (LI := live_head (w_heap w) n i Hi).
  intros t'. rewrite Ir. apply and_iff_compat_l. split.
  - intros (j & ps & Rj & Gj & Q). assert (Lj := live_step _ _ _ _ LI Rj). exists (pi j). split; [apply (r_in _ _ _ _ _ _ RP); eauto|].
    assert (Lab := r_lab _ _ _ _ _ _ RP j ps Lj Gj). split.
    + apply rtc_cases in Rj as [->|Rj]; auto. right. now apply (r_ord _ _ _ _ _ _ RP).
    + rewrite Lab. apply occurs_reach; auto. eapply (wh_task _ _ WH); eauto.
  - intros (x & Hx & Hox & O). apply (r_in _ _ _ _ _ _ RP) in Hx as (j & Lj & <-).
    assert (LT : j < length (w_heap w)) by (eapply live_lt; eauto; apply RP).
    destruct (get_some (w_heap w) j LT) as (ps & Gj). assert (Lab := r_lab _ _ _ _ _ _ RP j ps Lj Gj). rewrite Lab in O.
    exists j, ps. split; [|split; auto; apply occurs_reach in O; auto; eapply (wh_task _ _ WH); eauto].
    destruct Hox as [Hox|Hox].
    + apply (r_inj _ _ _ _ _ _ RP) in Hox; auto. subst. apply rt_refl.
    + apply (r_ord _ _ _ _ _ _ RP) in Hox; auto. clear - Hox. induction Hox; [now apply rt_step|]. eapply rt_trans; eauto.
Qed.

Module Ex.
  (** A graph with components {0,1,2}, {3}, {4,5}. *)
  Definition g : list (list nat) := [[1]; [2; 3]; [0]; [4]; [5]; [4]].
  Example g_ex : option_map (fun st => (t_scc st, t_num st)) (scc_all g (repeat 7 6) (repeat 9 6)) = Some ([Some 2; Some 2; Some 2; Some 1; Some 0; Some 0], 3).
  Proof. vm_compute. reflexivity. Qed.
  Example g_wf : graph_wf g.
  Proof. intros v w (row & H & Hw). do 6 (destruct v as [|v]; [injection H as <-; cbn in Hw |- *; lia|]). destruct v; discriminate. Qed.
  Example q_ex : can_reach_any_of g [3; 4] [0; 3] = Some true /\ can_reach_any_of g [4] [0; 3] = Some false /\ can_reach_any_of_directly g [3] [5] = Some false.
  Proof. vm_compute. auto. Qed.
  Example unreachable_ex : calcSCCs g 3 (repeat 0 6) (repeat 0 6) = None.
  Proof. vm_compute. reflexivity. Qed.

  (** 3 -> [4; 3; 4] or [2]; 4 -> [0; 5] or [1]; 5 -> [0]. *)
  Definition prob : problem :=
    {| p_nfacts := 1; p_prim := [true; true; true; false; false; false];
       p_prec := [[]; []; []]; p_add := [[0]; [0]; []]; p_del := [[]; []; []]; p_cost := [1; 1; 1];
       p_methods := [ {| m_task := 3; m_subs := [4; 3; 4]; m_ord := [(0, 1)] |};
                      {| m_task := 3; m_subs := [2]; m_ord := [] |};
                      {| m_task := 4; m_subs := [0; 5]; m_ord := [] |};
                      {| m_task := 4; m_subs := [1]; m_ord := [] |};
                      {| m_task := 5; m_subs := [0]; m_ord := [] |} ];
       p_init := 3; p_s0 := []; p_goal := [0] |}.

  Lemma wf : wf_problem prob.
  Proof.
    split; simpl; auto.
    - intros t H. do 6 (destruct t as [|t]; simpl in H; [first [lia|discriminate]|]). destruct t; discriminate.
    - intros l f [H|[H|H]] Hf; repeat (destruct H as [<-|H]; [simpl in Hf; intuition lia|]); destruct H.
    - intros f [].
    - intros f [<-|[]]. lia.
    - assert (Q0 : forall t s j, ~ m_lt {| m_task := t; m_subs := s; m_ord := [] |} j j).
      { intros t s j H. induction H as [a b Q|a b c _ IH1 _ IH2]; [destruct Q|auto]. }
      assert (Q1 : forall j, ~ m_lt {| m_task := 3; m_subs := [4; 3; 4]; m_ord := [(0, 1)] |} j j).
      { assert (Q : forall a b, m_lt {| m_task := 3; m_subs := [4; 3; 4]; m_ord := [(0, 1)] |} a b -> a = 0 /\ b = 1).
        { intros a b Q. induction Q as [a b Q|a b c _ IH1 _ IH2]; [destruct Q as [[= <- <-]|[]]; auto|lia]. }
        intros j H. apply Q in H. lia. }
      intros m [<-|[<-|[<-|[<-|[<-|[]]]]]]; split; simpl; auto; try discriminate; try (intros; intuition lia); try (intros; intuition; subst; lia).
      intros j k [[= <- <-]|[]]. lia.
  Qed.

  Lemma prob_connected : connected prob.
  Proof.
    intros t Lt. apply occurs_reach; [apply wf|cbn; lia|].
    assert (E : forall a b, In b (nth a (task_graph prob) []) -> a < 6 -> Scc_spec.edge (task_graph prob) a b).
    { intros a b I L. exists (nth a (task_graph prob) []). split; auto. apply nth_error_nth'. exact L. }
    assert (E4 : reach (task_graph prob) 3 4) by (eapply reach_step; [apply (E 3 4); [vm_compute; tauto|lia]|apply reach_refl]).
    assert (E' : forall b, In b (nth 4 (task_graph prob) []) -> reach (task_graph prob) 3 b).
    { intros b H. eapply reach_trans; [exact E4|]. eapply reach_step; [apply (E 4 b); auto; lia|apply reach_refl]. }
    cbn in Lt. assert (Q : In t [0; 1; 2; 3; 4; 5]) by (cbn; lia). repeat destruct Q as [<-|Q]; [..|destruct Q]; auto; try apply reach_refl;
      try (apply E'; vm_compute; tauto). eapply reach_step; [apply (E 3 2); [vm_compute; tauto|lia]|apply reach_refl].
  Qed.

  Example sccs_ex : option_map (fun C => (s_of C, s_tasks C, s_cyclic C)) (calcSCCs (task_graph prob) 3 (repeat 0 6) (repeat 0 6))
    = Some ([Some 0; Some 2; Some 4; Some 5; Some 3; Some 1], [[0]; [5]; [1]; [4]; [2]; [3]], [5]).
  Proof. vm_compute. reflexivity. Qed.

  Example rows_ex : (C <- calcSCCs (task_graph prob) 3 (repeat 0 6) (repeat 0 6) ;; reach_table (task_graph prob) C 3)
    = Some [Some [0]; Some [1]; Some [2]; Some [0; 1; 2]; Some [0; 1]; Some [0]].
  Proof. vm_compute. reflexivity. Qed.

  Definition conf : config := {| c_eff := false; c_one := false; c_perm := fun l => l |}.
  (** The rows of the plan steps after one decomposition: step 0 is the initial task, 1 and 3 are the ready steps (both named 4),
      step 2 (named 3) is ordered behind step 1. *)
  Example steps_ex :
    (C <- calcSCCs (task_graph prob) 3 (repeat 0 6) (repeat 0 6) ;;
     R <- reach_table (task_graph prob) C 3 ;;
     '(w0, n0) <- init_node prob ;;
     M0 <- update_reach R 3 (w_heap w0) (length (w_heap w0)) (repeat None (length (w_heap w0))) n0 ;;
     '(w1, n1) <- decompose prob conf 5 w0 n0 0 0 ;;
     M1 <- update_reach R 3 (w_heap w1) (length (w_heap w1)) (M0 ++ repeat None 3) n1 ;;
     Some (n_abs n1, M1)) = Some ([1; 3], [Some [0; 1; 2]; Some [0; 1; 2]; Some [0; 1; 2]; Some [0; 1]]).
  Proof. vm_compute. reflexivity. Qed.
End Ex.

Print Assumptions graph_sccs_exact.
Print Assumptions sccs_from_exact.
Print Assumptions task_sccs_exact.
Print Assumptions unreachable_task_undefined.
Print Assumptions cyclic_sccs_exact.
Print Assumptions can_reach_any_of_exact.
Print Assumptions can_reach_any_of_directly_exact.
Print Assumptions reachable_tasks_exact.
Print Assumptions step_rows_exact.
