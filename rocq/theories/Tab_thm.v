(** Theorems about the tables derived from the methods (C18) and the tables of contained tasks (C08). Proofs are in Tab_proof. *)
From Coq Require Import Sorted.
From Verif Require Import Base IntUtil_proof Htn_model Htn_spec Htn_rep Htn_history Htn_search Htn_thm Tab_model Tab_proof.

Definition ascending (l : list Z) : Prop := StronglySorted Z.lt l.

Lemma sasc_ascending l : sasc l <-> ascending l.
Proof.
  split.
  - induction 1 as [|x l H S IH]; constructor; auto. now apply Forall_forall.
  - induction 1 as [|x l H IH F]; constructor; auto. now apply Forall_forall.
Qed.

(** ** C18 *)

(** The table of distinct subtasks with multiplicities: ascending, and exactly the subtasks with their numbers. *)
Theorem distinct_subtasks_exact : forall subs,
  exists D, distinct_table subs = Some D /\ ascending (map fst D) /\
    forall z c, In (z, c) D <-> exists t, z = Z.of_nat t /\ In t subs /\ c = Z.of_nat (count_occ Nat.eq_dec subs t).
Proof.
  intros subs. destruct (distinct_table_ok subs) as (D & E & T). exists D. split; auto.
  apply table_ok_iff in T as [S I]. split; [now apply sasc_ascending|exact I].
Qed.

(** stToMethod: row [t] lists ascendingly exactly the methods with subtask [t], stToMethodNum its length. *)
Theorem st_to_method_exact : forall P, wf_problem P ->
  exists rows num, st_table P = Some (rows, num) /\
    forall t, t < length (p_prim P) -> exists row, get rows t = Some row /\ get num t = Some (length row) /\ ascending row /\
      forall z, In z row <-> exists m md, z = Z.of_nat m /\ nth_error (p_methods P) m = Some md /\ In t (m_subs md).
Proof.
  intros P WP. destruct (st_table_ok P) as (rows & num & E & H).
  - intros m t Hm. apply (wfm_subs _ _ (wf_methods _ WP m Hm)).
  - exists rows, num. split; auto. intros t Ht. destruct (H t Ht) as (row & G & N & S & I). exists row.
    split; auto. split; auto. split; [now apply sasc_ascending|exact I].
Qed.

(** taskToMethods: row [t] lists exactly the methods decomposing [t], in ascending order. *)
Theorem task_to_methods_exact : forall P, wf_problem P ->
  exists T, ttm_table P = Some T /\
    forall t, t < length (p_prim P) -> get T t = Some (task_to_methods P t) /\ ascending (map Z.of_nat (task_to_methods P t)) /\
      forall i, In i (task_to_methods P t) <-> exists m, nth_error (p_methods P) i = Some m /\ m_task m = t.
Proof.
  intros P WP. destruct (ttm_table_ok P) as (T & E & L & G).
  - intros m Hm. apply nth_error_Some. rewrite (wfm_task _ _ (wf_methods _ WP m Hm)). discriminate.
  - exists T. split; auto. intros t Ht. split; [auto|]. split.
    + unfold task_to_methods. generalize (length (p_methods P)) as k. intros k. generalize 0 as a. induction k as [|k IH]; intros a; cbn [seq filter map]; [constructor|].
      destruct (match nth_error (p_methods P) a with Some m => _ | None => _ end); [|apply IH].
      cbn [map]. constructor; [apply IH|]. apply Forall_forall. intros z Hz. apply in_map_iff in Hz as (b & <- & Hb).
      apply filter_In in Hb as [Hb _]. apply in_seq in Hb. lia.
    + intros i. unfold task_to_methods. rewrite filter_In, in_seq. split.
      * intros [_ H]. destruct (nth_error (p_methods P) i) as [m|]; [|discriminate]. apply Nat.eqb_eq in H. eauto.
      * intros (m & E1 & <-). rewrite E1. split; [|apply Nat.eqb_refl]. split; [lia|]. apply nth_error_Some. congruence.
Qed.

(** methodsFirstTasks / methodsLastTasks: exactly the subtasks without predecessor / successor. *)
Theorem first_last_exact : forall P m, wf_problem P -> In m (p_methods P) ->
  exists F L, fl_table m = Some (F, L) /\
    (forall j, In j F <-> j < length (m_subs m) /\ ~ exists i, In (i, j) (m_ord m)) /\
    (forall j, In j L <-> j < length (m_subs m) /\ ~ exists i, In (j, i) (m_ord m)).
Proof.
  intros P m WP Hm. exists (first_tasks m), (last_tasks m). split; [apply fl_table_ok, (wfm_ord _ _ (wf_methods _ WP m Hm))|]. split; intros j.
  - rewrite first_tasks_spec, is_first_spec. reflexivity.
  - unfold last_tasks. rewrite filter_In, in_seq, is_last_spec. unfold m_before. intuition lia.
Qed.

(** ** C08 *)

(** In every history, the table of contained tasks of every node is defined and lists, in ascending order, exactly the names of the
    tasks of the network [tn] it represents, each with its number of occurrences ([L] lists the tasks of [tn]). *)
Theorem contained_exact : forall P C w l n s tn pi,
  wf_problem P -> config_ok C -> history P C w l -> In n l -> Rep P (w_heap w) n s tn pi ->
  exists T L, contained P n = Some T /\ NoDup L /\ (forall x, In x L <-> t_in tn x) /\ ascending (map fst T) /\
    forall z c, In (z, c) T <->
      exists t, z = Z.of_nat t /\ In t (map (t_lab tn) L) /\ c = Z.of_nat (count_occ Nat.eq_dec (map (t_lab tn) L) t).
Proof.
  intros P C w l n s tn pi WP HC H Hn R. destruct (contained_history P C WP HC w l n H Hn) as (W & _ & T & ET & A & NA & LA & TO).
  exists T, (map pi A). split; auto.
  assert (INJ : forall a b, In a A -> In b A -> pi a = pi b -> a = b).
  { intros a b Ha Hb. apply (r_inj _ _ _ _ _ _ R); now apply LA. }
  split.
  { clear - NA INJ. induction A as [|a A IH]; [constructor|]. inversion NA as [|? ? H1 H2]; subst. cbn [map]. constructor.
    - intros I. apply in_map_iff in I as (b & E & Hb). apply INJ in E; [subst; auto|right; auto|left; auto].
    - apply IH; auto. intros x y Hx Hy. apply INJ; right; auto. }
  split.
  { intros x. rewrite (r_in _ _ _ _ _ _ R), in_map_iff. split.
    - intros (a & <- & Ha). exists a. split; auto. now apply LA.
    - intros (a & Ha & <-). exists a. split; auto. now apply LA. }
  assert (E : map (tk (w_heap w)) A = map (t_lab tn) (map pi A)).
  { rewrite map_map. apply map_ext_in. intros a Ha. apply LA in Ha. unfold tk.
    destruct (get_some (w_heap w) a) as (ps & G); [eapply live_lt; eauto; apply (r_lt _ _ _ _ _ _ R)|]. rewrite G. symmetry.
    now apply (r_lab _ _ _ _ _ _ R). }
  rewrite E in TO. apply table_ok_iff in TO as [S I]. split; [now apply sasc_ascending|exact I].
Qed.

(** ** Examples *)
Module Ex.
  Example distinct_ex : distinct_table [5; 2; 5; 7; 2; 5] = Some [(2, 2); (5, 3); (7, 1)]%Z.
  Proof. vm_compute. reflexivity. Qed.

  (** 3 -> [4; 3; 4]; 4 -> [0; 0; 4] or [1]. *)
  Definition prob : problem :=
    {| p_nfacts := 1; p_prim := [true; true; true; false; false];
       p_prec := [[]; []; []]; p_add := [[0]; [0]; []]; p_del := [[]; []; []]; p_cost := [1; 1; 1];
       p_methods := [ {| m_task := 3; m_subs := [4; 3; 4]; m_ord := [(0, 1)] |};
                      {| m_task := 4; m_subs := [0; 0; 4]; m_ord := [] |};
                      {| m_task := 4; m_subs := [1]; m_ord := [] |} ];
       p_init := 3; p_s0 := []; p_goal := [0] |}.

  Lemma wf : wf_problem prob.
  Proof.
    split; simpl; auto.
    - intros t H. do 5 (destruct t as [|t]; simpl in H; [first [lia|discriminate]|]). destruct t; discriminate.
    - intros l f [H|[H|H]] Hf; repeat (destruct H as [<-|H]; [simpl in Hf; intuition lia|]); destruct H.
    - intros f [].
    - intros f [<-|[]]. lia.
    - intros m [<-|[<-|[<-|[]]]]; split; simpl; auto; try discriminate; try (intros; intuition lia); try (intros; intuition; subst; lia).
      + intros j k [[= <- <-]|[]]. lia.
      + intros j H. assert (Q : forall a b, m_lt {| m_task := 3; m_subs := [4; 3; 4]; m_ord := [(0, 1)] |} a b -> a = 0 /\ b = 1).
        { intros a b Q. induction Q as [a b Q|a b c _ IH1 _ IH2]; [destruct Q as [[= <- <-]|[]]; auto|lia]. }
        apply Q in H. lia.
      + intros j H. induction H as [a b Q|a b c _ IH1 _ IH2]; [destruct Q|auto].
      + intros j H. induction H as [a b Q|a b c _ IH1 _ IH2]; [destruct Q|auto].
  Qed.

  Example st_ex : st_table prob = Some ([[1%Z]; [2%Z]; []; [0%Z]; [0%Z; 1%Z]], [1; 1; 0; 1; 2]).
  Proof. vm_compute. reflexivity. Qed.
  Example ttm_ex : ttm_table prob = Some [[]; []; []; [0]; [1; 2]].
  Proof. vm_compute. reflexivity. Qed.
  Example fl_ex : fl_table {| m_task := 3; m_subs := [4; 3; 4]; m_ord := [(0, 1)] |} = Some ([0; 2], [1; 2]).
  Proof. vm_compute. reflexivity. Qed.

  (** A node after two decompositions; without eager progression its table counts 0 twice, 3 once and 4 twice. *)
  Definition conf : config := {| c_eff := false; c_one := false; c_perm := fun l => l |}.
  Example contained_ex : exists w l n, history prob conf w l /\ In n l /\ contained prob n = Some [(0, 2); (3, 1); (4, 2)]%Z.
  Proof.
    destruct (init_node prob) as [[w0 n0]|] eqn:E0; [|discriminate].
    destruct (decompose prob conf 5 w0 n0 0 0) as [[w1 n1]|] eqn:E1; [|vm_compute in E0; injection E0 as <- <-; discriminate].
    destruct (decompose prob conf 5 w1 n1 0 1) as [[w2 n2]|] eqn:E2.
    2: { vm_compute in E0. injection E0 as <- <-. vm_compute in E1. injection E1 as <- <-. discriminate. }
    exists w2, [n2; n1; n0], n2.
    assert (H1 : history prob conf w1 [n1; n0]).
    { eapply (h_decompose prob conf w0 [n0] n0 0 0 3 0 5); [now apply h_init|left; auto| | | |exact E1];
      vm_compute in E0; injection E0 as <- <-; try reflexivity. left; auto. }
    split; [|split; [left; auto|]].
    - eapply (h_decompose prob conf w1 [n1; n0] n1 0 1 4 1 5); [exact H1|left; auto| | | |exact E2];
      vm_compute in E0; injection E0 as <- <-; vm_compute in E1; injection E1 as <- <-; try reflexivity. left; auto.
    - vm_compute in E0. injection E0 as <- <-. vm_compute in E1. injection E1 as <- <-. vm_compute in E2. injection E2 as <- <-.
      vm_compute. reflexivity.
  Qed.
End Ex.

Print Assumptions distinct_subtasks_exact.
Print Assumptions st_to_method_exact.
Print Assumptions task_to_methods_exact.
Print Assumptions first_last_exact.
Print Assumptions contained_exact.
