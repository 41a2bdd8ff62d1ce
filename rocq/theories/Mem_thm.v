(** C09, C98, C99: reference counting of plan steps and solution steps *)
From Coq Require Import Relations.
From Verif Require Import Base Rel Htn_model Htn_spec Htn_sem Htn_history Htn_rep Htn_proof Htn_search Htn_hist Htn_total Mem_model Mem_spec Mem_store Mem_proof Mem_search Htn_thm.

(** ** The heap of a history is acyclic *)
Section Acyclic.
Variables (P : problem) (C : config).
Hypothesis WP : wf_problem P.
Hypothesis HP : forall l, Permutation l (c_perm C l).

Definition hacyc (h : list pstep) : Prop := forall i, ~ tc h i i.

Lemma apply1_heap f w n i w' n' : apply1 P (c_perm C) (c_eff C) f w n i = Some (w', n') -> w_heap w' = w_heap w.
Proof. intros E. unfold apply1 in E. inv_opt. destruct x3. inv_opt. destruct (n_sol n); [discriminate|]. injection E as <- <-. reflexivity. Qed.

Lemma history_acyc w l : history P C w l -> hacyc (w_heap w).
Proof.
  induction 1 as [w n E | w l n i x tk fuel w' n' H IH Hn NA Gx Tx Ap E | w l n i x tk mi fuel w' n' H IH Hn Gx Tx Hm E | w l l' H IH I].
  - unfold init_node in E. inv_opt. subst. cbn [w_heap]. intros i T. apply tc_first in T as (z & (ps & G & Hz) & _). destruct i as [|[|i]]; cbn in G; try discriminate. injection G as <-. destruct Hz.
  - apply (proj1 (apply_grows P C fuel)) in E as [-> _]. auto.
  - destruct (decompose_grows P C _ _ _ _ _ _ _ E) as (w1 & n1 & _ & E1 & _).
    refine (decompose_pres P C (fun h _ _ => hacyc h) _ _ fuel w n i mi w' n' w1 n1 E1 _ E).
    + intros f w2 n2 j w3 n3 Q E2. now rewrite (apply1_heap _ _ _ _ _ _ E2).
    + auto.
    + destruct (history_ok P C WP HP w l H) as (W & _). unfold decompose1 in E1. rewrite Gx in E1. cbn [obind] in E1.
      destruct (get (w_heap w) x) as [px|] eqn:Gp; cbn [obind] in E1; [|discriminate]. destruct (get (p_methods P) mi) as [m|] eqn:Gm; cbn [obind] in E1; [|discriminate].
      destruct (forallb _ (m_ord m)); [|discriminate]. inv_opt. destruct x0. inv_opt. subst. cbn [w_heap].
      assert (WM : wf_method P m) by (apply (wf_methods _ WP); eapply nth_error_In; exact Gm).
      assert (WO : wf_orders m). { split; [apply (wfm_ord _ _ WM)|apply (wfm_acyclic _ _ WM)]. }
      intros a T. assert (La : a < length (w_heap w) + length (m_subs m)).
      { assert (La : a < length (w_heap w ++ method_steps m (length (w_heap w)) (w_inst w) (ps_succ px))) by (apply tc_first in T as (z & T & _); eapply edge_lt; exact T). now rewrite app_length, method_steps_length in La. }
      destruct (Nat.lt_ge_cases a (length (w_heap w))) as [L|L].
      * apply (tc_ext P) in T; auto. exact (IH a T).
      * assert (Ea : a = length (w_heap w) + (a - length (w_heap w))) by lia. rewrite Ea in T. apply (dec_tc_new_new P (w_heap w) x (w_inst w) px m W Gp WO) in T; [|lia|lia]. exact (wfm_acyclic _ _ WM _ T).
  - exact IH.
Qed.

Lemma history_nsol w l : history P C w l -> forall n, In n l -> n_sol n = [] -> n_prim n = [].
Proof.
  induction 1 as [w n E | w l n i x tk fuel w' n' H IH Hn NA Gx Tx Ap E | w l n i x tk mi fuel w' n' H IH Hn Gx Tx Hm E | w l l' H IH I]; intros q Hq.
  - destruct Hq as [<-|[]]. unfold init_node in E. inv_opt. subst. auto.
  - destruct Hq as [<-|Hq]; [|now apply IH]. intros Z. exfalso. eapply (proj1 (apply_nsol P C fuel)); eauto.
  - destruct Hq as [<-|Hq]; [|now apply IH]. intros Z. exfalso. eapply (decompose_nsol P C fuel); eauto.
  - apply IH. auto.
Qed.
End Acyclic.

(** ** An exact store without cycles contains just what is reachable from the roots *)
Section Exact.
Context {A : Type} (out : A -> list nat) (M : store A) (roots : list nat).
Hypothesis RI : RInv out M roots.
Hypothesis AC : forall i, ~ clos_trans nat (points out M) i i.

Lemma points_outs j : (exists i, points out M i j) <-> In j (outs out M).
Proof.
  unfold points, outs. rewrite in_flat_map. split.
  - intros (i & c & G & H). exists (Some c). split; auto. eapply nth_error_In; eauto.
  - intros ([c|] & Hc & H); [|destruct H]. apply In_nth_error in Hc as (k & Hk). exists k, c. auto.
Qed.
Lemma reaches_alive i j : alive M i -> reaches out M i j -> alive M j.
Proof. intros L R. apply clos_rt_rt1n in R. induction R as [|x y z (c & G & H) R IH]; auto. apply IH. eapply (ri_succ _ _ _ RI); [exact G|exact H]. Qed.
Lemma exact_store j : allocated M j <-> exists i, In i roots /\ reaches out M i j.
Proof.
  split.
  - intros L. destruct (acyclic_min (points out M)) with (N := length M) (b := j) as (a & Ra & Na); auto.
    { intros b. rewrite points_outs. destruct (in_dec Nat.eq_dec b (outs out M)); auto. }
    { intros a b (c & G & _). apply nth_error_Some. congruence. }
    exists a. split; auto. assert (La : alive M a). { apply clos_rt_rt1n in Ra. inversion Ra as [|y z (c & G & _)]; subst; [exact L|exists c; exact G]. }
    destruct La as (c & G). destruct (ri_cnt _ _ _ RI a c G) as [E1 E2]. rewrite points_outs in Na. apply (count_occ_not_In Nat.eq_dec) in Na. apply (count_occ_In Nat.eq_dec). lia.
  - intros (i & Hi & R). eapply reaches_alive; [|exact R]. now apply (ri_root _ _ _ RI).
Qed.
End Exact.

Section Thm.
Variables (P : problem) (C : config).
Hypothesis WP : wf_problem P.
Hypothesis HP : forall l, Permutation l (c_perm C l).

Lemma ps_acyc v l w lh : hacyc (w_heap w) -> corr v l w lh -> forall i, ~ clos_trans nat (points ps_succ (v_ps v)) i i.
Proof.
  intros HA CO i T. apply (HA i). eapply tc_mono; [|exact T]. intros a b (c & G & H). exists (c_val c). split; auto. now apply (co_val _ _ _ _ CO).
Qed.
Lemma ss_acyc v l w lh : corr v l w lh -> forall i, ~ clos_trans nat (points prev_of (v_ss v)) i i.
Proof.
  intros CO. assert (H : forall i j, clos_trans nat (points prev_of (v_ss v)) i j -> j < i).
  { induction 1 as [a b (c & G & H)|]; [eapply (co_prev _ _ _ _ CO); eauto|lia]. }
  intros i T. apply H in T. lia.
Qed.

(** C09: the plan steps that are allocated are the ones reachable from existing nodes *)
Theorem plan_steps_exact v l : mhistory P C v l ->
  forall i, allocated (v_ps v) i <-> exists n r, In n l /\ In r (steps n) /\ reaches ps_succ (v_ps v) r i.
Proof.
  intros MH i. destruct (mhistory_corr P C HP v l MH) as (w & lh & HH & CO).
  rewrite (exact_store ps_succ (v_ps v) (flat_map steps l) (co_ps _ _ _ _ CO) (ps_acyc _ _ _ _ (history_acyc P C WP HP _ _ HH) CO)). split.
  - intros (r & Hr & R). apply in_flat_map in Hr as (n & Hn & Hr). eauto.
  - intros (n & r & Hn & Hr & R). exists r. split; auto. apply in_flat_map. eauto.
Qed.
(** C98 *)
Theorem solution_steps_exact v l : mhistory P C v l ->
  forall i, allocated (v_ss v) i <-> exists n r, In n l /\ k_sol n = Some r /\ reaches prev_of (v_ss v) r i.
Proof.
  intros MH i. destruct (mhistory_corr P C HP v l MH) as (w & lh & HH & CO).
  rewrite (exact_store prev_of (v_ss v) (flat_map sols l) (co_ss _ _ _ _ CO) (ss_acyc _ _ _ _ CO)). split.
  - intros (r & Hr & R). apply in_flat_map in Hr as (n & Hn & Hr). exists n, r. split; auto. split; auto. unfold sols in Hr. destruct (k_sol n); [destruct Hr as [->|[]]; auto|destruct Hr].
  - intros (n & r & Hn & Hr & R). exists r. split; auto. apply in_flat_map. exists n. split; auto. unfold sols. rewrite Hr. now left.
Qed.

(** After all nodes have been deleted, nothing is allocated *)
Theorem all_freed v : mhistory P C v [] -> forall i, ~ allocated (v_ps v) i /\ ~ allocated (v_ss v) i.
Proof.
  intros MH i. split; intros A; [apply (plan_steps_exact v [] MH) in A|apply (solution_steps_exact v [] MH) in A]; destruct A as (n & _ & [] & _).
Qed.

(** The counter of an allocated object is the number of pointers to it *)
Definition pointers_ps (v : mworld) (l : list mnode) (i : nat) : nat :=
  list_sum (map (fun n => count_occ Nat.eq_dec (steps n) i) l) + list_sum (map (fun o => match o with Some c => count_occ Nat.eq_dec (ps_succ (c_val c)) i | None => 0 end) (v_ps v)).
Definition pointers_ss (v : mworld) (l : list mnode) (i : nat) : nat :=
  list_sum (map (fun n => count_occ Nat.eq_dec (sols n) i) l) + list_sum (map (fun o => match o with Some c => count_occ Nat.eq_dec (prev_of (c_val c)) i | None => 0 end) (v_ss v)).
Lemma cnt_flat {B} (f : B -> list nat) l i : count_occ Nat.eq_dec (flat_map f l) i = list_sum (map (fun b => count_occ Nat.eq_dec (f b) i) l).
Proof. induction l as [|b l IH]; cbn; auto. rewrite count_occ_app, IH. reflexivity. Qed.
Lemma cnt_outs {A} (out : A -> list nat) (M : store A) i : count_occ Nat.eq_dec (outs out M) i = list_sum (map (fun o => match o with Some c => count_occ Nat.eq_dec (out (c_val c)) i | None => 0 end) M).
Proof. unfold outs. rewrite cnt_flat. f_equal. apply map_ext. now intros [c|]. Qed.
Theorem counters_exact v l : mhistory P C v l ->
  (forall i c, nth_error (v_ps v) i = Some (Some c) -> c_cnt c = Z.of_nat (pointers_ps v l i) /\ (0 < c_cnt c)%Z) /\
  (forall i c, nth_error (v_ss v) i = Some (Some c) -> c_cnt c = Z.of_nat (pointers_ss v l i) /\ (0 < c_cnt c)%Z).
Proof.
  intros MH. destruct (mhistory_corr P C HP v l MH) as (w & lh & HH & CO). unfold pointers_ps, pointers_ss.
  split; intros i c G; [destruct (ri_cnt _ _ _ (co_ps _ _ _ _ CO) i c G) as [E1 E2]|destruct (ri_cnt _ _ _ (co_ss _ _ _ _ CO) i c G) as [E1 E2]]; rewrite cnt_flat, cnt_outs in E1; auto.
Qed.

(** C99: node creation and deletion never access freed memory *)
Theorem delete_defined v l1 n l2 : mhistory P C v (l1 ++ n :: l2) -> exists v', delete_node v n = Some v'.
Proof.
  intros MH. destruct (mhistory_corr P C HP _ _ MH) as (w & lh & HH & CO). pose proof (co_nodes _ _ _ _ CO) as F. apply Forall2_app_inv_l in F as (a & b & Fa & Fb & EL). inversion Fb as [|? m ? lh2 SM Fb']; subst.
  destruct (delete_lock v l1 n l2 w a m lh2) as (v1 & E1 & CO1); [clear - Fa; induction Fa; cbn; auto|exact CO|eauto].
Qed.

Theorem apply_defined v l n i x tk : mhistory P C v l -> In n l -> k_abs n = [] -> get (k_prim n) i = Some x -> rtask (rd (v_ps v)) x = Some tk -> isApplicable P (k_state n) tk = Some true ->
  exists F, forall fuel, F <= fuel -> exists v' n', mapply P C fuel v n i = Some (v', n').
Proof.
  intros MH Hn NA Gx Tx AP. destruct (mhistory_corr P C HP _ _ MH) as (w & lh & HH & CO). destruct (F2_in _ _ _ _ (co_nodes _ _ _ _ CO) Hn) as (m & Hm & SM).
  rewrite (rtask_eq _ _ _ (co_live _ _ _ _ CO)) in Tx by (apply (co_head _ _ _ _ CO n Hn); apply in_or_app; right; eapply nth_error_In; exact Gx).
  destruct (history_ok P C WP HP w lh HH) as (W & IN). destruct (IN m Hm) as (s & tn & pi & R & _). rewrite (sn_prim _ _ _ SM) in Gx. rewrite (sn_state _ _ _ SM) in AP.
  unfold task_of in Tx. apply obind_some in Tx as (ps & Gp & [= <-]).
  destruct (apply_total P C WP HP (length (w_heap w)) w m i s tn pi x ps W R Gx Gp) as (f & w' & m' & E & _).
  - apply (isApplicable_spec _ _ _ _ s AP (r_state _ _ _ _ _ _ R)). reflexivity.
  - intros Z. rewrite (history_nsol P C w lh HH m Hm Z) in Gx. destruct i; discriminate.
  - eapply Rep_atmost; eauto.
  - exists f. intros fuel L. pose proof (proj1 (apply_lock P C HP fuel) v l w lh n m i CO Hn SM) as Q. unfold locked in Q. rewrite (proj1 (apply_mono P C f) fuel w m i (w', m') L E) in Q. destruct Q as (v' & n' & Q & _). eauto.
Qed.

Theorem decompose_defined v l n i x tk mi : mhistory P C v l -> In n l -> get (k_abs n) i = Some x -> rtask (rd (v_ps v)) x = Some tk -> In mi (task_to_methods P tk) ->
  exists F, forall fuel, F <= fuel -> exists v' n', mdecompose P C fuel v n i mi = Some (v', n').
Proof.
  intros MH Hn Gx Tx HM. destruct (mhistory_corr P C HP _ _ MH) as (w & lh & HH & CO). destruct (F2_in _ _ _ _ (co_nodes _ _ _ _ CO) Hn) as (m & Hm & SM).
  rewrite (rtask_eq _ _ _ (co_live _ _ _ _ CO)) in Tx by (apply (co_head _ _ _ _ CO n Hn); apply in_or_app; left; eapply nth_error_In; exact Gx).
  destruct (history_ok P C WP HP w lh HH) as (W & IN). destruct (IN m Hm) as (s & tn & pi & R & _). rewrite (sn_abs _ _ _ SM) in Gx.
  unfold task_of in Tx. apply obind_some in Tx as (ps & Gp & [= <-]). unfold task_to_methods in HM. apply filter_In in HM as [_ HM].
  destruct (nth_error (p_methods P) mi) as [mt|] eqn:Gm; [|discriminate]. apply Nat.eqb_eq in HM.
  destruct (decompose_total P C WP HP w m i mi s tn pi x ps mt W R Gx Gp Gm (eq_sym HM)) as (f & r & E).
  exists f. intros fuel L. pose proof (decompose_lock P C HP fuel v l w lh n m i mi CO Hn SM) as Q. unfold locked in Q. rewrite (decompose_mono P C f fuel w m i mi r L E) in Q. destruct r as [w' m']. destruct Q as (v' & n' & Q & _). eauto.
Qed.

(** The ready tasks of an existing node can be read *)
Theorem steps_readable v l n x : mhistory P C v l -> In n l -> In x (steps n) -> exists tk, rtask (rd (v_ps v)) x = Some tk.
Proof.
  intros MH Hn Hx. destruct (mhistory_corr P C HP _ _ MH) as (w & lh & HH & CO). destruct (proj1 (rd_alive _ _) (co_head _ _ _ _ CO n Hn x Hx)) as (ps & E). unfold rtask. rewrite E. cbn. eauto.
Qed.

(** The nodes are those of the model that never frees: freeing changes no result *)
Theorem memory_refines v l : mhistory P C v l -> exists w lh, history P C w lh /\ Forall2 (same_node (v_ss v)) l lh /\
  (forall i c, nth_error (v_ps v) i = Some (Some c) -> nth_error (w_heap w) i = Some (c_val c)).
Proof. intros MH. destruct (mhistory_corr P C HP _ _ MH) as (w & lh & HH & CO). exists w, lh. split; auto. split; [apply CO|]. apply (co_val _ _ _ _ CO). Qed.
End Thm.
(** C100: the search with deletions behaves as the search that never frees *)
Section SearchThm.
Context {V : Type}.
Variables (P : problem) (C : config) (D : menv V) (E : search_env V) (x0 : V).
Hypothesis WP : wf_problem P.
Hypothesis HP : config_ok C.
Hypothesis EA : env_agree D E.

Theorem search_memory_refines af fuel :
  match search P C E x0 af fuel with
  | Solved w n => exists v k, msearch P C D x0 af fuel = MSolved v k /\ same_node (v_ss v) k n
  | Unsolvable => msearch P C D x0 af fuel = MUnsolvable
  | OutOfFuel => msearch P C D x0 af fuel = MOutOfFuel
  | Crash => msearch P C D x0 af fuel = MCrash
  end.
Proof. exact (search_lock P C D E HP EA x0 af fuel). Qed.

(** The solution of the result has not been freed: it can be printed and it is a plan *)
Theorem msearch_sound af fuel v n : fringe_ok E -> msearch P C D x0 af fuel = MSolved v n ->
  exists l, (forall f, length l < f -> mchain f (v_ss v) (k_sol n) = Some l) /\
    solution P (rev (map ss_task (filter (fun s => match ss_method s with None => true | _ => false end) l))).
Proof.
  intros FO H. pose proof (search_memory_refines af fuel) as Q. rewrite H in Q. destruct (search P C E x0 af fuel) as [w m| | |] eqn:ES; try discriminate.
  destruct Q as (v' & k & Q & SM). injection Q as <- <-. exists (n_sol m). split; [apply mchain_ok, (sn_sol _ _ _ SM)|].
  pose proof (search_sound _ _ _ _ _ _ _ _ _ WP HP FO ES) as SO.
  assert (EQ : printed_plan m = rev (map ss_task (filter (fun s => match ss_method s with None => true | _ => false end) (n_sol m)))).
  { destruct (search_history P C E (proj1 FO) (proj2 (proj2 FO)) x0 af fuel w m ES) as (l & HH & Hm & _).
    destruct (history_ok P C WP HP w l HH) as (_ & IN). destruct (IN m Hm) as (s & tn & pi & R & SOL & _). exact (printed_plan_of m SOL). }
  now rewrite <- EQ.
Qed.

Theorem msearch_unsolvable af fuel : fringe_ok E -> visited_ok P C E x0 -> dead_ends_ok P C E -> msearch P C D x0 af fuel = MUnsolvable -> forall plan, ~ solution P plan.
Proof.
  intros FO VO DE H. pose proof (search_memory_refines af fuel) as Q. rewrite H in Q. destruct (search P C E x0 af fuel) as [w m| | |] eqn:ES; try discriminate; [destruct Q as (? & ? & Q & _); discriminate|].
  exact (search_unsolvable _ P C E x0 af fuel WP HP FO VO DE ES).
Qed.
Theorem msearch_no_crash fuel : fringe_ok E -> exists F, forall af, F <= af -> msearch P C D x0 af fuel <> MCrash.
Proof.
  intros FO. destruct (search_no_crash _ P C E x0 fuel WP HP FO) as (F & r & N & H). exists F. intros af L X. pose proof (search_memory_refines af fuel) as Q. rewrite (H af L), X in Q.
  destruct r as [w m| | |]; try discriminate; [destruct Q as (? & ? & Q & _); discriminate|congruence].
Qed.
End SearchThm.

(** C101: in continued search the best solution would have to be readable at the end *)
Definition best_readable : Prop := forall V (P : problem) (C : config) (D : menv V) (E : search_env V) x0 af fuel v n,
  wf_problem P -> config_ok C -> env_agree D E -> fringe_ok E -> osearch P C D x0 af fuel = Some (Some (v, Some n)) -> exists f l, mchain f (v_ss v) (k_sol n) = Some l.

Module Ex.
  Import Htn_thm.Ex.
  Definition menvx (so cd : bool) : menv unit :=
    {| m_pop := fun l => match l with [] => None | x :: t => Some (x, t) end; m_push := fun n l => n :: l; m_insert := fun _ v _ => (true, v); m_dead := fun _ _ => false;
       m_rnd := fun i => i; m_subopt := so; m_candel := cd |}.
  Lemma agree so cd : env_agree (menvx so cd) (env so).
  Proof.
    constructor; cbn; auto.
    - intros S [|[k n] L] _; cbn; auto. exists L. auto.
    - intros S L k n _ _. exists ((k, n) :: L). auto.
  Qed.

  (** A history: the initial node is decomposed twice, the first two nodes are deleted *)
  Definition hist3 : option (mworld * mnode * (mworld * mnode * (mworld * mnode))) :=
    '(v0, n0) <- minit (prob [1]) ;;
    '(v1, n1) <- mdecompose (prob [1]) (conf false false) 20 v0 n0 0 0 ;;
    '(v2, n2) <- mdecompose (prob [1]) (conf false false) 20 v1 n1 0 1 ;;
    Some (v0, n0, (v1, n1, (v2, n2))).
  Example hist_ex : exists v n, mhistory (prob [1]) (conf false false) v [n] /\ length (v_ps v) = 6 /\
    map (fun o => match o with Some c => Some (c_cnt c) | None => None end) (v_ps v) = [None; None; Some 2; Some 1; Some 1; Some 1]%Z /\
    map (fun o => match o with Some c => Some (c_cnt c) | None => None end) (v_ss v) = [Some 1; Some 1]%Z.
  Proof.
    destruct hist3 as [[[v0 n0] [[v1 n1] [v2 n2]]]|] eqn:E; [|vm_compute in E; discriminate].
    destruct (delete_node v2 n0) as [v3|] eqn:D3; [|vm_compute in E; injection E as <- <- <- <- <- <-; vm_compute in D3; discriminate].
    destruct (delete_node v3 n1) as [v4|] eqn:D4; [|vm_compute in E; injection E as <- <- <- <- <- <-; vm_compute in D3; injection D3 as <-; vm_compute in D4; discriminate].
    exists v4, n2. split.
    - apply (mh_delete _ _ v3 [n2] n1 [] v4); [|exact D4]. apply (mh_delete _ _ v2 [n2; n1] n0 [] v3); [|exact D3].
      unfold hist3 in E. apply obind_some in E as ([a b] & E0 & E). apply obind_some in E as ([a1 b1] & E1 & E). apply obind_some in E as ([a2 b2] & E2 & E). injection E as <- <- <- <- <- <-.
      eapply mh_decompose with (i := 0) (mi := 1) (fuel := 20) (n := b1); [| | | | |exact E2].
      + eapply mh_decompose with (i := 0) (mi := 0) (fuel := 20) (n := b); [apply mh_init; exact E0|now left| | | |exact E1].
        * vm_compute in E0. injection E0 as <- <-. reflexivity.
        * vm_compute in E0. injection E0 as <- <-. reflexivity.
        * left. reflexivity.
      + now left.
      + vm_compute in E0. injection E0 as <- <-. vm_compute in E1. injection E1 as <- <-. reflexivity.
      + vm_compute in E0. injection E0 as <- <-. vm_compute in E1. injection E1 as <- <-. reflexivity.
      + left. reflexivity.
    - vm_compute in E. injection E as <- <- <- <- <- <-. vm_compute in D3. injection D3 as <-. vm_compute in D4. injection D4 as <-. vm_compute. auto.
  Qed.

  (** All nodes deleted *)
  Example freed_ex : exists v, mhistory (prob [1]) (conf false false) v [] /\ length (v_ps v) = 6 /\ (forall o, In o (v_ps v) -> o = None) /\ length (v_ss v) = 2.
  Proof.
    destruct hist_ex as (v & n & MH & L & CP & CS). destruct (delete_defined _ (conf false false) (conf_ok false false) v [] n [] MH) as (v' & D). exists v'.
    assert (MH' : mhistory (prob [1]) (conf false false) v' []) by exact (mh_delete _ _ v [] n [] v' MH D). split; auto.
    destruct (mhistory_corr (prob [1]) _ (conf_ok false false) _ _ MH) as (w & lh & HH & CO). pose proof (co_nodes _ _ _ _ CO) as F. inversion F as [|? m ? ? SM F0]; subst. inversion F0; subst.
    assert (LV : length (v_ps v') = length (v_ps v) /\ length (v_ss v') = length (v_ss v)).
    { unfold delete_node in D. apply obind_some in D as (p1 & D1 & D). apply obind_some in D as (p2 & D2 & D). apply obind_some in D as (s1 & D3 & D). injection D as <-. cbn [v_ps v_ss].
      assert (RP : RInv ps_succ (v_ps v) (k_abs n ++ k_prim n ++ [])) by (eapply RInv_eq; [|exact (co_ps _ _ _ _ CO)]; intros k; cbn; unfold steps; now rewrite app_nil_r, app_nil_r).
      destruct (drops_ok ps_succ _ _ _ RP) as (q1 & E1 & R1 & S1). rewrite D1 in E1. injection E1 as <-. destruct (drops_ok ps_succ _ _ _ R1) as (q2 & E2 & R2 & S2). rewrite D2 in E2. injection E2 as <-.
      assert (RS : RInv prev_of (v_ss v) (ptr (k_sol n) ++ [])) by exact (co_ss _ _ _ _ CO). destruct (drops_ok prev_of _ _ _ RS) as (q3 & E3 & R3 & S3). rewrite D3 in E3. injection E3 as <-. destruct S1, S2, S3. split; congruence. }
    split; [lia|]. split; [|destruct LV as [_ ->]; apply (f_equal (@length _)) in CS; rewrite map_length in CS; exact CS].
    intros [c|] Ho; auto. apply In_nth_error in Ho as (i & Gi). exfalso. apply (proj1 (all_freed _ _ (wf [1] ltac:(simpl; lia)) (conf_ok false false) v' MH' i)). exists c. exact Gi.
  Qed.

  Example solved_ex : forall so cd e o, exists v n, msearch (prob [1]) (conf e o) (menvx so cd) tt 50 50 = MSolved v n /\ k_cost n = 9.
  Proof. intros so cd e o. destruct so, cd, e, o; vm_compute; eauto. Qed.
  Example unsolvable_ex : forall so cd e o, msearch (prob [2]) (conf e o) (menvx so cd) tt 50 50 = MUnsolvable.
  Proof. intros so cd e o. destruct so, cd, e, o; vm_compute; reflexivity. Qed.
End Ex.

(** C101 is false: the best solution has been deleted when the search ends *)
Theorem best_readable_refuted : ~ best_readable.
Proof.
  intros H. destruct (osearch (Htn_thm.Ex.prob [1]) (Htn_thm.Ex.conf false false) (Ex.menvx true true) tt 50 50) as [[[v [n|]]|]|] eqn:E; try (vm_compute in E; discriminate).
  destruct (H unit _ _ _ (Htn_thm.Ex.env true) tt 50 50 v n (Htn_thm.Ex.wf [1] ltac:(simpl; lia)) (Htn_thm.Ex.conf_ok false false) (Ex.agree true true) (Htn_thm.Ex.env_fringe true) E) as (f & l & M).
  vm_compute in E. injection E as <- <-. cbn [k_sol v_ss] in M. destruct f; [discriminate|]. vm_compute in M. discriminate.
Qed.

Print Assumptions plan_steps_exact.
Print Assumptions solution_steps_exact.
Print Assumptions all_freed.
Print Assumptions counters_exact.
Print Assumptions delete_defined.
Print Assumptions apply_defined.
Print Assumptions decompose_defined.
Print Assumptions steps_readable.
Print Assumptions memory_refines.
Print Assumptions search_memory_refines.
Print Assumptions msearch_sound.
Print Assumptions msearch_unsolvable.
Print Assumptions msearch_no_crash.
Print Assumptions best_readable_refuted.
