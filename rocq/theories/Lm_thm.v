(** Theorems about the AND/OR landmark generator LmCausal (C49, C93-C97). Proofs are in Lm_proof and Lm_graph. *)
From Verif Require Import Base Htn_problem Htn_spec Htn_check Heap_model Heap_proof Arr Relax_model Relax_thm Tab_model Tab_thm Pg_model Pg_spec Pg_proof Pg_thm Lm_model Lm_spec Lm_proof Lm_graph.

(** Node [i] has an explicit set that contains [j]. *)
Definition attributed (nodes : list lmnode) (i j : nat) : Prop :=
  exists n k, nth_error nodes i = Some n /\ n_full n = false /\ k < n_num n /\ nth_error (n_lms n) k = Some (Z.of_nat j).
Definition full_set (nodes : list lmnode) (i : nat) : Prop := exists n, nth_error nodes i = Some n /\ n_full n = true.

(** What the code relies on: a well-formed problem with the actions before the abstract tasks, exact tables, a state of the right length, component
    numbers that do not overflow the keys, queues with room for one element and one container per node (of any content, from an earlier call). *)
Record lm_input (al : nat -> list Z) (P : problem) (precless : list nat) (dst : list (list nat)) (scc : list Z) (s : list bool) (mm : lm_mem) : Prop := {
  l_al : alloc_ok al;
  l_wp : wf_problem P;
  l_wf : lm_wf P precless dst;
  l_sl : length s = p_nfacts P;
  l_scl : length scc = numNodes P;
  l_scb : forall c, In c scc -> key_ok P c;
  l_mem : mem_ok P mm }.

Lemma attributed_lms nn ns i j : length ns = nn -> node_ok nn ns i -> i < nn -> attributed ns i j <-> fullb ns i = false /\ In (Z.of_nat j) (lms ns i).
Proof.
  intros L O Li. assert (E : nth_error ns i = Some (nd ns i)) by (apply nth_error_nth'; lia). pose proof (no_num _ _ _ O) as N. unfold attributed. split.
  - intros (n & k & E1 & F & Lk & Q). assert (n = nd ns i) by congruence. subst n. split; auto. apply (nth_error_In _ k). unfold lms. rewrite <- Q. symmetry. apply get_lms; auto.
  - intros [F Q]. apply In_nth_error in Q as (k & Q). exists (nd ns i), k. split; auto. split; auto. assert (Lk : k < n_num (nd ns i)). { rewrite <- (lmof_length _ N). apply nth_error_Some. unfold lms in Q. congruence. }
    split; auto. rewrite <- Q. apply get_lms; auto.
Qed.
Lemma full_fullb ns i : i < length ns -> full_set ns i <-> fullb ns i = true.
Proof.
  intros L. assert (E : nth_error ns i = Some (nd ns i)) by (apply nth_error_nth'; lia). split; [intros (n & E1 & F)|intros F; exists (nd ns i); auto]. unfold fullb. congruence.
Qed.

Lemma dv_exists P precless dst : wf_problem P -> lm_wf P precless dst -> forall s R, length s = p_nfacts P -> 
  (forall x W, dv P (holds s) R x W -> exists_elem P x /\ forall y, In y W -> exists_elem P y) /\
  (forall l W, dvs P (holds s) R l W -> (forall x, In x l -> exists_elem P x) /\ forall y, In y W -> exists_elem P y).
Proof. intros WP WT s R SL. apply (dv_ex P precless dst WP WT s R (repeat 0%Z (numNodes P)) SL (repeat_length _ _)). Qed.

Lemma dv_exists1 P precless dst : wf_problem P -> lm_wf P precless dst -> forall s R, length s = p_nfacts P -> forall x W, dv P (holds s) R x W -> exists_elem P x.
Proof. intros WP WT s R SL x W D. exact (proj1 (proj1 (dv_exists P precless dst WP WT s R SL) x W D)). Qed.

Section Gen.
Variables (al : nat -> list Z) (P : problem) (precless : list nat) (dst : list (list nat)) (scc : list Z) (s rch : list bool) (R : nat -> Prop) (mm : lm_mem).
Hypothesis IN : lm_input al P precless dst scc s mm.
Hypothesis RO : rch_ok P s rch R.

Lemma calc_spec : exists x, calcLMs al P precless dst scc s rch mm = Some x /\ length (l_nodes x) = numNodes P /\
  (forall e, exists_elem P e -> node_ok (numNodes P) (l_nodes x) (code P e)) /\
  (forall e W, dv P (holds s) R e W -> visible P s rch e -> fullb (l_nodes x) (code P e) = false) /\
  (forall e, exists_elem P e -> fullb (l_nodes x) (code P e) = false -> derivable P (holds s) R e) /\
  (forall e W y, dv P (holds s) R e W -> exists_elem P y -> In (Z.of_nat (code P y)) (lms (l_nodes x) (code P e)) -> In y W) /\
  (forall e y, exists_elem P e -> exists_elem P y -> fullb (l_nodes x) (code P e) = false -> keep P s rch (code P y) -> landmark P (holds s) R e y -> In (Z.of_nat (code P y)) (lms (l_nodes x) (code P e))).
Proof.
  destruct IN as [A1 A2 A3 A4 A5 A6 A7].
  destruct (calc_ok P precless dst A2 A3 al s rch R scc mm A1 A4 A5 A6 A7 RO) as (g & x & E & GO & GT & GK & GI & GC). exists x. split; auto. split; [apply (li_len _ _ _ _ _ _ GI)|].
  pose proof (GC _ _ (avoid P precless dst A2 A3 s rch R scc A4 A5 RO g GT GK)) as C.
  split; [intros e X; apply (li_ok _ _ _ _ _ _ GI); now apply code_lt|]. split; [|split; [|split]].
  - intros e W D V. eapply (proj1 (derivable_found P precless dst A2 A3 s rch R scc A4 A5 RO g (l_nodes x) GT GK GI)); eauto.
  - intros e X F. eapply (found_derivable P precless s rch R scc A4 A5 g (l_nodes x) GI); eauto.
  - intros e W y D Y Q. destruct (proj1 (lms_sound P precless dst A2 A3 s rch R scc A4 A5 RO g (l_nodes x) GT GK GI) e W D _ Q) as (z & Hz & Ez).
    apply code_inj in Ez; auto; [congruence|]. eapply (proj1 (dv_exists P precless dst A2 A3 s R A4)); eauto.
  - intros e y X Y F K LM. eapply lms_complete; eauto.
Qed.
End Gen.

(** ** Without a planning graph *)
Lemma bat_all P i : i < numNodes P -> bat (reach_all P) i = true.
Proof. unfold bat, reach_all. generalize (numNodes P). intros n. revert i. induction n as [|n IH]; intros [|i] L; cbn; auto; try lia. apply IH. lia. Qed.

Lemma rch_all P precless dst s : wf_problem P -> lm_wf P precless dst -> length s = p_nfacts P -> rch_ok P s (reach_all P) (fun _ => True).
Proof.
  intros WP WT SL. constructor.
  - apply repeat_length.
  - intros a La _. split; auto. intros f Hf. left. apply bat_all, code_lt. eapply precs_ex; eauto.
  - intros m md Em _. split; auto. intros t Ht. apply bat_all, code_lt. eapply meth_ex; eauto.
  - intros t W D. apply bat_all, code_lt. eapply (dv_exists1 P precless dst WP WT s (fun _ => True) SL); eauto.
  - intros m W D. apply bat_all, code_lt. eapply (dv_exists1 P precless dst WP WT s (fun _ => True) SL); eauto.
Qed.

Lemma visible_all P s e : exists_elem P e -> visible P s (reach_all P) e.
Proof. intros X. destruct e; cbn; auto. left. exact (bat_all P _ (code_lt P (EF f) X)). Qed.

Notation ALL := (fun _ : nat => True).

(** *** The computation ends and stays within its arrays *)
Theorem lm_defined al P precless dst scc s mm : lm_input al P precless dst scc s mm -> exists x, calcLMs al P precless dst scc s (reach_all P) mm = Some x /\ length (l_nodes x) = numNodes P.
Proof. intros IN. destruct (calc_spec al P precless dst scc s (reach_all P) ALL mm IN) as (x & E & L & _); [|eauto]. eapply rch_all; apply IN. Qed.

(** *** C49: the elements of the set of a node occur in every derivation *)
Theorem lm_sound al P precless dst scc s mm x : lm_input al P precless dst scc s mm -> calcLMs al P precless dst scc s (reach_all P) mm = Some x ->
  forall e y, exists_elem P e -> exists_elem P y -> attributed (l_nodes x) (code P e) (code P y) -> landmark P (holds s) ALL e y.
Proof.
  intros IN E e y X Y Q W D. destruct (calc_spec al P precless dst scc s (reach_all P) ALL mm IN) as (x' & E' & L & O & _ & _ & S & _); [eapply rch_all; apply IN|]. assert (x' = x) by congruence. subst x'.
  eapply S; eauto. apply (attributed_lms _ _ _ _ L (O e X)) in Q; [apply Q|now apply code_lt].
Qed.

(** *** C93: and the sets are complete; a node keeps the full set exactly if it cannot be derived *)
Theorem lm_exact al P precless dst scc s mm x : lm_input al P precless dst scc s mm -> calcLMs al P precless dst scc s (reach_all P) mm = Some x ->
  (forall e, exists_elem P e -> full_set (l_nodes x) (code P e) <-> ~ derivable P (holds s) ALL e) /\
  (forall e y, derivable P (holds s) ALL e -> exists_elem P y -> attributed (l_nodes x) (code P e) (code P y) <-> landmark P (holds s) ALL e y).
Proof.
  intros IN E. destruct (calc_spec al P precless dst scc s (reach_all P) ALL mm IN) as (x' & E' & L & O & D & F & S & C); [eapply rch_all; apply IN|]. assert (x' = x) by congruence. subst x'. split.
  - intros e X. rewrite full_fullb by (rewrite L; now apply code_lt). split.
    + intros Q (W & H). rewrite (D e W H (visible_all P s e X)) in Q. discriminate.
    + intros N. apply Bool.not_false_is_true. intros Q. apply N. now apply F.
  - intros e y (W & H) Y. assert (X : exists_elem P e) by (eapply (dv_exists1 P precless dst (l_wp _ _ _ _ _ _ _ IN) (l_wf _ _ _ _ _ _ _ IN) s ALL (l_sl _ _ _ _ _ _ _ IN)); eauto).
    pose proof (D e W H (visible_all P s e X)) as FE. rewrite (attributed_lms _ _ _ _ L (O e X)) by (now apply code_lt). split.
    + intros [_ Q] V HV. eapply S; eauto.
    + intros LM. split; auto. apply C; auto. intros (_ & _ & Q). rewrite bat_all in Q; [discriminate|now apply code_lt].
Qed.

(** ** With a planning graph *)
Lemma bat_pg P r e : exists_elem P e -> bat (reach_pg P r) (code P e) = match e with EF f => memb f (r_useful r) | ET t => taskReachable r t | EM m => methodReachable r m end.
Proof.
  intros X. unfold bat, reach_pg. rewrite nth_map_seq by (now apply code_lt). destruct e as [f|t|m]; cbn [code exists_elem] in *.
  - destruct (Nat.leb_spec (p_nfacts P) f); [lia|]. cbn [andb]. destruct (Nat.ltb_spec f (p_nfacts P)); [auto|lia].
  - destruct (Nat.leb_spec (p_nfacts P) (p_nfacts P + t)); [|lia]. destruct (Nat.ltb_spec (p_nfacts P + t) (p_nfacts P + length (p_prim P))); [|lia]. cbn [andb]. f_equal. lia.
  - destruct (Nat.leb_spec (p_nfacts P) (p_nfacts P + length (p_prim P) + m)); [|lia]. destruct (Nat.ltb_spec (p_nfacts P + length (p_prim P) + m) (p_nfacts P + length (p_prim P))); [lia|]. cbn [andb].
    destruct (Nat.ltb_spec (p_nfacts P + length (p_prim P) + m) (p_nfacts P)); [lia|]. f_equal. lia.
Qed.

Lemma dv_reach P precless dst s (R : nat -> Prop) : wf_problem P -> lm_wf P precless dst ->
  (forall x W, dv P s R x W -> match x with EF f => fact_reach P s R f | ET t => task_reach P R (act_reach P s R) t /\ (t < length (p_cost P) -> act_reach P s R t) | EM m => method_reach P R (act_reach P s R) m end) /\
  (forall l W, dvs P s R l W -> forall x, In x l -> match x with EF f => fact_reach P s R f | ET t => task_reach P R (act_reach P s R) t /\ (t < length (p_cost P) -> act_reach P s R t) | EM m => method_reach P R (act_reach P s R) m end).
Proof.
  intros WP WT. set (Q := fun x => match x with EF f => fact_reach P s R f | ET t => task_reach P R (act_reach P s R) t /\ (t < length (p_cost P) -> act_reach P s R t) | EM m => method_reach P R (act_reach P s R) m end).
  apply (dv_dvs_ind P s R (fun x W _ => Q x) (fun l W _ => forall x, In x l -> Q x)); cbn [Q].
  - intros f Hf. now apply fr_state.
  - intros a f W _ [_ IH] A. eapply fr_add; [|exact A]. apply IH. eapply adds_ex; eauto.
  - intros a l W E Ra _ IH. assert (AR : act_reach P s R a).
    { constructor; auto; [rewrite <- (wf_prec _ WP); apply nth_error_Some; congruence|]. intros f (l' & E' & Hf). apply (IH (EF f)). apply in_map. congruence. }
    split; auto. now apply tr_action.
  - intros m md W E _ IH. destruct (meth_ex P WP m md E) as (_ & X & _). apply (abs_ge P precless dst WT) in X. split; [eapply tr_method; eauto|lia].
  - intros m md W E Rm _ IH. eapply mr_intro; eauto. intros t Ht. apply (IH (ET t)). now apply in_map.
  - easy.
  - intros x l W V _ I1 _ I2 y [<-|Hy]; auto.
Qed.

Lemma rch_pg al' P precless dst T q0 s R r : lm_wf P precless dst -> pg_input al' P T q0 s R -> calcReachability al' P T q0 s R = Some r -> (forall v, In v (r_op r) -> (v < INT_MAX)%Z) ->
  rch_ok P s (reach_pg P r) (holds R).
Proof.
  intros WT IN E OM. pose proof (pi_wp _ _ _ _ _ _ IN) as WP. pose proof (pi_s _ _ _ _ _ _ IN) as SL. pose proof (na_le P precless dst WT) as NA.
  destruct (pg_complete al' P T q0 s R r IN E OM) as (_ & _ & CT & CM). destruct (pg_relative al' P T q0 s R r IN E) as (A & _ & RA & _ & _ & _ & TR & MR & US).
  destruct (dv_reach P precless dst (holds s) (holds R) WP WT) as [DR _]. pose proof (dv_exists1 P precless dst WP WT s (holds R) SL) as DX.
  constructor.
  - unfold reach_pg. now rewrite map_length, seq_length.
  - intros a La Q. rewrite bat_pg in Q by (cbn; lia). apply TR in Q. assert (HA : In a A).
    { inversion Q as [a' Ha|m md HM Em E']; subst; auto. destruct (meth_ex P WP m md Em) as (_ & X & _). apply (abs_ge P precless dst WT) in X. lia. }
    split; [now apply RA|]. intros f Hf. destruct (precs_ex P WP a f Hf) as [X _]. rewrite bat_pg by auto. destruct (bat s f) eqn:Ef; auto. left. apply memb_In, US. split; auto.
    split; [apply (bat_false s f); auto; rewrite SL; auto|]. right. exists a. auto.
  - intros m md Em Q. destruct (meth_ex P WP m md Em) as (X & _ & XS & _). rewrite bat_pg in Q by auto. apply MR in Q. inversion Q as [m' md' Em' Rm Hs]; subst. assert (md' = md) by congruence. subst md'. split; auto.
    intros t Ht. rewrite bat_pg by auto. apply TR. auto.
  - intros t W D. rewrite bat_pg by (eapply DX; eauto). apply CT. apply (DR _ _ D).
  - intros m W D. rewrite bat_pg by (eapply DX; eauto). apply CM. apply (DR _ _ D).
Qed.

(** *** C94: with the planning graph, for derivations restricted to the allowed tasks *)
Theorem lm_pg al P precless dst scc s mm al' T q0 R r x : lm_input al P precless dst scc s mm -> pg_input al' P T q0 s R -> calcReachability al' P T q0 s R = Some r ->
  (forall v, In v (r_op r) -> (v < INT_MAX)%Z) -> calcLMs al P precless dst scc s (reach_pg P r) mm = Some x ->
  (forall e y, exists_elem P e -> exists_elem P y -> attributed (l_nodes x) (code P e) (code P y) -> landmark P (holds s) (holds R) e y) /\
  (forall t, t < length (p_prim P) -> full_set (l_nodes x) (code P (ET t)) <-> ~ derivable P (holds s) (holds R) (ET t)) /\
  (forall t y, derivable P (holds s) (holds R) (ET t) -> exists_elem P y -> (forall f, y = EF f -> ~ holds s f) -> landmark P (holds s) (holds R) (ET t) y -> attributed (l_nodes x) (code P (ET t)) (code P y)).
Proof.
  intros IN PG Er OM E. destruct (calc_spec al P precless dst scc s (reach_pg P r) (holds R) mm IN) as (x' & E' & L & O & D & F & S & C); [eapply rch_pg; eauto; apply IN|]. assert (x' = x) by congruence. subst x'. split; [|split].
  - intros e y X Y Q W H. eapply S; eauto. apply (attributed_lms _ _ _ _ L (O e X)) in Q; [apply Q|now apply code_lt].
  - intros t X. rewrite full_fullb by (rewrite L; now apply (code_lt P (ET t))). split.
    + intros Q (W & H). rewrite (D _ W H Logic.I) in Q. discriminate.
    + intros N. apply Bool.not_false_is_true. intros Q. apply N. now apply F.
  - intros t y (W & H) Y NS LM. assert (X : exists_elem P (ET t)) by (eapply (dv_exists1 P precless dst (l_wp _ _ _ _ _ _ _ IN) (l_wf _ _ _ _ _ _ _ IN) s (holds R) (l_sl _ _ _ _ _ _ _ IN)); eauto).
    apply (attributed_lms _ _ _ _ L (O _ X)); [now apply code_lt|]. pose proof (D _ W H Logic.I) as FE. split; auto. apply C; auto. intros (Q1 & Q2 & _).
    destruct y as [f|t'|m]; cbn [code] in *; try lia. apply (NS f eq_refl), bat_holds, Q2.
Qed.

(** ** Solutions *)
Lemma after_app P s p q : after P s (p ++ q) = after P (after P s p) q.
Proof. revert s. induction p as [|a p IH]; intros s; cbn; auto. Qed.
Lemma exec_app P s p q : executable P s (p ++ q) <-> executable P s p /\ executable P (after P s p) q.
Proof. revert s. induction p as [|a p IH]; intros s; cbn [app executable after]; [tauto|]. rewrite IH. tauto. Qed.

Lemma dvs_with P s R (Q : elem -> Prop) l : (forall x, In x l -> exists W, dv P s R x W /\ forall y, In y W -> Q y) -> exists W, dvs P s R l W /\ forall y, In y W -> Q y.
Proof.
  induction l as [|x l IH]; intros H.
  - exists []. split; [constructor|easy].
  - destruct (H x (or_introl eq_refl)) as (W & D & N). destruct IH as (V & D' & N'); [intros; apply H; now right|]. exists (W ++ V). split; [now constructor|]. intros y Hy. apply in_app_or in Hy as [Hy|Hy]; auto.
Qed.

Lemma plan_dv P (s : state) (R : nat -> Prop) (Q : elem -> Prop) plan : wf_problem P -> executable P s plan -> (forall a, In a plan -> R a /\ Q (ET a) /\ a < length (p_cost P)) -> (forall k f, after P s (firstn k plan) f -> Q (EF f)) ->
  (forall f, after P s plan f -> exists W, dv P s R (EF f) W /\ forall y, In y W -> Q y) /\ (forall a, In a plan -> exists W, dv P s R (ET a) W /\ forall y, In y W -> Q y).
Proof.
  intros WP. induction plan as [|a p IH] using rev_ind; intros EX HA HF.
  - split; [|easy]. intros f Hf. exists [EF f]. split; [now apply dv_state|]. intros y [<-|[]]. apply (HF 0). exact Hf.
  - apply exec_app in EX as [E1 E2]. destruct E2 as [AP _].
    assert (HF' : forall k f, after P s (firstn k p) f -> Q (EF f)).
    { intros k f Hf. destruct (Nat.le_gt_cases k (length p)) as [L|L].
      - apply (HF k). rewrite firstn_app. replace (k - length p) with 0 by lia. cbn. now rewrite app_nil_r.
      - rewrite firstn_all2 in Hf by lia. apply (HF (length p)). rewrite firstn_app, firstn_all, Nat.sub_diag. cbn. now rewrite app_nil_r. }
    destruct IH as [I1 I2]; auto; [intros b Hb; apply HA, in_or_app; auto|]. destruct (HA a ltac:(apply in_or_app; right; now left)) as (Ra & Qa & La).
    assert (DA : exists W, dv P s R (ET a) W /\ forall y, In y W -> Q y).
    { destruct (nth_error (p_prec P) a) as [l|] eqn:El; [|apply nth_error_None in El; rewrite (wf_prec _ WP) in El; lia].
      destruct (dvs_with P s R Q (map EF l)) as (W & D & N).
      - intros x Hx. apply in_map_iff in Hx as (f & <- & Hf). apply I1, AP. exists l. auto.
      - exists (ET a :: W). split; [eapply dv_act; eauto|]. intros y [<-|Hy]; auto. }
    split.
    + intros f Hf. rewrite after_app in Hf. destruct Hf as [Hf|[Hf _]]; auto. destruct DA as (W & D & N). exists (EF f :: W). split; [eapply dv_add; eauto|]. intros y [<-|Hy]; auto.
      apply (HF (length (p ++ [a]))). rewrite firstn_all, after_app. now left.
    + intros b Hb. apply in_app_or in Hb as [Hb|[<-|[]]]; auto.
Qed.

Lemma refine_dv P (s : state) (R : nat -> Prop) (Q : elem -> Prop) tn tr tn' : refines_by P tn tr tn' ->
  (forall tn0 m md x, In (tn0, m) tr -> nth_error (p_methods P) m = Some md -> t_in tn0 x -> t_lab tn0 x = m_task md -> R (m_task md)) ->
  (forall tn0 m x, In (tn0, m) tr -> Q (EM m) /\ (t_in tn0 x -> Q (ET (t_lab tn0 x)))) -> (forall x, t_in tn' x -> exists W, dv P s R (ET (t_lab tn' x)) W /\ forall y, In y W -> Q y) ->
  forall x, t_in tn x -> exists W, dv P s R (ET (t_lab tn x)) W /\ forall y, In y W -> Q y.
Proof.
  induction 1 as [tn|tn x m md tn1 tr tn2 Em D RB IH]; intros HR HQ HP; auto.
  assert (I1 := IH (fun tn0 m0 md0 x0 H => HR tn0 m0 md0 x0 (or_intror H)) (fun tn0 m0 x0 H => HQ tn0 m0 x0 (or_intror H)) HP). intros y Hy.
  destruct (list_eq_dec Nat.eq_dec y x) as [->|N].
  - destruct (HQ tn m x (or_introl eq_refl)) as [QM QT]. specialize (QT Hy). rewrite (d_lab _ _ _ _ _ D) in *.
    destruct (dvs_with P s R Q (map ET (m_subs md))) as (W & DW & NW).
    + intros z Hz. apply in_map_iff in Hz as (t & <- & Ht). apply In_nth_error in Ht as (j & Ej). rewrite <- (d_lab_new _ _ _ _ _ D j t Ej). apply I1. apply (d_in' _ _ _ _ _ D). right. exists j. split; auto. apply nth_error_Some. congruence.
    + exists (ET (m_task md) :: EM m :: W). split.
      * eapply dv_task; [exact Em|]. eapply dv_meth; [exact Em| |exact DW]. eapply (HR tn m md x); eauto; [now left|apply (d_lab _ _ _ _ _ D)].
      * intros z [<-|[<-|Hz]]; auto.
  - rewrite <- (d_lab_old _ _ _ _ _ D y Hy N). apply I1. apply (d_in' _ _ _ _ _ D). auto.
Qed.

Lemma refines_trace P tn tn' : refines P tn tn' -> exists tr, refines_by P tn tr tn'.
Proof.
  induction 1 as [tn|tn x m tn1 tn2 D _ (tr & IH)]; [exists []; constructor|]. destruct (In_nth_error _ _ (d_method _ _ _ _ _ D)) as (i & Ei). exists ((tn, i) :: tr). eapply rb_step; eauto.
Qed.
Lemma solves_trace P s tn plan : solves P s tn plan <-> exists tr tn', solves_by P s tn tr tn' plan.
Proof.
  split.
  - intros (tn' & L & RF & H). destruct (refines_trace _ _ _ RF) as (tr & RB). exists tr, tn', L. auto.
  - intros (tr & tn' & L & RB & H). exists tn', L. split; auto. clear H. induction RB as [tn|tn x m md tn1 tr tn2 Em D _ IH]; [constructor|]. eapply ref_step; eauto.
Qed.

(** every task of a solved network, and every goal, has a derivation of which everything occurs in the solution *)
Lemma trace_allowed P (R : nat -> Prop) tn tr tn' : closed_tasks P R -> refines_by P tn tr tn' -> (forall x, t_in tn x -> R (t_lab tn x)) ->
  (forall tn0 m x, In (tn0, m) tr -> t_in tn0 x -> R (t_lab tn0 x)) /\ (forall x, t_in tn' x -> R (t_lab tn' x)).
Proof.
  intros CR. induction 1 as [tn|tn x m md tn1 tr tn2 Em D _ IH]; intros H; [split; [easy|auto]|].
  assert (H1 : forall y, t_in tn1 y -> R (t_lab tn1 y)) by (eapply refine_allowed; [exact CR| |exact H]; eapply ref_step; [exact D|constructor]). destruct (IH H1) as [I1 I2]. split; auto.
  intros tn0 m0 y [E|Hy]; [injection E as <- <-; auto|]. eapply I1; eauto.
Qed.

Lemma solution_dv P (s : state) (R : nat -> Prop) tn tr tn' plan : wf_problem P -> closed_tasks P R -> (forall x, t_in tn x -> R (t_lab tn x)) -> solves_by P s tn tr tn' plan ->
  (forall x, t_in tn x -> exists W, dv P s R (ET (t_lab tn x)) W /\ forall y, In y W -> occurs P s tr tn' plan y) /\
  (forall f, In f (p_goal P) -> exists W, dv P s R (EF f) W /\ forall y, In y W -> occurs P s tr tn' plan y).
Proof.
  intros WP CR HR (L & RB & PR & (_ & IL & _) & -> & EX & GO). destruct (trace_allowed P R tn tr tn' CR RB HR) as [T1 T2].
  destruct (plan_dv P s R (occurs P s tr tn' (map (t_lab tn') L)) (map (t_lab tn') L) WP EX) as [D1 D2].
  - intros a Ha. apply in_map_iff in Ha as (x & <- & Hx). apply IL in Hx. split; auto. split; [exists tn', x; auto|]. apply (wf_prim _ WP), PR, Hx.
  - intros k f Hf. exists k. exact Hf.
  - split.
    + eapply refine_dv; eauto.
      * intros tn0 m md x H1 H2 H3 H4. rewrite <- H4. eapply T1; eauto.
      * intros tn0 m x H. split; [exists tn0; auto|]. intros Hx. exists tn0, x. split; auto. right. exists m. auto.
      * intros x Hx. apply D2, in_map. now apply IL.
    + intros f Hf. apply D1, GO, Hf.
Qed.

(** ** The collected landmarks *)
Definition atom_elem (x : lmatom) : elem := match x with LF f => EF f | LT t => ET t | LM m => EM m end.

Lemma node_atom_code P e : exists_elem P e -> atom_elem (node_atom P (code P e)) = e.
Proof.
  unfold node_atom. intros X. destruct e as [f|t|m]; cbn [code exists_elem] in *.
  - destruct (Nat.leb_spec (p_nfacts P) f); [lia|]. cbn [andb]. destruct (Nat.ltb_spec f (p_nfacts P)); [auto|lia].
  - destruct (Nat.leb_spec (p_nfacts P) (p_nfacts P + t)); [|lia]. destruct (Nat.ltb_spec (p_nfacts P + t) (p_nfacts P + length (p_prim P))); [|lia]. cbn. f_equal. lia.
  - destruct (Nat.leb_spec (p_nfacts P) (p_nfacts P + length (p_prim P) + m)); [|lia]. destruct (Nat.ltb_spec (p_nfacts P + length (p_prim P) + m) (p_nfacts P + length (p_prim P))); [lia|]. cbn [andb].
    destruct (Nat.ltb_spec (p_nfacts P + length (p_prim P) + m) (p_nfacts P)); [lia|]. cbn. f_equal. lia.
Qed.

Lemma copy_nodes_ok P ns l : length ns = numNodes P -> (forall e, In e l -> exists_elem P e /\ node_ok (numNodes P) ns (code P e) /\ fullb ns (code P e) = false) -> forall u, NoDup u ->
  exists u', ofold (copy_node (numNodes P) ns) (map (code P) l) u = Some u' /\ NoDup u' /\ forall v, In v u' <-> In v u \/ exists e, In e l /\ In v (lms ns (code P e)).
Proof.
  intros L. induction l as [|e l IH]; intros H u ND; cbn [map ofold].
  - exists u. split; auto. split; auto. intros v. split; auto. intros [?|(e & [] & _)]; auto.
  - destruct (H e (or_introl eq_refl)) as (X & O & F). pose proof (code_lt P e X) as Lc. unfold copy_node at 1. rewrite get_nd by lia. cbn [obind]. fold (fullb ns (code P e)). rewrite F.
    rewrite (lms_fold (zinsert (numNodes P))) by apply (no_num _ _ _ O). fold (lms ns (code P e)).
    destruct (zinserts_ok (numNodes P) (lms ns (code P e)) u) as (u1 & E1 & N1 & I1); auto.
    { intros v Hv. destruct (no_rng _ _ _ O v Hv) as (j & Lj & -> & _). lia. }
    rewrite E1. cbn [obind]. destruct (IH (fun e' He' => H e' (or_intror He')) u1 N1) as (u2 & E2 & N2 & I2). exists u2. split; auto. split; auto. intros v. rewrite I2, I1. split.
    + intros [[Q|Q]|(e' & He' & Q)]; auto; right; [exists e|exists e']; split; auto; [now left|now right].
    + intros [Q|(e' & [<-|He'] & Q)]; auto. right. exists e'. auto.
Qed.

(** the elements whose landmarks are collected *)
Definition sources (P : problem) (contained : list nat) : list elem := map ET contained ++ map EF (p_goal P).

Lemma ofold_ext {A B} (f g : A -> B -> option A) l : (forall a b, f a b = g a b) -> forall a, ofold f l a = ofold g l a.
Proof. intros H. induction l as [|b l IH]; intros a; cbn; auto. rewrite H. destruct (g a b); cbn; auto. Qed.
Lemma ofold_map {A B C} (f : A -> C -> option A) (h : B -> C) l : forall a, ofold f (map h l) a = ofold (fun a b => f a (h b)) l a.
Proof. induction l as [|b l IH]; intros a; cbn; auto. destruct (f a (h b)); cbn; auto. Qed.
Lemma ofold_app' {A B} (f : A -> B -> option A) l1 l2 : forall a, ofold f (l1 ++ l2) a = (x <- ofold f l1 a ;; ofold f l2 x).
Proof. induction l1 as [|b l1 IH]; intros a; cbn; auto. destruct (f a b); cbn; auto. Qed.

Lemma copy_global P ct ns : copyGlobalLMs P ct ns = ofold (copy_node (numNodes P) ns) (map (code P) (sources P ct)) [].
Proof.
  unfold copyGlobalLMs, sources. rewrite map_app, ofold_app', !map_map, ofold_map. unfold tNode, fNode. cbn [code].
  destruct (ofold (fun u t => copy_node (numNodes P) ns u (p_nfacts P + t)) ct []) as [u|]; cbn [obind]; auto. rewrite ofold_map. reflexivity.
Qed.

Section Res.
Variables (al : nat -> list Z) (P : problem) (precless : list nat) (dst : list (list nat)) (scc : list Z) (s rch : list bool) (R : nat -> Prop) (mm : lm_mem) (ct : list nat).
Hypothesis IN : lm_input al P precless dst scc s mm.
Hypothesis RO : rch_ok P s rch R.
Hypothesis GV : forall f, In f (p_goal P) -> visible P s rch (EF f).

(** if all sources are derivable, the landmarks of all of them are collected *)
Lemma result_spec : (forall e, In e (sources P ct) -> derivable P (holds s) R e) -> exists lm, lm_result al P precless dst scc s rch ct mm = Some lm /\
  (forall a, In a lm -> exists e, In e (sources P ct) /\ landmark P (holds s) R e (atom_elem a)) /\
  (forall e y, In e (sources P ct) -> exists_elem P y -> keep P s rch (code P y) -> landmark P (holds s) R e y -> exists a, In a lm /\ atom_elem a = y).
Proof.
  intros DV. unfold lm_result. destruct (calc_spec al P precless dst scc s rch R mm IN RO) as (x & E & L & O & D & F & S & C). rewrite E. cbn [obind].
  assert (HV : forall e, In e (sources P ct) -> exists_elem P e /\ visible P s rch e).
  { intros e He. destruct (DV e He) as (W & HW). split; [eapply (dv_exists1 P precless dst (l_wp _ _ _ _ _ _ _ IN) (l_wf _ _ _ _ _ _ _ IN) s R (l_sl _ _ _ _ _ _ _ IN)); eauto|].
    unfold sources in He. apply in_app_or in He as [He|He]; apply in_map_iff in He as (k & <- & Hk); [exact Logic.I|auto]. }
  assert (HS : forall e, In e (sources P ct) -> exists_elem P e /\ node_ok (numNodes P) (l_nodes x) (code P e) /\ fullb (l_nodes x) (code P e) = false).
  { intros e He. destruct (HV e He) as [X V]. split; auto. split; auto. destruct (DV e He) as (W & HW). eapply D; eauto. }
  rewrite copy_global. destruct (copy_nodes_ok P (l_nodes x) (sources P ct) L HS [] (NoDup_nil _)) as (u & Eu & NDu & Iu). rewrite Eu. cbn [obind]. eexists. split; [reflexivity|]. split.
  - intros a Ha. apply in_map_iff in Ha as (v & <- & Hv). apply Iu in Hv as [[]|(e & He & Hv)]. exists e. split; auto. destruct (HS e He) as (X & ON & _).
    destruct (no_rng _ _ _ ON v Hv) as (j & Lj & -> & _). rewrite Nat2Z.id. destruct (code_surj P j Lj) as (y & Y & <-). rewrite node_atom_code by auto. intros W HW. eapply S; eauto.
  - intros e y He Y K LM. destruct (HS e He) as (X & _ & FE). exists (node_atom P (code P y)). split; [|now apply node_atom_code]. apply in_map_iff. exists (Z.of_nat (code P y)). rewrite Nat2Z.id. split; auto.
    apply Iu. right. exists e. split; auto.
Qed.
End Res.

Definition has_tasks (tn : tnet) (ct : list nat) : Prop := forall t, In t ct -> exists x, t_in tn x /\ t_lab tn x = t.

(** *** C95: what is returned occurs in every solution (without and with planning graph) *)
Theorem lm_solution al P precless dst scc s mm ct tn tr tn' plan : lm_input al P precless dst scc s mm -> has_tasks tn ct -> solves_by P (holds s) tn tr tn' plan ->
  exists lm, lm_result al P precless dst scc s (reach_all P) ct mm = Some lm /\ forall a, In a lm -> occurs P (holds s) tr tn' plan (atom_elem a).
Proof.
  intros IN HT SB. pose proof (l_wp _ _ _ _ _ _ _ IN) as WP. destruct (solution_dv P (holds s) ALL tn tr tn' plan WP) as [D1 D2]; auto; [unfold closed_tasks; auto|].
  assert (DV : forall e, In e (sources P ct) -> exists W, dv P (holds s) ALL e W /\ forall y, In y W -> occurs P (holds s) tr tn' plan y).
  { intros e He. unfold sources in He. apply in_app_or in He as [He|He]; apply in_map_iff in He as (k & <- & Hk); [|auto]. destruct (HT k Hk) as (x & Hx & <-). auto. }
  destruct (result_spec al P precless dst scc s (reach_all P) ALL mm ct IN) as (lm & E & H1 & _).
  - eapply rch_all; apply IN.
  - intros f Hf. apply visible_all. apply (wf_goal _ WP f Hf).
  - intros e He. destruct (DV e He) as (W & HW & _). exists W. auto.
  - exists lm. split; auto. intros a Ha. destruct (H1 a Ha) as (e & He & LMa). destruct (DV e He) as (W & HW & Q). auto.
Qed.

Theorem lm_solution_pg al P precless dst scc s mm al' T q0 R r ct tn tr tn' plan : lm_input al P precless dst scc s mm -> pg_input al' P T q0 s R -> calcReachability al' P T q0 s R = Some r ->
  (forall v, In v (r_op r) -> (v < INT_MAX)%Z) -> closed_tasks P (holds R) -> (forall x, t_in tn x -> holds R (t_lab tn x)) ->
  has_tasks tn ct -> solves_by P (holds s) tn tr tn' plan ->
  exists lm, lm_result al P precless dst scc s (reach_pg P r) ct mm = Some lm /\ forall a, In a lm -> occurs P (holds s) tr tn' plan (atom_elem a).
Proof.
  intros IN PG Er OM CR HR HT SB. pose proof (l_wp _ _ _ _ _ _ _ IN) as WP. destruct (solution_dv P (holds s) (holds R) tn tr tn' plan WP) as [D1 D2]; auto.
  assert (DV : forall e, In e (sources P ct) -> exists W, dv P (holds s) (holds R) e W /\ forall y, In y W -> occurs P (holds s) tr tn' plan y).
  { intros e He. unfold sources in He. apply in_app_or in He as [He|He]; apply in_map_iff in He as (k & <- & Hk); [|auto]. destruct (HT k Hk) as (x & Hx & <-). auto. }
  destruct (result_spec al P precless dst scc s (reach_pg P r) (holds R) mm ct IN) as (lm & E & H1 & _).
  - eapply rch_pg; eauto. apply IN.
  - intros f Hf. pose proof (wf_goal _ WP f Hf) as X. cbn [visible]. rewrite bat_pg by exact X. destruct (bat s f) eqn:Ef; auto. left. apply memb_In.
    destruct (pg_relative al' P T q0 s R r PG Er) as (A & _ & _ & _ & _ & _ & _ & _ & US). apply US. split; auto. split; auto. apply (bat_false s f); auto. rewrite (l_sl _ _ _ _ _ _ _ IN). auto.
  - intros e He. destruct (DV e He) as (W & HW & _). exists W. auto.
  - exists lm. split; auto. intros a Ha. destruct (H1 a Ha) as (e & He & LMa). destruct (DV e He) as (W & HW & Q). auto.
Qed.

(** *** C96: and nothing is missing: exactly the landmarks of the contained tasks and of the goal, if these are derivable *)
Theorem lm_result_exact al P precless dst scc s mm ct : lm_input al P precless dst scc s mm -> (forall t, In t ct -> derivable P (holds s) ALL (ET t)) -> (forall f, In f (p_goal P) -> derivable P (holds s) ALL (EF f)) ->
  exists lm, lm_result al P precless dst scc s (reach_all P) ct mm = Some lm /\
    forall y, exists_elem P y -> (exists a, In a lm /\ atom_elem a = y) <-> (exists t, In t ct /\ landmark P (holds s) ALL (ET t) y) \/ (exists f, In f (p_goal P) /\ landmark P (holds s) ALL (EF f) y).
Proof.
  intros IN DT DF. pose proof (l_wp _ _ _ _ _ _ _ IN) as WP. destruct (result_spec al P precless dst scc s (reach_all P) ALL mm ct IN) as (lm & E & H1 & H2).
  - eapply rch_all; apply IN.
  - intros f Hf. apply visible_all. apply (wf_goal _ WP f Hf).
  - intros e He. unfold sources in He. apply in_app_or in He as [He|He]; apply in_map_iff in He as (k & <- & Hk); auto.
  - exists lm. split; auto. intros y Y. split.
    + intros (a & Ha & <-). destruct (H1 a Ha) as (e & He & LMa). unfold sources in He. apply in_app_or in He as [He|He]; apply in_map_iff in He as (k & <- & Hk); eauto.
    + assert (K : keep P s (reach_all P) (code P y)) by (intros (_ & _ & Q); rewrite bat_all in Q; [discriminate|now apply code_lt]).
      intros [(k & Hk & LMa)|(k & Hk & LMa)]; eapply H2; eauto; unfold sources; apply in_or_app; [left|right]; now apply in_map.
Qed.

(** *** The tables of class Model *)
Definition dst_of (P : problem) : option (list (list nat)) := omap (fun md => D <- distinct_table (m_subs md) ;; Some (map (fun e => Z.to_nat (fst e)) D)) (p_methods P).

Theorem lm_tables_wf P : wf_problem P -> (forall t, t < length (p_cost P) -> nth_error (p_prim P) t = Some true) -> exists dst, dst_of P = Some dst /\ lm_wf P (precless (p_prec P)) dst.
Proof.
  intros WP HP. unfold dst_of. set (F := fun md => D <- distinct_table (m_subs md) ;; Some (map (fun e : Z * Z => Z.to_nat (fst e)) D)).
  destruct (Rc_proof.omap_some F (p_methods P)) as (dst & ED).
  { intros md _. destruct (distinct_subtasks_exact (m_subs md)) as (D & Q & _). unfold F. rewrite Q. cbn. eauto. }
  exists dst. split; auto. constructor; auto.
  - apply NoDup_filter, seq_NoDup.
  - intros a. unfold precless. rewrite filter_In, in_seq, Nat.eqb_eq, length_zero_iff_nil. split.
    + intros [[_ L] <-]. now apply nth_error_nth'.
    + intros Q. split; [split; [lia|]; apply nth_error_Some; congruence|now apply nth_error_nth].
  - intros m md Em t. apply Rc_proof.omap_nth in ED as (_ & G & _). destruct (G m md Em) as (row & E1 & E2).
    assert (Q : F md = Some row /\ nth_error dst m = Some row) by (first [exact (conj E1 E2)|exact (conj E2 E1)]). destruct Q as [Q1 Q2]. rewrite (nth_error_nth _ _ [] Q2).
    unfold F in Q1. destruct (distinct_subtasks_exact (m_subs md)) as (D & ED & _ & I). rewrite ED in Q1. cbn in Q1. injection Q1 as <-. rewrite in_map_iff. split.
    + intros ((z & c) & <- & H). apply I in H as (t' & -> & Ht & _). cbn. now rewrite Nat2Z.id.
    + intros Ht. exists (Z.of_nat t, Z.of_nat (count_occ Nat.eq_dec (m_subs md) t)). cbn. rewrite Nat2Z.id. split; auto. apply I. eauto.
Qed.

Theorem lm_new_ok al P : alloc_ok al -> 4 <= numNodes P -> exists mm, lm_new al P = Some mm /\ mem_ok P mm.
Proof.
  intros AL L. unfold lm_new. destruct (heap_new_ok al (numNodes P / 4)) as (h & E & H & _); [apply Nat.div_le_lower_bound; lia|apply AL|]. rewrite E. cbn [obind].
  destruct (heap_new_ok al 25) as (h2 & E2 & H2 & _); [lia|apply AL|]. rewrite E2. cbn [obind]. eexists. split; [reflexivity|]. constructor; cbn; auto. apply repeat_length.
Qed.

(** *** Examples *)
Module Ex.
  Import Pg_thm.Ex.
  Definition dst1 : list (list nat) := [[5; 6]; [2]; [0; 1]; [1; 5]].
  Lemma lwf1 : lm_wf P1 [0] dst1.
  Proof.
    destruct (lm_tables_wf P1 wf1) as (d & E & W).
    - intros t L. cbn in L. do 4 (destruct t as [|t]; [reflexivity|]). lia.
    - vm_compute in E. injection E as <-. exact W.
  Qed.
  Definition scc1 : list Z := repeat 3%Z 16.
  Definition s2 : list bool := [true; false; false; true; false].
  Lemma lin s : length s = 5 -> exists mm, lm_new al P1 = Some mm /\ lm_input al P1 [0] dst1 scc1 s mm.
  Proof.
    intros L. destruct (lm_new_ok al P1 Relax_thm.Ex.al_ok) as (mm & E & M); [cbn; lia|]. exists mm. split; auto.
    constructor; auto using Relax_thm.Ex.al_ok, wf1, lwf1. intros c H. apply repeat_spec in H. subst. unfold key_ok, int_min, INT_MAX. cbn. lia.
  Qed.
  (** Task 6 needs the facts 0 and 1, the tasks 0 1 5 6 and the methods 2 3; the goal facts 2 and 4 the actions 0 1 2 and the facts 0 1 3. *)
  Example lm_ex : exists mm, lm_new al P1 = Some mm /\ lm_input al P1 [0] dst1 scc1 s2 mm /\
    lm_result al P1 [0] dst1 scc1 s2 (reach_all P1) [6] mm = Some [LF 0; LF 1; LT 0; LT 1; LT 5; LT 6; LM 2; LM 3; LF 2; LF 3; LF 4; LT 2].
  Proof.
    destruct (lin s2 eq_refl) as (mm & E & IN). exists mm. split; auto. split; auto. vm_compute in E. injection E as <-. vm_compute. reflexivity.
  Qed.
  (** With the planning graph facts of the state are left out. *)
  Example lm_pg_ex : exists mm r, lm_new al P1 = Some mm /\ lm_input al P1 [0] dst1 scc1 s2 mm /\ pg_input al P1 T1 q0 s2 R1 /\ calcReachability al P1 T1 q0 s2 R1 = Some r /\
    (forall v, In v (r_op r) -> (v < INT_MAX)%Z) /\ closed_tasks P1 (holds R1) /\
    lm_result al P1 [0] dst1 scc1 s2 (reach_pg P1 r) [6] mm = Some [LF 1; LT 0; LT 1; LT 5; LT 6; LM 2; LM 3; LF 2; LF 4; LT 2].
  Proof.
    destruct (lin s2 eq_refl) as (mm & E & IN). destruct input1 as [A1 A2 A3 A4 A5 A6 A7]. assert (PI : pg_input al P1 T1 q0 s2 R1) by (constructor; auto).
    exists mm. eexists. split; auto. split; auto. split; auto. split; [vm_compute; reflexivity|]. split; [|split].
    - intros v H. cbn in H. repeat (destruct H as [<-|H]; [unfold INT_MAX; lia|]). destruct H.
    - exact closed1.
    - vm_compute in E. injection E as <-. vm_compute. reflexivity.
  Qed.

  (** With the initial state [s1] the goal fact 4 cannot be derived. *)
  Example lm_undefined : exists mm, lm_new al P1 = Some mm /\ lm_input al P1 [0] dst1 scc1 s1 mm /\ lm_result al P1 [0] dst1 scc1 s1 (reach_all P1) [] mm = None.
  Proof. destruct (lin s1 eq_refl) as (mm & E & IN). exists mm. split; auto. split; auto. vm_compute in E. injection E as <-. vm_compute. reflexivity. Qed.

  (** The network with the tasks 4, 0 and 1: 4 is decomposed into 2, the plan is 0 1 2. *)
  Definition tn1 : tnet := {| t_in := fun x => In x [[0]; [1]; [2]]; t_lab := fun x => match x with [0] => 4 | [1] => 0 | _ => 1 end; t_ord := fun _ _ => False |}.
  Definition tn2 : tnet := {| t_in := fun x => In x [[1]; [2]; [0; 0]]; t_lab := fun x => match x with [1] => 0 | [2] => 1 | _ => 2 end; t_ord := fun _ _ => False |}.
  Definition md1 : method := {| m_task := 4; m_subs := [2]; m_ord := [] |}.
  Lemma dec1 : decomposes P1 tn1 [0] md1 tn2.
  Proof.
    constructor; cbn [t_in t_lab t_ord tn1 tn2 md1 m_subs m_ord m_task].
    - cbn. auto.
    - now left.
    - reflexivity.
    - intros y. split.
      + intros [<-|[<-|[<-|[]]]]; [left; split; [cbn; auto|discriminate]|left; split; [cbn; auto|discriminate]|right; exists 0; split; [cbn; lia|reflexivity]].
      + intros [[[<-|[<-|[<-|[]]]] N]|(j & Lj & ->)]; [easy|cbn; auto|cbn; auto|]. cbn in Lj. replace j with 0 by lia. cbn; auto.
    - intros y [<-|[<-|[<-|[]]]] N; auto; easy.
    - intros [|[|j]] t Q; cbn in Q; try discriminate. injection Q as <-. reflexivity.
    - intros y z. split; [easy|]. intros [(_ & _ & _ & _ & [])|[(j & k & Lj & Lk & _ & _ & M)|[(j & _ & _ & _ & _ & [])|(k & _ & _ & _ & _ & [])]]].
      clear - M. induction M as [a b [] | a b c M1 IH1 M2 IH2]; auto.
  Qed.
  Lemma solves1 : solves_by P1 (holds s2) tn1 [(tn1, 1)] tn2 [0; 1; 2].
  Proof.
    exists [[1]; [2]; [0; 0]]. split; [eapply rb_step; [|exact dec1|constructor]; reflexivity|]. split; [intros x [<-|[<-|[<-|[]]]]; reflexivity|]. split; [|split; [reflexivity|split]].
    - split; [repeat constructor; cbn; intuition discriminate|]. split; [easy|]. intros i j x y _ _ [].
    - assert (PA : forall a l f, nth_error (p_prec P1) a = Some l -> precs P1 a f -> In f l) by (intros a l f Q (l' & Q' & Hf); congruence).
      assert (AD : forall a l f, nth_error (p_add P1) a = Some l -> In f l -> adds P1 a f) by (intros a l f Q Hf; exists l; auto).
      split; [|split; [|split; [|exact Logic.I]]]; intros f Hf.
      + apply (PA 0 []) in Hf; [destruct Hf|reflexivity].
      + apply (PA 1 [0; 1]) in Hf; [|reflexivity]. destruct Hf as [<-|[<-|[]]].
        * right. split; [reflexivity|]. intros (l & Q & Hl). injection Q as <-. destruct Hl.
        * left. apply (AD 0 [1]); [reflexivity|now left].
      + apply (PA 2 [3]) in Hf; [|reflexivity]. destruct Hf as [<-|[]]. right. split; [right; split; [reflexivity|]|]; intros (l & Q & Hl); injection Q as <-; cbn in Hl; intuition discriminate.
    - assert (AD : forall a l f, nth_error (p_add P1) a = Some l -> In f l -> adds P1 a f) by (intros a l f Q Hf; exists l; auto).
      intros f [<-|[<-|[]]].
      + right. split; [|intros (l & Q & Hl); injection Q as <-; destruct Hl]. left. apply (AD 1 [2]); [reflexivity|now left].
      + left. apply (AD 2 [4]); [reflexivity|now left].
  Qed.
  Example lm_solution_ex : exists mm lm, lm_result al P1 [0] dst1 scc1 s2 (reach_all P1) [4; 0] mm = Some lm /\ In (LT 4) lm /\ occurs P1 (holds s2) [(tn1, 1)] tn2 [0; 1; 2] (ET 4).
  Proof.
    destruct (lin s2 eq_refl) as (mm & E & IN). destruct (fun HT => lm_solution _ _ _ _ _ _ _ [4; 0] _ _ _ _ IN HT solves1) as (lm & Q & H).
    - intros t [<-|[<-|[]]]; [exists [0]|exists [1]]; cbn; auto.
    - exists mm, lm. split; auto. assert (HI : In (LT 4) lm). { vm_compute in E. injection E as <-. vm_compute in Q. injection Q as <-. cbn. auto 20. } split; auto. exact (H _ HI).
  Qed.
End Ex.

(** *** C97 (refuted): the landmarks of a node without derivation are read from its empty container *)
Theorem lm_copy_refuted : ~ (forall al P precless dst scc s mm ct, lm_new al P = Some mm -> lm_input al P precless dst scc s mm -> (forall t, In t ct -> t < length (p_prim P)) ->
  exists lm, lm_result al P precless dst scc s (reach_all P) ct mm = Some lm).
Proof.
  intros H. destruct Ex.lm_undefined as (mm & E & IN & Q). destruct (H _ _ _ _ _ _ _ [] E IN) as (lm & Q'); [easy|]. congruence.
Qed.

Print Assumptions lm_defined.
Print Assumptions lm_sound.
Print Assumptions lm_exact.
Print Assumptions lm_pg.
Print Assumptions lm_solution.
Print Assumptions lm_solution_pg.
Print Assumptions solves_trace.
Print Assumptions lm_result_exact.
Print Assumptions lm_tables_wf.
Print Assumptions lm_new_ok.
Print Assumptions lm_copy_refuted.
