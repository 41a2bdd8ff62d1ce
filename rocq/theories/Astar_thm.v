(** Theorems about the heuristic search (properties C63-C66). Proofs are in Astar_proof and Astar_vis. *)
From Coq Require Import ZArith NArith.
From Verif Require Import Base Rel Htn_model Htn_spec Htn_sem Htn_iso Htn_rep Htn_history Htn_proof Htn_search Htn_hist Htn_thm.
From Verif Require Import Rc_spec Vis_model VisTop_proof Vis_proof VisOrd_proof.
From Verif Require Import Scc_model Relax_model Rc_model Fringe_model Fringe_proof Fringe_thm Astar_model Astar_proof Astar_vis.
From Verif Require Heap_proof Vis_thm Reach_thm Rc_thm Relax_thm Scc_spec.

Local Open Scope Z_scope.

(** ** Contracts *)

(** The queue is a std::priority_queue with the comparator of OneQueueWAStarFringe. *)
Definition a_fringe_ok {V} (E : aenv V) : Prop := pq_ok (length (a_hs E)) (a_push E) (a_pop E).

(** Heuristics report dead ends only for unsolvable nodes. *)
Definition a_dead_ok {V} (P : problem) (C : config) (E : aenv V) : Prop :=
  forall w l n s tn pi a f, history P C w l -> In n l -> Rep P (w_heap w) n s tn pi -> In (a, f) (a_hs E) -> f w n = None -> forall plan, ~ solves P s tn plan.

(** The first heuristic never overestimates the costs of the cheapest plan of the node. *)
Definition admissible {V} (P : problem) (C : config) (E : aenv V) : Prop :=
  forall a f r w l n s tn pi h, a_hs E = (a, f) :: r -> history P C w l -> In n l -> Rep P (w_heap w) n s tn pi -> f w n = Some h ->
    0 <= h /\ forall plan, solves P s tn plan -> h <= Z.of_nat (plan_cost P plan).

(** The first heuristic depends on the state and the remaining tasks only. *)
Definition invariant {V} (P : problem) (C : config) (E : aenv V) : Prop :=
  forall a f r w l n s tn pi h w' l' n' s' tn' pi' h', a_hs E = (a, f) :: r ->
    history P C w l -> In n l -> Rep P (w_heap w) n s tn pi -> f w n = Some h ->
    history P C w' l' -> In n' l' -> Rep P (w_heap w') n' s' tn' pi' -> f w' n' = Some h' ->
    same_node s tn s' tn' -> h = h'.

(** The value of the first heuristic that was stored when the node was created: 0 for the initial node. *)
Definition stored_h {V} (P : problem) (C : config) (E : aenv V) (w : world) (n : node) (h : Z) : Prop :=
  exists w0 l, history P C w0 l /\ In n l /\ extends w0 w /\
    ((init_node P = Some (w0, n) /\ h = 0) \/ exists a f r, a_hs E = (a, f) :: r /\ f w0 n = Some h).

(** The f value with which the visited list is called: not set in suboptimal search. *)
Definition f_of {V} (P : problem) (C : config) (E : aenv V) (w : world) (n : node) (fo : option Z) : Prop :=
  match fo with
  | None => a_sub E = true
  | Some f => a_sub E = false /\ exists h, stored_h P C E w n h /\ f = f_value (a_gval E) (a_weight E) h (n_depth n) (n_cost n) (n_mixed n)
  end.

(** The visited list only rejects nodes that are equal, up to renaming of tasks, to a node inserted before; if [costs] is true, one that was
    reached with at most the same costs. [I v L] reads "exactly the nodes [L] have been accepted by [v]". *)
Definition a_visited_ok {V} (costs : bool) (P : problem) (C : config) (E : aenv V) (v0 : V) : Prop :=
  exists I : V -> list (state * tnet * nat) -> Prop, I v0 [] /\
  (forall w l v n s tn pi fo L v', history P C w l -> In n l -> Rep P (w_heap w) n s tn pi -> f_of P C E w n fo -> I v L ->
     a_vis E w v n fo = (true, v') -> I v' ((s, tn, n_cost n) :: L)) /\
  (forall w l v n s tn pi fo L v', history P C w l -> In n l -> Rep P (w_heap w) n s tn pi -> f_of P C E w n fo -> I v L ->
     a_vis E w v n fo = (false, v') -> I v' L /\ exists s2 tn2 g2, In (s2, tn2, g2) L /\ same_node s tn s2 tn2 /\ (costs = true -> g2 <= n_cost n)%nat).

(** ** Lemmas *)
Lemma stored_ext {V} P C (E : aenv V) w w' n h : extends w w' -> stored_h P C E w n h -> stored_h P C E w' n h.
Proof. intros X (w0 & l & H & Hn & X0 & Q). exists w0, l. split; auto. split; auto. split; auto. eapply extends_trans; eauto. Qed.

(** A node keeps its meaning while the memory grows. *)
Lemma same_later P C w0 l0 w n s tn pi : wf_problem P -> config_ok C -> history P C w0 l0 -> In n l0 -> extends w0 w -> wf_heap P (w_heap w) ->
  Rep P (w_heap w) n s tn pi -> exists s0 tn0 pi0, Rep P (w_heap w0) n s0 tn0 pi0 /\ same_node s tn s0 tn0.
Proof.
  intros WP HC H0 Hn (e & X) W R. destruct (history_ok P C WP HC w0 l0 H0) as (W0 & N0). destruct (N0 n Hn) as (s0 & tn0 & pi0 & R0 & _).
  exists s0, tn0, pi0. split; auto. apply (Rep_iso P (w_heap w) n s tn pi s0 tn0 pi0); auto. rewrite X. now apply Rep_ext.
Qed.

Lemma same_node_sym s tn s' tn' : same_node s tn s' tn' -> same_node s' tn' s tn.
Proof. intros [A (f & I)]. split; [intros x; symmetry; apply A|]. exists (fun x y => f y x). destruct I. split; eauto.
  - intros x y H. apply iso_dom in H. tauto.
  - intros x y H. symmetry; eauto.
  - intros x y x' y' H H'. symmetry; eauto.
Qed.

Lemma same_node_trans s1 a s2 b s3 d : same_node s1 a s2 b -> same_node s2 b s3 d -> same_node s1 a s3 d.
Proof.
  intros [A (f & I)] [B (g & J)]. split; [intros x; rewrite (A x); apply B|]. exists (fun x z => exists y, f x y /\ g y z). destruct I, J. split.
  - intros x z (y & H1 & H2). split; [apply (iso_dom x y H1)|apply (iso_dom0 y z H2)].
  - intros x Hx. destruct (iso_tot x Hx) as (y & Hy). destruct (iso_tot0 y) as (z & Hz); [apply (iso_dom x y Hy)|]. eauto.
  - intros z Hz. destruct (iso_surj0 z Hz) as (y & Hy). destruct (iso_surj y) as (x & Hx); [apply (iso_dom0 y z Hy)|]. eauto.
  - intros x z z' (y & H1 & H2) (y' & H3 & H4). assert (y = y') by eauto. subst y'. eauto.
  - intros x x' z (y & H1 & H2) (y' & H3 & H4). assert (y = y') by eauto. subst y'. eauto.
  - intros x z (y & H1 & H2). rewrite (iso_lab0 y z), (iso_lab x y); auto.
  - intros x z x' z' (y & H1 & H2) (y' & H3 & H4). rewrite (iso_ord x y x' y' H1 H3). auto.
Qed.

Lemma solves_same P s tn s' tn' plan : wf_problem P -> wf_tn tn -> wf_tn tn' -> same_node s tn s' tn' -> solves P s tn plan -> solves P s' tn' plan.
Proof.
  intros WP W W' SN SV. apply solves_solvesk in SV as (k & SV); auto using wf_acyclic. apply solves_solvesk; auto using wf_acyclic. exists k.
  eapply solvesk_iso; [apply wf_acyclic; auto|exact W|exact W'|exact SN|exact SV].
Qed.

Lemma stored_admissible {V} P C (E : aenv V) w n s tn pi h : wf_problem P -> config_ok C -> admissible P C E -> wf_heap P (w_heap w) -> Rep P (w_heap w) n s tn pi ->
  stored_h P C E w n h -> 0 <= h /\ forall plan, solves P s tn plan -> h <= Z.of_nat (plan_cost P plan).
Proof.
  intros WP HC AD W R (w0 & l & H & Hn & X & [[_ ->]|(a & f & r & EH & EF)]); [split; [lia|intros; lia]|].
  destruct (same_later P C w0 l w n s tn pi) as (s0 & tn0 & pi0 & R0 & SN); auto.
  destruct (AD a f r w0 l n s0 tn0 pi0 h EH H Hn R0 EF) as [A1 A2]. split; auto. intros plan SV. apply A2.
  eapply solves_same; [auto|apply (r_wf _ _ _ _ _ _ R)|apply (r_wf _ _ _ _ _ _ R0)|exact SN|exact SV].
Qed.

Section Main.
  Context {V : Type}.
  Variables (P : problem) (C : config) (E : aenv V) (v0 : V).
  Hypothesis WP : wf_problem P.
  Hypothesis HC : config_ok C.
  Hypothesis PQ : a_fringe_ok E.

  Lemma stored_root w n : init_node P = Some (w, n) -> stored_h P C E w n 0.
  Proof. intros H. exists w, [n]. split; [now apply h_init|]. split; [now left|]. split; [apply extends_refl|]. left. auto. Qed.
  Lemma stored_new w l n a f r h : history P C w l -> In n l -> a_hs E = (a, f) :: r -> f w n = Some h -> stored_h P C E w n h.
  Proof. intros H Hn EH EF. exists w, l. split; auto. split; auto. split; [apply extends_refl|]. right. eauto. Qed.

  Definition jh (w : world) (n : node) : Prop := exists l, history P C w l /\ In n l.

  Lemma main_sound afuel fuel w n : a_search P C E v0 afuel fuel = Solved w n -> solution P (printed_plan n) /\ n_cost n = plan_cost P (printed_plan n).
  Proof.
    intros H. pose proof (astar_ok P C E WP HC PQ False False (fun _ _ => True) ltac:(intros; exact I) (stored_h P C E) stored_root stored_new (fun w w' n h => stored_ext P C E w w' n h)
      (fun _ _ => True) ltac:(intros; exact I) ltac:(intros; split; [exact I|intros []]) ltac:(intros []) ltac:(intros []) ltac:(intros []) ltac:(intros []) ltac:(intros []) v0 afuel fuel I) as Q.
    rewrite H in Q. apply Q.
  Qed.

  Lemma main_complete costs afuel fuel : a_visited_ok costs P C E v0 -> a_dead_ok P C E ->
    (costs = true -> a_sub E = false /\ a_gval E = GAction /\ 0 <= a_weight E /\ admissible P C E) ->
    match a_search P C E v0 afuel fuel with
    | Solved w n => costs = true -> forall plan, solution P plan -> Z.of_nat (n_cost n) <= Z.max 1 (a_weight E) * Z.of_nat (plan_cost P plan)
    | Unsolvable => forall plan, ~ solution P plan
    | _ => True
    end.
  Proof.
    intros (VI & V0 & V1 & V2) DE AD.
    pose proof (astar_ok P C E WP HC PQ True (costs = true) jh (fun w l n h i => ex_intro _ l (conj h i)) (stored_h P C E) stored_root stored_new (fun w w' n h => stored_ext P C E w w' n h)
      VI) as Q.
    specialize (Q ltac:(intros ? ? ? ? ? ? ? ? ? (? & ? & ?); eauto)).
    specialize (Q ltac:(intros w v n s tn pi fo L v' (l & H1 & H2) H3 H4 H5 H6 X; destruct (V2 w l v n s tn pi fo L v' H1 H2 H4 H5 H6 X); auto)).
    specialize (Q ltac:(intros _ w n s tn pi a f (l & H1 & H2) H3 H4; eauto)).
    specialize (Q (fun O => proj1 (AD O)) (fun O => proj1 (proj2 (AD O))) (fun O => proj1 (proj2 (proj2 (AD O))))).
    specialize (Q ltac:(intros O w n h s tn pi W N K; apply (stored_admissible P C E w n s tn pi h WP HC (proj2 (proj2 (proj2 (AD O)))) W (proj1 N) K)) v0 afuel fuel V0).
    destruct (a_search P C E v0 afuel fuel) as [w n| | |]; auto. intros O plan SV. now apply Q.
  Qed.
End Main.

(** ** C63: soundness and completeness, for all settings of the search *)

Theorem astar_sound : forall V (P : problem) (C : config) (E : aenv V) v0 afuel fuel w n,
  wf_problem P -> config_ok C -> a_fringe_ok E ->
  a_search P C E v0 afuel fuel = Solved w n -> solution P (printed_plan n) /\ n_cost n = plan_cost P (printed_plan n).
Proof. intros V P C E v0 afuel fuel w n WP HC PQ H. eapply main_sound; eauto. Qed.

Theorem astar_unsolvable : forall V (P : problem) (C : config) (E : aenv V) v0 afuel fuel,
  wf_problem P -> config_ok C -> a_fringe_ok E -> a_visited_ok false P C E v0 -> a_dead_ok P C E ->
  a_search P C E v0 afuel fuel = Unsolvable -> forall plan, ~ solution P plan.
Proof.
  intros V P C E v0 afuel fuel WP HC PQ VO DE H. pose proof (main_complete P C E v0 WP HC PQ false afuel fuel VO DE ltac:(discriminate)) as Q. rewrite H in Q. exact Q.
Qed.

(** ** C64: the costs of the plan *)

(** Weighted A*: the plan is at most [weight] times as expensive as the cheapest one. *)
Theorem astar_bounded : forall V (P : problem) (C : config) (E : aenv V) v0 afuel fuel w n,
  wf_problem P -> config_ok C -> a_fringe_ok E -> a_visited_ok true P C E v0 -> a_dead_ok P C E ->
  a_sub E = false -> a_gval E = GAction -> 0 <= a_weight E -> admissible P C E ->
  a_search P C E v0 afuel fuel = Solved w n ->
  forall plan, solution P plan -> Z.of_nat (plan_cost P (printed_plan n)) <= Z.max 1 (a_weight E) * Z.of_nat (plan_cost P plan).
Proof.
  intros V P C E v0 afuel fuel w n WP HC PQ VO DE SB GV WT AD H plan SV.
  pose proof (main_complete P C E v0 WP HC PQ true afuel fuel VO DE ltac:(auto)) as Q. rewrite H in Q.
  destruct (main_sound P C E v0 WP HC PQ _ _ _ _ H) as [_ <-]. auto.
Qed.

(** A* (weight 1) and uniform cost search (weight 0): the plan is a cheapest one. *)
Theorem astar_optimal : forall V (P : problem) (C : config) (E : aenv V) v0 afuel fuel w n,
  wf_problem P -> config_ok C -> a_fringe_ok E -> a_visited_ok true P C E v0 -> a_dead_ok P C E ->
  a_sub E = false -> a_gval E = GAction -> 0 <= a_weight E <= 1 -> admissible P C E ->
  a_search P C E v0 afuel fuel = Solved w n ->
  solution P (printed_plan n) /\ forall plan, solution P plan -> (plan_cost P (printed_plan n) <= plan_cost P plan)%nat.
Proof.
  intros V P C E v0 afuel fuel w n WP HC PQ VO DE SB GV WT AD H. split; [eapply astar_sound; eauto|]. intros plan SV.
  pose proof (astar_bounded V P C E v0 afuel fuel w n WP HC PQ VO DE SB GV (proj1 WT) AD H plan SV) as Q. rewrite Z.max_l in Q by lia. lia.
Qed.

(** ** C65: the visited list *)

(** Without visited list. *)
Theorem astar_visited_off : forall V costs P C (E : aenv V) v0, (forall w v n fo, a_vis E w v n fo = (true, v)) -> a_visited_ok costs P C E v0.
Proof.
  intros V costs P C E v0 H. exists (fun _ _ => True). split; auto. split; [auto|]. intros w l v n s tn pi fo L v' _ _ _ _ _ Q. rewrite H in Q. discriminate.
Qed.

(** The search uses the visited list of Vis_model.v; where the code is undefined, the node counts as new. *)
Definition a_uses (c : vconf) (par : vpar) (E : aenv vtable) : Prop :=
  forall w v n fo, a_vis E w v n fo =
    match insertVisi c (with_f par (match fo with Some f => Z.to_nat f | None => vp_f par w n end)) w v n with Some r => r | None => (true, v) end.

Section Visited.
  Variables (P : problem) (C : config) (c : vconf) (par : vpar) (E : aenv vtable).
  Variable sig : tnet -> list nat -> Prop.
  Hypothesis WP : wf_problem P.
  Hypothesis HC : config_ok C.
  Hypothesis OFF : vc_off c = false.
  Hypothesis MODE : (vc_TO c || vc_PS c = true)%bool.
  Hypothesis TP : vc_topo c = true.
  Hypothesis NF : (0 < p_nfacts P)%nat.
  Hypothesis NB : (0 < vc_bits c)%nat.
  Hypothesis HS : forall w l n s tn pi, history P C w l -> In n l -> Rep P (w_heap w) n s tn pi ->
    exists sq, vis_sequence c par (w_heap w) n = Some sq /\ sig tn sq /\ forall t, In t sq -> (t < 2 ^ vc_bits c)%nat.
  Hypothesis HI : forall a b sq, sig a sq -> sig b sq -> exists f, iso f a b.
  Hypothesis UE : a_uses c par E.

  Lemma visited_plain : a_visited_ok false P C E [].
  Proof.
    pose proof (cost_insert P C c par sig OFF MODE TP NF NB HS HI (fun _ _ _ _ => True)) as ST.
    exists (vinvc P c sig (fun _ _ _ _ => True)). split; [|split].
    - exists []. split; [apply tab_inv_nil|intros e []].
    - intros w l v n s tn pi fo L v' H Hn R F I Ev. rewrite UE in Ev. destruct (ST w v n s tn (n_cost n) (match fo with Some f => Z.to_nat f | None => vp_f par w n end) L) as [S1 _]; [exists l, pi; auto|exact Logic.I|exact I|]. unfold v_totalc in S1. rewrite Ev in S1. auto.
    - intros w l v n s tn pi fo L v' H Hn R F I Ev. rewrite UE in Ev. destruct (ST w v n s tn (n_cost n) (match fo with Some f => Z.to_nat f | None => vp_f par w n end) L) as [_ S1]; [exists l, pi; auto|exact Logic.I|exact I|]. unfold v_totalc in S1. rewrite Ev in S1.
      destruct (S1 eq_refl) as (A & s2 & tn2 & g2 & f2 & B1 & B2 & _). split; auto. exists s2, tn2, g2. split; auto. split; auto. discriminate.
  Qed.

  Hypothesis NR : vc_noReopen c = false.
  Hypothesis SB : a_sub E = false.
  Hypothesis GV : a_gval E = GAction.
  Hypothesis WT : 0 <= a_weight E.
  Hypothesis AD : admissible P C E.
  Hypothesis IV : invariant P C E.

  Definition fq (s : state) (tn : tnet) (g f : nat) : Prop :=
    exists w l n pi h, history P C w l /\ In n l /\ Rep P (w_heap w) n s tn pi /\ n_cost n = g /\ stored_h P C E w n h /\ Z.of_nat f = h * a_weight E + Z.of_nat g.

  Lemma init_cost w n : init_node P = Some (w, n) -> n_cost n = 0%nat.
  Proof. unfold init_node. intros H. apply obind_some in H as (? & _ & H). injection H as _ <-. reflexivity. Qed.

  Lemma fq_le s tn g f s2 tn2 g2 f2 : fq s tn g f -> fq s2 tn2 g2 f2 -> same_node s tn s2 tn2 -> (f2 <= f)%nat -> (g2 <= g)%nat.
  Proof.
    intros (w & l & n & pi & h & H & Hn & R & <- & SH & F) (w2 & l2 & n2 & pi2 & h2 & H2 & Hn2 & R2 & <- & SH2 & F2) SN LE.
    assert (W : wf_heap P (w_heap w)) by apply (history_ok P C WP HC w l H). assert (W2 : wf_heap P (w_heap w2)) by apply (history_ok P C WP HC w2 l2 H2).
    destruct (stored_admissible P C E w n s tn pi h WP HC AD W R SH) as [N1 _]. destruct (stored_admissible P C E w2 n2 s2 tn2 pi2 h2 WP HC AD W2 R2 SH2) as [N2 _].
    assert (M2 : 0 <= h2 * a_weight E) by (apply Z.mul_nonneg_nonneg; auto).
    destruct SH as (u & k & Hu & Inu & Xu & [[EI ->]|(a & hf & r & EH & EF)]).
    - apply init_cost in EI. lia.
    - destruct SH2 as (u2 & k2 & Hu2 & Inu2 & Xu2 & [[EI ->]|(a2 & hf2 & r2 & EH2 & EF2)]); [apply init_cost in EI; lia|].
      rewrite EH in EH2. injection EH2 as <- <- <-.
      destruct (same_later P C u k w n s tn pi) as (s0 & tn0 & pi0 & R0 & SN0); auto.
      destruct (same_later P C u2 k2 w2 n2 s2 tn2 pi2) as (s3 & tn3 & pi3 & R3 & SN3); auto.
      assert (h = h2). { apply (IV a hf r u k n s0 tn0 pi0 h u2 k2 n2 s3 tn3 pi3 h2 EH Hu Inu R0 EF Hu2 Inu2 R3 EF2). eapply same_node_trans; [apply same_node_sym; exact SN0|]. eapply same_node_trans; [exact SN|exact SN3]. }
      subst h2. lia.
  Qed.

  Lemma fq_node w l n s tn pi f : history P C w l -> In n l -> Rep P (w_heap w) n s tn pi -> f_of P C E w n (Some f) -> fq s tn (n_cost n) (Z.to_nat f).
  Proof.
    intros H Hn R (_ & h & SH & ->). exists w, l, n, pi, h. split; auto. split; auto. split; auto. split; auto. split; auto.
    assert (W : wf_heap P (w_heap w)) by apply (history_ok P C WP HC w l H). destruct (stored_admissible P C E w n s tn pi h WP HC AD W R SH) as [N1 _].
    unfold f_value. rewrite GV. assert (0 <= h * a_weight E) by (apply Z.mul_nonneg_nonneg; auto). lia.
  Qed.

  Lemma visited_costs : a_visited_ok true P C E [].
  Proof.
    pose proof (cost_insert P C c par sig OFF MODE TP NF NB HS HI fq) as ST.
    exists (vinvc P c sig fq). split; [|split].
    - exists []. split; [apply tab_inv_nil|intros e []].
    - intros w l v n s tn pi fo L v' H Hn R F I Ev. rewrite UE in Ev. destruct fo as [f|]; [|cbn in F; congruence].
      destruct (ST w v n s tn (n_cost n) (Z.to_nat f) L) as [S1 _]; [exists l, pi; auto|eapply fq_node; eauto|exact I|]. unfold v_totalc in S1. rewrite Ev in S1. auto.
    - intros w l v n s tn pi fo L v' H Hn R F I Ev. rewrite UE in Ev. destruct fo as [f|]; [|cbn in F; congruence].
      assert (FQ : fq s tn (n_cost n) (Z.to_nat f)) by (eapply fq_node; eauto).
      destruct (ST w v n s tn (n_cost n) (Z.to_nat f) L) as [_ S1]; [exists l, pi; auto|exact FQ|exact I|]. unfold v_totalc in S1. rewrite Ev in S1.
      destruct (S1 eq_refl) as (A & s2 & tn2 & g2 & f2 & B1 & B2 & B3 & B4). split; auto. exists s2, tn2, g2. split; auto. split; auto. intros _.
      eapply fq_le; eauto.
  Qed.
End Visited.

(** Totally ordered problems: A* with the visited list is optimal if the value of the first heuristic is determined by the state and the
    remaining tasks. *)
Theorem astar_total_optimal : forall P C par th sh pr la gi ps fps c (E : aenv vtable) afuel fuel w n,
  wf_problem P -> config_ok C -> Vis_thm.alloc_ok par -> total_methods P -> reduced_methods P -> (0 < p_nfacts P)%nat ->
  vis_conf false (a_sub E) th sh true pr la gi ps true fps (length (p_prim P)) = Some c -> a_uses c par E ->
  a_fringe_ok E -> a_dead_ok P C E -> a_sub E = false -> a_gval E = GAction -> 0 <= a_weight E <= 1 -> admissible P C E -> invariant P C E ->
  a_search P C E [] afuel fuel = Solved w n ->
  solution P (printed_plan n) /\ forall plan, solution P plan -> (plan_cost P (printed_plan n) <= plan_cost P plan)%nat.
Proof.
  intros P C par th sh pr la gi ps fps c E afuel fuel w n WP HC AL TM RM NF VC UE FR DE SB GV WT AD IV H.
  destruct (Vis_thm.vis_conf_fields _ _ _ _ _ _ _ _ _ _ _ _ _ VC) as (OFF & NR & TP & TO & _ & NT & NB & _).
  assert (MODE : vc_TO c || vc_PS c = true) by now rewrite TO.
  eapply astar_optimal; eauto.
  refine (visited_costs P C c par E sig_total WP HC OFF MODE TP NF NB _ sig_total_iso UE _ SB GV (proj1 WT) AD IV); [|congruence].
  apply (Vis_thm.total_HS P C par (a_sub E) th sh pr la gi ps fps c WP HC AL TM RM VC).
Qed.

(** The same for problems whose networks are sets of sequences. *)
Theorem astar_sequences_optimal : forall P C par th sh pr la gi fto c (E : aenv vtable) afuel fuel w n,
  wf_problem P -> config_ok C -> seq_methods P -> (0 < p_nfacts P)%nat ->
  vis_conf false (a_sub E) th sh true pr la gi true fto true (length (p_prim P)) = Some c -> a_uses c par E ->
  a_fringe_ok E -> a_dead_ok P C E -> a_sub E = false -> a_gval E = GAction -> 0 <= a_weight E <= 1 -> admissible P C E -> invariant P C E ->
  a_search P C E [] afuel fuel = Solved w n ->
  solution P (printed_plan n) /\ forall plan, solution P plan -> (plan_cost P (printed_plan n) <= plan_cost P plan)%nat.
Proof.
  intros P C par th sh pr la gi fto c E afuel fuel w n WP HC SM NF VC UE FR DE SB GV WT AD IV H.
  destruct (Vis_thm.vis_conf_fields _ _ _ _ _ _ _ _ _ _ _ _ _ VC) as (OFF & NR & TP & TO & PS & NT & NB & _). cbn [andb] in PS.
  assert (MODE : (vc_TO c || vc_PS c = true)%bool) by (rewrite PS; apply orb_true_r).
  eapply astar_optimal; eauto.
  refine (visited_costs P C c par E (sig_seq (vc_tasks c)) WP HC OFF MODE TP NF NB _ (sig_seq_iso _) UE _ SB GV (proj1 WT) AD IV); [|congruence].
  apply (Vis_thm.seq_HS P C par (a_sub E) th sh pr la gi fto c WP HC SM NF VC).
Qed.

(** No solution is lost in these cases, with and without reopening, for every choice of f values. *)
Theorem astar_total_unsolvable : forall P C par th sh pr la gi ps fps c (E : aenv vtable) afuel fuel,
  wf_problem P -> config_ok C -> Vis_thm.alloc_ok par -> total_methods P -> reduced_methods P -> (0 < p_nfacts P)%nat ->
  vis_conf false (a_sub E) th sh true pr la gi ps true fps (length (p_prim P)) = Some c -> a_uses c par E ->
  a_fringe_ok E -> a_dead_ok P C E -> a_search P C E [] afuel fuel = Unsolvable -> forall plan, ~ solution P plan.
Proof.
  intros P C par th sh pr la gi ps fps c E afuel fuel WP HC AL TM RM NF VC UE FR DE H.
  destruct (Vis_thm.vis_conf_fields _ _ _ _ _ _ _ _ _ _ _ _ _ VC) as (OFF & NR & TP & TO & _ & NT & NB & _).
  assert (MODE : vc_TO c || vc_PS c = true) by now rewrite TO.
  eapply astar_unsolvable; eauto.
  refine (visited_plain P C c par E sig_total OFF MODE TP NF NB _ sig_total_iso UE).
  apply (Vis_thm.total_HS P C par (a_sub E) th sh pr la gi ps fps c WP HC AL TM RM VC).
Qed.

(** ** Heuristic values of a node *)

(** Heuristics with the same address are the same function. *)
Definition same_address {V} (E : aenv V) : Prop := forall a f g, In (a, f) (a_hs E) -> In (a, g) (a_hs E) -> forall w n, f w n = g w n.

(** The stored values are those of the heuristics, and a node is dropped exactly if one of them reports a dead end. *)
Theorem eval_hs_exact : forall V (E : aenv V) w n, same_address E ->
  match eval_hs (a_hs E) [] w n with
  | Some vs => map Some vs = map (fun p => snd p w n) (a_hs E)
  | None => exists p, In p (a_hs E) /\ snd p w n = None
  end.
Proof.
  intros V E w n SA. set (all := a_hs E) in *.
  assert (G : forall hs prev, incl hs all -> (forall a v, In (a, v) prev -> exists f, In (a, f) all /\ f w n = Some v) ->
    match eval_hs hs prev w n with Some vs => map Some vs = map (fun p => snd p w n) hs | None => exists p, In p hs /\ snd p w n = None end).
  { induction hs as [|[a f] hs IH]; intros prev I PV; [reflexivity|]. cbn [eval_hs].
    assert (Q : match find (fun p => Nat.eqb (fst p) a) prev with Some p => Some (snd p) | None => f w n end = f w n).
    { destruct (find _ prev) as [[a' v]|] eqn:EF; auto. apply find_some in EF as [In' Ea]. cbn [fst snd] in *. apply Nat.eqb_eq in Ea. subst a'.
      destruct (PV a v In') as (g & Ig & <-). unfold all in *. apply (SA a g f); auto. apply I. now left. }
    rewrite Q. destruct (f w n) as [v|] eqn:Ef; cbn [obind]; [|exists (a, f); split; [now left|exact Ef]].
    specialize (IH (prev ++ [(a, v)]) (fun x Hx => I x (or_intror Hx))).
    destruct (eval_hs hs (prev ++ [(a, v)]) w n) as [vs|]; cbn [obind].
    - cbn [map snd]. rewrite Ef. f_equal. apply IH. intros a' v' Hv. apply in_app_or in Hv as [Hv|[[= <- <-]|[]]]; auto. exists f. split; auto. apply I. now left.
    - destruct IH as (p & Ip & Ep); [|exists p; split; [now right|auto]].
      intros a' v' Hv. apply in_app_or in Hv as [Hv|[[= <- <-]|[]]]; auto. exists f. split; auto. apply I. now left. }
  apply (G all []); [apply incl_refl|intros a v []].
Qed.

(** ** Heuristics *)

(** hhZero: uniform cost search. *)
Theorem zero_admissible : forall V P C (E : aenv V) a r, a_hs E = (a, h_zero) :: r -> admissible P C E /\ invariant P C E.
Proof.
  intros V P C E a r EH. split.
  - intros a' f r' w l n s tn pi h EH' _ _ _ EF. rewrite EH in EH'. injection EH' as <- <- <-. injection EF as <-. split; [lia|intros; lia].
  - intros a' f r' w l n s tn pi h w' l' n' s' tn' pi' h' EH' _ _ _ EF _ _ _ EF' _. rewrite EH in EH'. injection EH' as <- <- <-. injection EF as <-. injection EF' as <-. reflexivity.
Qed.

(** hhRC2 with LM-cut and estCOSTS: the value of a new node, with the rows and the heap as they have been left behind by earlier calls. *)
Definition rc_heuristic (P : problem) (C : config) (last : nat) (m : strips) (al : nat -> list Z) (k : correction) (f : world -> node -> option Z) : Prop :=
  forall w l n, history P C w l -> In n l -> exists M q0 r, Rc_thm.rows_updated P C last w n M /\ Heap_proof.HInv q0 /\
    rc_value P m (in_lmcut al q0) k M n = Some r /\ f w n = option_map (fun p => Z.of_nat (fst p)) r.

Theorem rc_astar_optimal : forall V P C (E : aenv V) last m al k a f v0 afuel fuel w n,
  wf_problem P -> rc_input P -> Reach_thm.connected P -> config_ok C -> (n_acts P <= last)%nat ->
  rc_strips P 0 0 = Some m -> Relax_thm.alloc_ok al -> k = CNone \/ k = CAdm ->
  a_hs E = [(a, f)] -> rc_heuristic P C last m al k f ->
  a_fringe_ok E -> a_sub E = false -> a_gval E = GAction -> 0 <= a_weight E <= 1 -> (forall w v n fo, a_vis E w v n fo = (true, v)) ->
  a_search P C E v0 afuel fuel = Solved w n ->
  solution P (printed_plan n) /\ forall plan, solution P plan -> (plan_cost P (printed_plan n) <= plan_cost P plan)%nat.
Proof.
  intros V P C E last m al k a f v0 afuel fuel w n WP RI CN HC LA EM AO HK EH HF FR SB GV WT OFF H.
  assert (RC : forall w l n s tn pi, history P C w l -> In n l -> Rep P (w_heap w) n s tn pi ->
    match f w n with None => forall plan, ~ solves P s tn plan | Some h => 0 <= h /\ forall plan, solves P s tn plan -> h <= Z.of_nat (plan_cost P plan) end).
  { intros w1 l1 n1 s tn pi H1 Hn R. destruct (HF w1 l1 n1 H1 Hn) as (M & q0 & r & RU & QI & EV & ->).
    destruct (Rc_thm.rc_lmcut_admissible P C last w1 l1 n1 s tn pi M m al q0 k) as (r' & EV' & Q); auto. rewrite EV in EV'. injection EV' as <-.
    destruct r as [[v cs]|]; cbn [option_map fst]; auto. split; [lia|]. intros plan SV. specialize (Q plan SV). lia. }
  eapply astar_optimal; eauto using astar_visited_off.
  - intros w1 l1 n1 s tn pi a1 f1 H1 Hn R IH EF. rewrite EH in IH. destruct IH as [IH|[]]. injection IH as <- <-. specialize (RC _ _ _ _ _ _ H1 Hn R). rewrite EF in RC. exact RC.
  - intros a1 f1 r w1 l1 n1 s tn pi h EH' H1 Hn R EF. rewrite EH in EH'. injection EH' as <- <- <-. specialize (RC _ _ _ _ _ _ H1 Hn R). rewrite EF in RC. exact RC.
Qed.

(** ** Examples *)
Module Ex.
  Import Vis_thm.Ex.

  (** a, b, c = 0, 1, 2 with costs 1, 2, 5; the initial task 3 has the methods (b, c) and (a, c). *)
  Definition aprob : problem :=
    {| p_nfacts := 1; p_prim := [true; true; true; false]; p_prec := [[]; []; []]; p_add := [[]; []; [0%nat]]; p_del := [[]; []; []]; p_cost := [1; 2; 5]%nat;
       p_methods := [{| m_task := 3; m_subs := [1; 2]%nat; m_ord := [(0, 1)%nat] |}; {| m_task := 3; m_subs := [0; 2]%nat; m_ord := [(0, 1)%nat] |}];
       p_init := 3; p_s0 := []; p_goal := [0%nat] |}.
  Lemma awf : wf_problem aprob.
  Proof.
    split; simpl; auto.
    - intros t H. do 4 (destruct t as [|t]; simpl in H; [first [lia|discriminate]|]). destruct t; discriminate.
    - intros l f [H|[H|H]] Hf; repeat (destruct H as [<-|H]; [simpl in Hf; intuition lia|]); destruct H.
    - intros f [].
    - intros f [<-|[]]. lia.
    - intros m [<-|[<-|[]]]; (split; simpl; auto; try discriminate; [intros t Ht; repeat (destruct Ht as [<-|Ht]; [lia|]); destruct Ht|
        intros j k Q; repeat (destruct Q as [Q|Q]; [injection Q as <- <-; lia|]); destruct Q|
        apply (two_levels _ 1); intros i j Q; simpl in Q; repeat (destruct Q as [Q|Q]; [injection Q as <- <-; lia|]); destruct Q]).
  Qed.
  Lemma atotal : total_methods aprob.
  Proof.
    intros m Hm a b La Lb N. assert (LM : length (m_subs m) = 2%nat /\ m_ord m = [(0, 1)%nat]) by (destruct Hm as [<-|[<-|[]]]; auto). destruct LM as [LM OM]. rewrite LM in La, Lb.
    assert (Q : m_lt m 0 1) by (destruct Hm as [<-|[<-|[]]]; apply Relations.Relation_Operators.t_step; now left).
    destruct a as [|[|a]], b as [|[|b]]; try lia; auto.
  Qed.
  Lemma areduced : reduced_methods aprob.
  Proof. intros m [<-|[<-|[]]] [|[|j]]; cbn; lia. Qed.

  Definition aconf : option vconf := vis_conf false false true true true true true true true true true 4.
  (** rand() always returns 7. *)
  Definition aenv_of (hs : list (nat * (world -> node -> option Z))) (c : vconf) : aenv vtable :=
    {| a_hs := hs; a_gval := GAction; a_weight := 1; a_push := cons; a_pop := pq_pop;
       a_vis := fun w v n fo => match insertVisi c (with_f par (match fo with Some f => Z.to_nat f | None => vp_f par w n end)) w v n with Some r => r | None => (true, v) end;
       a_rnd := fun _ => 7; a_sub := false |}.
  Lemma aenv_uses hs c : a_uses c par (aenv_of hs c).
  Proof. intros w v n fo. reflexivity. Qed.
  Lemma aenv_fringe hs c : a_fringe_ok (aenv_of hs c).
  Proof. apply pq_pop_ok. Qed.

  Definition cost_of_result (r : search_result) : option nat := match r with Solved _ n => Some (n_cost n) | _ => None end.
  Lemma cost_result r k : cost_of_result r = Some k -> exists w n, r = Solved w n /\ n_cost n = k.
  Proof. destruct r; try discriminate. intros [= <-]. eauto. Qed.

  (** Uniform cost search with the default visited list: all hypotheses hold, the result is a cheapest plan. *)
  Example zero_ex : exists c w n, aconf = Some c /\ a_search aprob conf (aenv_of [(0%nat, h_zero)] c) [] 50 50 = Solved w n /\ plan_cost aprob (printed_plan n) = 6%nat /\
    forall plan, solution aprob plan -> (6 <= plan_cost aprob plan)%nat.
  Proof.
    destruct aconf as [c|] eqn:EC; [|vm_compute in EC; discriminate].
    assert (R : cost_of_result (a_search aprob conf (aenv_of [(0%nat, h_zero)] c) [] 50 50) = Some 6%nat) by (vm_compute in EC; injection EC as <-; vm_compute; reflexivity).
    destruct (cost_result _ _ R) as (w & n & ER & CN). clear R. exists c, w, n. split; auto. split; auto.
    destruct (astar_sound _ _ _ _ _ _ _ _ _ awf conf_ok (aenv_fringe _ _) ER) as [_ CP]. split; [congruence|].
    destruct (zero_admissible _ aprob conf (aenv_of [(0%nat, h_zero)] c) 0 [] eq_refl) as [AD IV].
    assert (DE : a_dead_ok aprob conf (aenv_of [(0%nat, h_zero)] c)). { intros w1 l1 n1 s tn pi a f _ _ _ [[= <- <-]|[]] EF. discriminate EF. }
    assert (WT : 0 <= a_weight (aenv_of [(0%nat, h_zero)] c) <= 1) by (cbn [a_weight aenv_of]; lia).
    destruct (astar_total_optimal aprob conf par true true true true true true true c (aenv_of [(0%nat, h_zero)] c) 50 50 w n awf conf_ok par_alloc atotal areduced ltac:(cbn; lia) EC
      (aenv_uses _ _) (aenv_fringe _ _) DE eq_refl eq_refl WT AD IV ER) as [_ Q].
    intros plan SV. specialize (Q plan SV). rewrite <- CP, CN in Q. exact Q.
  Qed.

  (** Two heuristics, the second one used twice. *)
  Example eval_ex : forall w n, n_cost n = 4%nat -> n_depth n = 3%nat ->
    eval_hs [(5%nat, h_zero); (6%nat, h_cost true); (7%nat, h_modDepth false); (6%nat, h_cost true)] [] w n = Some [0; -4; 3; -4].
  Proof. intros w n E1 E2. unfold eval_hs, h_cost, h_modDepth. cbn. rewrite E1, E2. reflexivity. Qed.

  (** An admissible heuristic that is better for nodes reached with costs 1. *)
  Definition hbad (w : world) (n : node) : option Z := Some (if Nat.eqb (n_cost n) 1 then 2 else 0).
  Lemma hbad_ok c : admissible aprob conf (aenv_of [(0%nat, hbad)] c).
  Proof.
    destruct zero_ex as (_ & _ & _ & _ & _ & _ & MIN).
    intros a f r w l n s tn pi h EH H Hn R EF. injection EH as <- <- <-. injection EF as <-.
    destruct (Nat.eqb_spec (n_cost n) 1) as [E1|]; [|split; [lia|intros; lia]]. split; [lia|]. intros plan SV.
    destruct (history_node aprob conf awf conf_ok w l n H Hn) as (s' & tn' & pi' & R' & CO & SO).
    assert (W : wf_heap aprob (w_heap w)) by apply (history_ok aprob conf awf conf_ok w l H).
    pose proof (Rep_iso aprob (w_heap w) n s tn pi s' tn' pi' W R R') as SN.
    assert (SV' : solves aprob s' tn' plan) by (eapply solves_same; [apply awf|apply (r_wf _ _ _ _ _ _ R)|apply (r_wf _ _ _ _ _ _ R')|exact SN|exact SV]).
    specialize (MIN _ (SO plan SV')). rewrite plan_cost_app, <- CO, E1 in MIN. lia.
  Qed.

  (** RC with LM-cut, the rows are computed from scratch. *)
  Definition rc_fun (P : problem) (R : list (option (list nat))) (last : nat) (m : strips) (al : nat -> list Z) (q0 : Heap_model.heap) (k : correction) (w : world) (n : node) : option Z :=
    match update_reach R last (w_heap w) (length (w_heap w)) (repeat None (length (w_heap w))) n with
    | Some M => match rc_value P m (in_lmcut al q0) k M n with Some (Some (v, _)) => Some (Z.of_nat v) | _ => None end
    | None => None
    end.
  Lemma history_heap P C w l : history P C w l -> exists w0 n0 e, init_node P = Some (w0, n0) /\ w_heap w = w_heap w0 ++ e.
  Proof.
    induction 1 as [w n EI|w l n i x tk fuel w' n' H IH Hn NA Gx Tx Ap E|w l n i x tk mi fuel w' n' H IH Hn Gx Tx Im E|w l l' H IH IL]; auto.
    - exists w, n, []. rewrite app_nil_r. auto.
    - destruct IH as (w0 & n0 & e & EI & Eh). exists w0, n0, e. split; auto. rewrite <- Eh. apply (proj1 (apply_grows P C fuel) _ _ _ _ _ E).
    - destruct IH as (w0 & n0 & e & EI & Eh). destruct (decompose_grows P C _ _ _ _ _ _ _ E) as (_ & _ & e' & _ & Eh' & _). exists w0, n0, (e ++ e'). split; auto. rewrite Eh', Eh. apply app_assoc_reverse.
  Qed.

  Lemma rc_fun_ok P C last m al q0 k d lo SC R : wf_problem P -> rc_input P -> Reach_thm.connected P -> config_ok C -> (n_acts P <= last)%nat ->
    rc_strips P 0 0 = Some m -> Relax_thm.alloc_ok al -> Heap_proof.HInv q0 -> k = CNone \/ k = CAdm ->
    length d = length (p_prim P) -> length lo = length (p_prim P) -> calcSCCs (task_graph P) (p_init P) d lo = Some SC -> reach_table (task_graph P) SC last = Some R ->
    rc_heuristic P C last m al k (rc_fun P R last m al q0 k).
  Proof.
    intros WP RI CN HC LA EM AO QI HK Ld Ll ES ER w l n H Hn.
    destruct (history_represents P C w l n WP HC H Hn) as (s & tn & pi & RP & _).
    destruct (history_heap P C w l H) as (w0 & n0 & e & EI & Eh).
    assert (SR : Reach_thm.step_rows P C R last w (repeat None (length (w_heap w)))).
    { rewrite Eh, app_length, repeat_app. eapply Reach_thm.sr_grow; eauto. eapply Reach_thm.sr_start; eauto. }
    destruct (Reach_thm.step_rows_exact P C d lo last SC R w l _ n s tn pi WP CN HC Ld Ll ES ER SR H Hn RP) as (M & EU & _).
    assert (RU : Rc_thm.rows_updated P C last w n M).
    { exists d, lo, SC, R, (repeat None (length (w_heap w))). split; [exact Ld|split; [exact Ll|split; [exact ES|split; [exact ER|split; [exact SR|exact EU]]]]]. }
    destruct (Rc_thm.rc_lmcut_admissible P C last w l n s tn pi M m al q0 k) as (r & EV & _); auto.
    exists M, q0, r. split; [exact RU|split; [exact QI|split; [exact EV|]]]. unfold rc_fun. rewrite EU, EV. destruct r as [[v cs]|]; reflexivity.
  Qed.

  Definition renv (R : list (option (list nat))) (m : strips) : aenv unit :=
    {| a_hs := [(0%nat, rc_fun Reach_thm.Ex.prob R 3 m Relax_thm.Ex.al Relax_thm.Ex.q0 CAdm)]; a_gval := GAction; a_weight := 1; a_push := cons; a_pop := pq_pop;
       a_vis := fun w v n fo => (true, v); a_rnd := fun _ => 7; a_sub := false |}.

  Notation rc_run := (
    SC <- calcSCCs (task_graph Reach_thm.Ex.prob) 3 (repeat 0%nat 6) (repeat 0%nat 6) ;; R <- reach_table (task_graph Reach_thm.Ex.prob) SC 3 ;;
    m <- rc_strips Reach_thm.Ex.prob 0 0 ;; cost_of_result (a_search Reach_thm.Ex.prob Reach_thm.Ex.conf (renv R m) tt 300 50)).

  Lemma rc_run_eq : rc_run = Some 3%nat.
  Proof. vm_compute. reflexivity. Qed.
  Lemma rc_opt SC R m w n : calcSCCs (task_graph Reach_thm.Ex.prob) 3 (repeat 0%nat 6) (repeat 0%nat 6) = Some SC -> reach_table (task_graph Reach_thm.Ex.prob) SC 3 = Some R ->
    rc_strips Reach_thm.Ex.prob 0 0 = Some m -> a_search Reach_thm.Ex.prob Reach_thm.Ex.conf (renv R m) tt 300 50 = Solved w n ->
    forall plan, solution Reach_thm.Ex.prob plan -> (n_cost n <= plan_cost Reach_thm.Ex.prob plan)%nat.
  Proof.
    intros ES ERT EM EA.
    assert (FR : a_fringe_ok (renv R m)) by apply pq_pop_ok.
    destruct (astar_sound _ _ _ _ _ _ _ _ _ Reach_thm.Ex.wf Rc_thm.Ex.conf_ok FR EA) as [_ ->].
    assert (WT : 0 <= a_weight (renv R m) <= 1) by (cbn [a_weight renv]; lia).
    assert (HR : rc_heuristic Reach_thm.Ex.prob Reach_thm.Ex.conf 3 m Relax_thm.Ex.al CAdm (rc_fun Reach_thm.Ex.prob R 3 m Relax_thm.Ex.al Relax_thm.Ex.q0 CAdm)).
    { eapply rc_fun_ok with (SC := SC); [exact Reach_thm.Ex.wf|exact Rc_thm.Ex.input|exact Reach_thm.Ex.prob_connected|exact Rc_thm.Ex.conf_ok|apply le_n|exact EM|exact Relax_thm.Ex.al_ok|
        exact Relax_thm.Ex.q0_ok|now right| | |exact ES|exact ERT]; reflexivity. }
    eapply rc_astar_optimal; [exact Reach_thm.Ex.wf|exact Rc_thm.Ex.input|exact Reach_thm.Ex.prob_connected|exact Rc_thm.Ex.conf_ok| |exact EM|exact Relax_thm.Ex.al_ok| | |exact HR|exact FR| | |exact WT| |exact EA].
    - apply le_n.
    - now right.
    - reflexivity.
    - reflexivity.
    - reflexivity.
    - reflexivity.
  Qed.
  (** A* with RC(LM-cut) on the recursive problem of Reach_thm: costs 3, and nothing is cheaper. *)
  Example rc_ex : rc_run = Some 3%nat /\ forall plan, solution Reach_thm.Ex.prob plan -> (3 <= plan_cost Reach_thm.Ex.prob plan)%nat.
  Proof.
    pose proof rc_run_eq as ER. split; [exact ER|].
    apply obind_some in ER as (SC & ES & ER). apply obind_some in ER as (R & ERT & ER). apply obind_some in ER as (m & EM & ER).
    destruct (cost_result _ _ ER) as (w & n & EA & CN). rewrite <- CN. exact (rc_opt SC R m w n ES ERT EM EA).
  Qed.
End Ex.

(** ** C66 *)

(** With an admissible heuristic that is not determined by state and remaining tasks, A* with the default visited list is not optimal:
    VisitedList compares f values, not costs, when it decides whether a node is reopened (VisitedList.cpp 536-575). *)
Definition C66_statement : Prop :=
  forall P C par th sh pr la gi ps fps c (E : aenv vtable) afuel fuel w n,
  wf_problem P -> config_ok C -> Vis_thm.alloc_ok par -> total_methods P -> reduced_methods P -> (0 < p_nfacts P)%nat ->
  vis_conf false (a_sub E) th sh true pr la gi ps true fps (length (p_prim P)) = Some c -> a_uses c par E ->
  a_fringe_ok E -> a_dead_ok P C E -> a_sub E = false -> a_gval E = GAction -> a_weight E = 1 -> admissible P C E ->
  a_search P C E [] afuel fuel = Solved w n ->
  forall plan, solution P plan -> (plan_cost P (printed_plan n) <= plan_cost P plan)%nat.

Theorem astar_visited_optimal_refuted : ~ C66_statement.
Proof.
  intros S. destruct Ex.zero_ex as (c & w0 & n0 & EC & E0 & C0 & _).
  assert (FR0 := Ex.aenv_fringe [(0%nat, h_zero)] c).
  destruct (astar_sound _ _ _ _ _ _ _ _ _ Ex.awf Vis_thm.Ex.conf_ok FR0 E0) as [S0 _]. clear E0 FR0.
  assert (R : Ex.cost_of_result (a_search Ex.aprob Vis_thm.Ex.conf (Ex.aenv_of [(0%nat, Ex.hbad)] c) [] 50 50) = Some 7%nat).
  { clear -EC. unfold Ex.aconf in EC. vm_compute in EC. injection EC as <-. vm_compute. reflexivity. }
  destruct (Ex.cost_result _ _ R) as (w & n & ER & CN). clear R.
  destruct (astar_sound _ _ _ _ _ _ _ _ _ Ex.awf Vis_thm.Ex.conf_ok (Ex.aenv_fringe _ _) ER) as [_ CP].
  assert (DE : a_dead_ok Ex.aprob Vis_thm.Ex.conf (Ex.aenv_of [(0%nat, Ex.hbad)] c)). { intros w1 l1 n1 s tn pi a f _ _ _ [[= <- <-]|[]] EF. discriminate EF. }
  pose proof (S Ex.aprob Vis_thm.Ex.conf Vis_thm.Ex.par true true true true true true true c (Ex.aenv_of [(0%nat, Ex.hbad)] c) 50%nat 50%nat w n
    Ex.awf Vis_thm.Ex.conf_ok Vis_thm.Ex.par_alloc Ex.atotal Ex.areduced (Nat.lt_0_succ 0) EC (Ex.aenv_uses _ _) (Ex.aenv_fringe _ _) DE eq_refl eq_refl eq_refl (Ex.hbad_ok c) ER
    (printed_plan n0) S0) as Q.
  rewrite C0, <- CP, CN in Q. lia.
Qed.

Print Assumptions astar_sound.
Print Assumptions astar_unsolvable.
Print Assumptions astar_bounded.
Print Assumptions astar_optimal.
Print Assumptions astar_total_optimal.
Print Assumptions astar_sequences_optimal.
Print Assumptions astar_total_unsolvable.
Print Assumptions eval_hs_exact.
Print Assumptions zero_admissible.
Print Assumptions rc_astar_optimal.
Print Assumptions astar_visited_optimal_refuted.
