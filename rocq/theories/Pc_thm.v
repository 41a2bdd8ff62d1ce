(** Properties C162 (the partially ordered SAT encoding finds every solution if merging the methods adds no orderings), C163 (the planner for partially
    ordered problems then decides solvability) and C164 (merging totally ordered methods adds no orderings). *)
From Coq Require Import ZArith Permutation Sorting.Sorted Relation_Operators.
From Verif Require Import Base Htn_problem Htn_spec Sat_model Sat_spec Sat_proof Sf_model Sf_spec Sf_proof Posog_model Posog_spec Pom_model Pom_spec Pom_full Pom_thm.
From Verif Require Import Pdt_model Pdt_spec Pdt_expand Pdt_prune Pdt_clause Pp_model Pp_spec Pp_sem Pp_kind Pp_sound Pp_main Pc_main Pp_thm.
From Verif Require Order_model Pdt_tree Htn_check.

(** C162: if the merged orders are acyclic and order the subtasks of a method only as the method does, then from some depth on the formula has a model
    whenever there is a solution whose last action has an effect and whose actions do not delete what they add. *)
Theorem po_encoding_complete P C uord plan : wf_problem P -> po_conf P C uord -> acyclic_merges P C -> exact_merges P C ->
  solution P plan -> consistent P plan -> (forall pre a, plan = pre ++ [a] -> effectful P a) ->
  exists d0, forall d, d0 <= d -> exists T nv k cl v, po_encoding P C uord d = Some (T, nv, k, cl) /\ satisfies v cl.
Proof.
  intros WF CO AM EM SO CN EE. destruct (encoding_complete P C uord WF CO AM EM plan SO EE CN) as (d0 & H). exists d0. intros d L. destruct (encoding_ok P C uord WF CO AM d) as (T & nv & k & cl & E & _).
  destruct (H d L T nv k cl E) as (v & S). exists T, nv, k, cl, v. auto.
Qed.

(** C163: with a sound and complete solver the planner returns a plan within some number of rounds if and only if there is a solution. *)
Theorem po_planner_exact P C uord solver : wf_problem P -> po_conf P C uord -> acyclic_merges P C -> exact_merges P C ->
  (forall cl v, solver cl = Some v -> satisfies v cl) -> (forall cl v, satisfies v cl -> solver cl <> None) ->
  (forall a, primitive P a -> effectful P a) -> (forall a f, adds P a f -> ~ dels P a f) ->
  ((exists plan, solution P plan) <-> exists rounds plan, solve_po P C uord solver rounds = Some (Some plan)) /\
  forall rounds plan, solve_po P C uord solver rounds = Some (Some plan) -> solution P plan.
Proof.
  intros WF CO AM EM SO SC EF CN.
  assert (SD : forall rounds plan, solve_po P C uord solver rounds = Some (Some plan) -> solution P plan).
  { intros rounds plan E. destruct (po_planner_sound P C uord solver rounds WF CO AM SO EF) as (r & E' & H). apply H. congruence. }
  split; [split|exact SD].
  - intros (plan & SL). apply (search_complete P C uord WF CO AM EM solver plan SC SL).
    + intros pre a ->. apply EF. destruct SL as (tn & L & _ & PR & (_ & IL & _) & EP & _). assert (I : In a (map (t_lab tn) L)) by (rewrite <- EP; apply in_or_app; right; now left). apply in_map_iff in I as (x & <- & Hx). apply PR. now apply IL.
    + intros a f _. apply CN.
  - intros (rounds & plan & E). eauto.
Qed.

(** ** C164: totally ordered methods *)

(** If the merged order is acyclic, it orders the subtasks of a totally ordered method as the method does. *)
Definition total_method (me : method) : Prop := forall i j, i < length (m_subs me) -> j < length (m_subs me) -> i <> j -> m_lt me i j \/ m_lt me j i.
Theorem total_methods_exact P C uord : wf_problem P -> po_conf P C uord -> acyclic_merges P C -> (forall me, In me (p_methods P) -> total_method me) -> exact_merges P C.
Proof.
  intros WF CO AM TM abs ND NE AB adj bdj asgs k m asg me i j E Hk Ha Em Li Lj PR. assert (DG := AM abs adj bdj asgs ND NE AB E).
  destruct (node_sog_ok P C uord WF CO (fresh_node [] abs [] [])) as (adj' & bdj' & asgs' & E' & GO & FT & ED); [constructor; cbn; [constructor|intros p []|exact AB]|exact NE|]. cbn [fresh_node pn_abs] in *. rewrite E in E'. injection E' as <- <- <-.
  destruct (Nat.eq_dec i j) as [->|N]; [elim (DG _ PR)|]. destruct (TM me (nth_error_In _ _ Em) i j Li Lj N) as [H|H]; auto. exfalso.
  assert (B : forall a b, m_lt me a b -> precedes adj (nth a asg 0) (nth b asg 0)). { intros a b Q. induction Q as [a b Q|a b c _ I1 _ I2]; [apply t_step; eapply ED; eauto|eapply t_trans; eauto]. }
  apply (DG (nth i asg 0)). eapply t_trans; [exact PR|]. exact (B j i H).
Qed.
(** If methodTotalOrder lists the subtasks of every method in a total order, nothing has to be assumed about merging. *)
Theorem listed_methods_exact P C uord : wf_problem P -> po_conf P C uord -> (forall m, m < length (p_methods P) -> method_total P C m = Some true) -> acyclic_merges P C /\ exact_merges P C.
Proof.
  intros WF CO LT.
  assert (AM : acyclic_merges P C).
  { intros abs adj bdj asgs ND NE AB E. unfold node_sog in E. apply obind_some in E as (bs & Eb & E). destruct (map _ (s_sort C (gather P abs))) as [|m0 r0] eqn:Em; [injection E as <- _ _; intros x Q; assert (G : forall a b, precedes (@nil (list nat)) a b -> False) by (clear; intros a b Q; induction Q as [a b (l & H & _)|]; auto; destruct a; discriminate); exact (G x x Q)|].
    assert (FB : forallb (fun b => b) bs = true).
    { assert (IM : forall m, In m (m0 :: r0) -> m < length (p_methods P)).
      { intros m Hm. rewrite <- Em in Hm. apply in_map_iff in Hm as ([[m' a] mi] & <- & Hm). apply (Permutation_in _ (proj1 (pc_sort _ _ _ CO _))) in Hm. apply Pdt_tree.gather_in in Hm as (t & _ & Hm). apply nth_error_In in Hm. apply Pdt_tree.methods_in in Hm as (me & Hm & _). now apply get_lt in Hm. }
      clear -Eb IM LT. revert bs Eb IM. generalize (m0 :: r0) as ms. induction ms as [|m ms IH]; intros bs Eb IM; cbn [omap] in Eb; [injection Eb as <-; auto|]. apply obind_some in Eb as (b & E1 & Eb). apply obind_some in Eb as (bs' & E2 & Eb). injection Eb as <-. rewrite (LT m (IM m (or_introl eq_refl))) in E1. injection E1 as <-. cbn. apply IH; auto. intros x Hx. apply IM. now right. }
    rewrite FB in E. apply obind_some in E as ([n asgs'] & _ & E). injection E as <- _ _. apply chain_dag. }
  split; auto. apply (total_methods_exact P C uord WF CO AM). intros me I i j Li Lj N. apply In_nth_error in I as (m & Em). assert (Q := LT m (get_lt _ _ _ Em)). unfold method_total, get in Q. rewrite Em in Q. cbn [obind] in Q. destruct (pc_meth _ _ _ CO m me Em) as (me' & o & F1 & CL & F3 & PO). assert (me' = me) by congruence. subst me'. rewrite F3 in Q. cbn [obind] in Q. injection Q as Q.
  assert (POS : forall z, z < length (m_subs me) -> exists x, nth_error o x = Some z). { intros z Lz. apply In_nth_error. apply (Permutation_in _ (Permutation_sym PO)). apply in_seq. lia. }
  destruct (POS i Li) as (x & Hx). destruct (POS j Lj) as (y & Hy). destruct (lt_eq_lt_dec x y) as [[L|L]|L]; [left|subst y; congruence|right]; apply t_step; eapply (consec_ord me (co_trans _ CL) o Q); eauto.
Qed.

(** ** Example *)
Definition edges (adj : list (list nat)) : list (nat * nat) := flat_map (fun '(x, l) => map (pair x) l) (combine (seq 0 (length adj)) adj).
Definition inb (E : list (nat * nat)) (a b : nat) : bool := existsb (fun '(c, d) => Nat.eqb a c && Nat.eqb b d) E.
Lemma inb_in E a b : inb E a b = true <-> In (a, b) E.
Proof.
  unfold inb. rewrite existsb_exists. split.
  - intros ([c d] & I & H). apply andb_true_iff in H as [H1 H2]. apply Nat.eqb_eq in H1, H2. now subst.
  - intros I. exists (a, b). split; auto. now rewrite !Nat.eqb_refl.
Qed.
Definition closed_edges (E : list (nat * nat)) : bool := forallb (fun '(a, b) => forallb (fun '(c, d) => negb (Nat.eqb b c) || inb E a d) E) E.
Definition exact_check (P : problem) (C : sconf) (abs : list nat) : bool :=
  match node_sog P C abs with
  | None => true
  | Some (adj, _, asgs) => closed_edges (edges adj) &&
      forallb (fun '(m, asg) => match nth_error (p_methods P) m with
        | None => true
        | Some me => forallb (fun i => forallb (fun j => negb (inb (edges adj) (nth i asg 0) (nth j asg 0)) || inb (m_ord me) i j) (seq 0 (length (m_subs me)))) (seq 0 (length (m_subs me)))
        end) (combine (map (fun '(m, _, _) => m) (s_sort C (gather P abs))) asgs)
  end.
Lemma exact_check_ok P C abs : exact_check P C abs = true -> exact_at P C abs.
Proof.
  intros H adj bdj asgs k m asg me i j E Hk Ha Em Li Lj PR. unfold exact_check in H. rewrite E in H. apply andb_true_iff in H as [H1 H2].
  assert (B : forall a b, precedes adj a b -> In (a, b) (edges adj)).
  { intros a b Q. induction Q as [a b (l & Hl & Hb)|a b c _ I1 _ I2].
    - unfold edges. apply in_flat_map. exists (a, l). split; [|now apply in_map]. apply in_combine_nth. exists a. split; auto. apply Posog_merge.nth_error_seq. split; auto. now apply get_lt in Hl.
    - unfold closed_edges in H1. rewrite forallb_forall in H1. specialize (H1 _ I1). cbn in H1. rewrite forallb_forall in H1. specialize (H1 _ I2). cbn in H1. rewrite Nat.eqb_refl in H1. now apply inb_in in H1. }
  rewrite forallb_forall in H2. specialize (H2 (m, asg)). rewrite in_combine_nth in H2. specialize (H2 (ex_intro _ k (conj Hk Ha))). cbn in H2. rewrite Em in H2. rewrite forallb_forall in H2. specialize (H2 i). rewrite in_seq in H2. specialize (H2 ltac:(lia)). rewrite forallb_forall in H2. specialize (H2 j). rewrite in_seq in H2. specialize (H2 ltac:(lia)).
  apply B, inb_in in PR. rewrite PR in H2. apply inb_in in H2. now apply t_step.
Qed.

Module ExC.
  Import Pp_thm.Ex.
  (** The example of C158 meets the conditions although its methods are not totally ordered: a complete solver finds a plan. *)
  Lemma exact : exact_merges prob conf.
  Proof.
    intros abs ND NE AB. apply exact_check_ok. assert (R : forall t, In t abs -> t = 3 \/ t = 4). { intros t Ht. specialize (AB t Ht). do 3 (destruct t as [|t]; [discriminate|]). destruct t as [|[|t]]; auto. destruct t; discriminate. }
    destruct abs as [|a [|b [|c r]]]; [congruence|..].
    - destruct (R a (or_introl eq_refl)) as [-> | ->]; vm_compute; reflexivity.
    - inversion ND as [|? ? N1 _]; subst. cbn in N1. destruct (R a (or_introl eq_refl)) as [-> | ->], (R b (or_intror (or_introl eq_refl))) as [-> | ->]; try tauto; vm_compute; reflexivity.
    - exfalso. inversion ND as [|? ? N1 N2]; subst. inversion N2 as [|? ? N3 _]; subst. cbn in N1, N3. destruct (R a (or_introl eq_refl)) as [-> | ->], (R b (or_intror (or_introl eq_refl))) as [-> | ->], (R c (or_intror (or_intror (or_introl eq_refl)))) as [-> | ->]; tauto.
  Qed.
  Lemma no_conflict a f : adds prob a f -> ~ dels prob a f.
  Proof. intros _ (l & E & I). destruct a as [|[|[|a]]]; cbn in E; try (apply some_eq in E; subst l; exact I). destruct a; discriminate. Qed.
  Example models : exists d0, forall d, d0 <= d -> exists T nv k cl v, po_encoding prob conf Cex.uord d = Some (T, nv, k, cl) /\ satisfies v cl.
  Proof.
    apply (po_encoding_complete prob conf Cex.uord [0; 1; 2] prob_wf conf_fine merges exact plan_solves).
    - intros a f _. apply no_conflict.
    - intros pre a E. change [0; 1; 2] with ([0; 1] ++ [2]) in E. apply app_inj_tail in E as [_ <-]. apply effects. reflexivity.
  Qed.
  Example decided solver : (forall cl v, solver cl = Some v -> satisfies v cl) -> (forall cl v, satisfies v cl -> solver cl <> None) -> exists rounds plan, solve_po prob conf Cex.uord solver rounds = Some (Some plan).
  Proof. intros S1 S2. apply (po_planner_exact prob conf Cex.uord solver prob_wf conf_fine merges exact S1 S2 effects no_conflict). exists [0; 1; 2]. exact plan_solves. Qed.
End ExC.

Module ExT.
  (** Totally ordered methods: task 2 becomes 0 before 1, or just 0. *)
  Definition prob : problem :=
    {| p_nfacts := 2; p_prim := [true; true; false]; p_prec := [[]; [0]]; p_add := [[0]; [1]]; p_del := [[]; []]; p_cost := [1; 1];
       p_methods := [{| m_task := 2; m_subs := [0; 1]; m_ord := [(0, 1)] |}; {| m_task := 2; m_subs := [0]; m_ord := [] |}]; p_init := 2; p_s0 := []; p_goal := [1] |}.
  Definition conf : sconf := {| s_mto := [[0; 1]; [0]]; s_sort := sort_subs prob; s_bits := Nat.log2_up |}.
  Lemma prob_wf : wf_problem prob.
  Proof. apply Htn_check.problem_check_ok. vm_compute. reflexivity. Qed.
  Lemma conf_fine : po_conf prob conf Cex.uord.
  Proof.
    constructor.
    - intros [|[|m]] me E; cbn in E; try (destruct m; discriminate); apply some_eq in E; subst me; eexists _, _; (split; [reflexivity|split; [|split; [reflexivity|]]]);
        try (apply none_before); try (apply one_before; cbn; lia); try (apply perm_seq; [repeat (constructor; [cbn; lia|]); constructor|reflexivity|cbn; lia]).
    - apply sort_subs_ok.
    - intros me [<-|[<-|[]]]; cbn; lia.
    - intros t H. do 2 (destruct t as [|t]; [discriminate|]). destruct t as [|t]; [eexists; split; [now left|reflexivity]|destruct t; discriminate].
    - apply Cex.bits_suffice.
    - apply Cex.uord_ok.
  Qed.
  Example merged : acyclic_merges prob conf /\ exact_merges prob conf.
  Proof. apply (listed_methods_exact prob conf Cex.uord prob_wf conf_fine). intros [|[|m]] L; cbn in L; try lia; vm_compute; reflexivity. Qed.
End ExT.

Print Assumptions po_encoding_complete.
Print Assumptions po_planner_exact.
Print Assumptions total_methods_exact.
Print Assumptions listed_methods_exact.
