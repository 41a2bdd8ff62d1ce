(** Completeness of the partially ordered SAT encoding for exact merged orders. *)
From Coq Require Import Relation_Operators.
From Verif Require Import Base Htn_problem Htn_spec Htn_sem Sat_model Sat_spec Sat_proof Sf_model Sf_spec Sf_proof Posog_model Posog_spec Posog_merge Posog_thm Pom_model Pom_spec Pom_proof Pom_full Pom_thm Pp_sem Pc_tree.
From Verif Require Import Pdt_model Pdt_spec Pdt_tree Pdt_expand Pdt_prune Pdt_leafs Pdt_vars Pdt_clause Pdt_dec Pdt_sound Pdt_round Pdt_choice Pdt_complete Pp_model Pp_spec Pp_kind Pp_build Pp_round Pp_sound Pp_main Pc_choice.
Local Open Scope Z_scope.

(** The merged order of the methods of a set of abstract tasks orders the subtasks of a method only as the method does. *)
Definition exact_merges (P : problem) (C : sconf) : Prop := forall abs,
  NoDup abs -> abs <> [] -> (forall t, In t abs -> nth_error (p_prim P) t = Some false) -> exact_at P C abs.

Lemma fop_nth {A} (R : A -> A -> Prop) l : (forall i j x y, nth_error l i = Some x -> nth_error l j = Some y -> (i < j)%nat -> R x y) -> ForallOrdPairs R l.
Proof.
  induction l as [|a l IH]; intros H; constructor.
  - apply Forall_forall. intros y Hy. apply In_nth_error in Hy as (j & Hj). apply (H 0%nat (S j)); auto. lia.
  - apply IH. intros i j x y Hi Hj L. apply (H (S i) (S j)); auto. lia.
Qed.
Lemma forall2_zip {A B D} (R : A -> B -> Prop) (Q : A -> D -> Prop) l l1 l2 : Forall2 R l l1 -> Forall2 Q l l2 -> Forall2 (fun b d => exists a, R a b /\ Q a d) l1 l2.
Proof. intros H. revert l2. induction H as [|a b l l1 H _ IH]; intros l2 H2; inversion H2; subst; constructor; eauto. Qed.

Section Complete.
  Variables (P : problem) (C : sconf) (uord : list nat -> list nat).
  Instance KI : kind := po_kind P C.
  Hypothesis WF : wf_problem P.
  Hypothesis CO : po_conf P C uord.
  Hypothesis AM : acyclic_merges P C.
  Hypothesis EM : exact_merges P C.

  Lemma exact_tree : forall t, tree_ok P t -> tall has_abs t -> exact_nodes P C t.
  Proof.
    induction t as [d ch IH] using pdt_rect'. intros TO HA. apply tree_ok_node in TO as (T1 & _ & T3). apply tall_node in HA as [[H1 H2] H3]. unfold exact_nodes. apply tall_node. split.
    - intros NE. apply EM; [exact H1|auto|exact (to_abs _ _ T1)].
    - rewrite Forall_forall in *. intros u Hu. apply IH; auto.
  Qed.

  (** What remains for the last action: a position. *)
  Definition ends_with_effect (plan : list nat) : Prop := forall pre a, plan = pre ++ [a] -> effectful P a.

  Lemma facts_complete depth st T' nv k cl w L plan : pfacts P C uord depth st T' nv k cl ->
    Pp_sem.good P w -> dlab w = p_init P -> (dheight w <= depth)%nat -> dtr_order w L plan -> ends_with_effect plan -> consistent P plan -> executable P (initial_state P) plan -> goal_state P (after P (initial_state P) plan) ->
    exists v, satisfies v cl.
  Proof.
    intros PF GW LW HW [O1 O2 O3 O4] EE CN EX GO. destruct (pf_round _ _ _ _ _ _ _ _ _ PF) as (n0 & R & DP). assert (OR := pf_ord _ _ _ _ _ _ _ _ _ PF). assert (PL := pf_leafs _ _ _ _ _ _ _ _ _ PF).
    assert (TO := p_to _ _ _ _ R). assert (HA := p_abs _ _ _ _ R). assert (AR : at_node T' [] T') by reflexivity.
    destruct (po_choose P C WF T' depth (Some (false, 0%nat)) (Some w) TO DP (merges_nodes P C AM T' TO HA) (exact_tree T' TO HA)) as (sel & me & f & S0 & GD & [F1 F2 F3 F4]).
    { cbn [demands]. rewrite (proj2 (p_root _ _ _ _ R)). destruct w as [tag a|m kids]; cbn [dlab] in LW.
      - exfalso. inversion GW as [? ? PA|]; subst. assert (Z := wf_init _ WF). unfold primitive in PA. congruence.
      - exists m, kids. rewrite <- LW. auto. }
    assert (AV : avoids (used T' sel me) []) by (intros x []).
    set (v := val T' sel me). assert (ON : forall q t pr i, at_node T' q t -> (on v pr (dat t) i <-> sel (rev q) = Some (pr, i))) by (intros q t pr i A; exact (on_val P [] T' sel me (p_fi _ _ _ _ R) (p_nd _ _ _ _ R) GD AV q t pr i A)).
    assert (LEAF : forall u q d, nth_error (leafs T' []) u = Some (q, d) -> subtree T' (rev q) = Some (PNode d [])) by (intros u q d H; apply nth_error_In in H; now apply leafs_at in H).
    assert (LU : forall u u' q d d', nth_error (leafs T' []) u = Some (q, d) -> nth_error (leafs T' []) u' = Some (q, d') -> u = u').
    { intros u u' q d d' H H'. rewrite <- (path_index_nth _ (leafs_nodup T' []) u q d H). apply (path_index_nth _ (leafs_nodup T' []) u' q d' H'). }
    assert (X : exists ls, Forall2 (fun x l => exists d a, nth_error (leafs T' []) l = Some (rev (f x), d) /\ acts v d a /\ oleaf (Some w) x a) L ls).
    { apply forall2_choice. intros x Hx. apply O2 in Hx as (a & Ha). destruct (F1 x a Ha) as (d & p & S1 & S2 & S3). assert (I : In (rev (f x), d) (leafs T' [])) by (apply leafs_in; exists (f x); rewrite app_nil_r; auto).
      apply In_nth_error in I as (u & Hu). exists u, d, a. split; auto. split; auto. exists p. split; auto. apply (ON (rev (f x)) (PNode d [])); [unfold at_node; now rewrite rev_involutive|]. now rewrite rev_involutive. }
    destruct X as (ls & F2L).
    assert (ATL : forall i l, nth_error ls i = Some l -> exists x d a, nth_error L i = Some x /\ nth_error (leafs T' []) l = Some (rev (f x), d) /\ acts v d a /\ oleaf (Some w) x a).
    { intros i l Hl. destruct (forall2_at _ _ _ i l F2L Hl) as (x & Hx & d & a & H). exists x, d, a. tauto. }
    assert (LI : linearises v (k_leafs k) (k_adj k) ls).
    { rewrite PL. constructor.
      - apply NoDup_nth_error. intros i j Hi Ej. destruct (nth_error ls i) as [l|] eqn:El; [|apply nth_error_None in El; lia]. symmetry in Ej. destruct (ATL i l El) as (x & d & a & H1 & H2 & _ & H4). destruct (ATL j l Ej) as (y & d' & b & H1' & H2' & _ & H4').
        rewrite H2 in H2'. injection H2' as E _. apply (f_equal (@rev nat)) in E. rewrite !rev_involutive in E. assert (x = y) by (eapply F3; eauto). subst y. eapply NoDup_nth_error; [exact O1|now apply get_lt in H1|congruence].
      - intros l. split.
        + intros Hl. apply In_nth_error in Hl as (i & Hl). destruct (ATL i l Hl) as (x & d & a & _ & H2 & H3 & _). exists (leaf_prims d). split; [unfold pl_of; rewrite nth_error_map, H2; reflexivity|]. exists a. apply (occurs_acts T' v (rev (f x))); auto. exact (LEAF _ _ _ H2).
        + intros (lf & Hl & a & Oa). apply (pl_nth T') in Hl as (q & d & Hq & -> & A). apply (occurs_acts T' v q d a A) in Oa as (i & Oi & _). apply (ON q (PNode d []) true i A) in Oi. destruct (F2 (rev q) d i A Oi) as (x & b & Hx & Ex).
          assert (Ix : In x L) by (apply O2; exists b; exact Hx). destruct (pos_of _ _ _ F2L x Ix) as (y & l' & _ & Y2 & (d' & a' & Y3 & _)). rewrite Ex, rev_involutive in Y3. rewrite (LU l l' q d d' Hq Y3). now apply nth_error_In in Y2.
      - apply fop_nth. intros i j l l' Hi Hj Lt PR. destruct (ATL i l Hi) as (x & d & a & H1 & H2 & _ & H4). destruct (ATL j l' Hj) as (y & d' & b & H1' & H2' & _ & H4').
        apply (OR _ _ _ _ _ _ H2' H2) in PR. rewrite !rev_involutive in PR. destruct (F4 y x b a H4' H4 PR) as (w0 & E0 & B). injection E0 as <-. specialize (O3 j i y x H1' H1 B). lia. }
    assert (PO : plan_of v (k_leafs k) ls plan).
    { rewrite PL. unfold plan_of. assert (Z := forall2_zip _ _ _ _ _ F2L O4). clear -Z LEAF. revert Z. generalize plan as pl. generalize ls as l1. induction l1 as [|l l1 IH]; intros pl Z; inversion Z as [|? a ? pl' (x & (d & b & H1 & H2 & (t1 & H3)) & (t2 & H4)) Z']; subst; constructor; auto.
      exists (leaf_prims d). split; [unfold pl_of; rewrite nth_error_map, H1; reflexivity|]. assert (b = a) by (cbn in H3; congruence). subst b. apply (occurs_acts T' v (rev (f x))); auto. exact (LEAF _ _ _ H1). }
    apply (pf_full _ _ _ _ _ _ _ _ _ PF v ls plan); auto.
    - intros q d ch A Ee _. exact (val_nodes P [] T' sel me TO (p_fi _ _ _ _ R) (p_nd _ _ _ _ R) GD AV q d ch A Ee).
    - intros q d a A O. apply (ON q (PNode d []) false a A) in O. exact (used_leaf P T' sel me TO GD q d a A O).
    - apply (ON [] T' false 0%nat AR). exact S0.
    - right. right. destruct ls as [|l0 r0] eqn:El; [now left|right]. rewrite <- El in *. destruct (@exists_last _ ls) as (pre & l & Q); [congruence|].
      assert (Z : exists pre' a, plan = pre' ++ [a] /\ exists lf, nth_error (k_leafs k) l = Some lf /\ occurs v lf a).
      { clear -PO Q. unfold plan_of in PO. rewrite Q in PO. apply Forall2_app_inv_l in PO as (p1 & p2 & _ & H & ->). inversion H as [|? a ? p3 H1 H2]; subst. inversion H2; subst. eauto. }
      destruct Z as (pre' & a & Ep & lf & Hl & (x & Hx & _)). exists pre, l, lf. split; auto. split; auto. exists (Some x), a. split; auto. eapply EE; eauto.
  Qed.

  Lemma encoding_complete plan : solution P plan -> ends_with_effect plan -> consistent P plan -> exists d0, forall d, (d0 <= d)%nat -> forall T nv k cl, po_encoding P C uord d = Some (T, nv, k, cl) -> exists v, satisfies v cl.
  Proof.
    intros SO EE CN. assert (AC : acyclic_methods P) by (intros m Im; apply (wfm_acyclic _ _ (wf_methods _ WF m Im))).
    destruct (solution_dtr P AC plan SO) as (w & L & GW & LW & DO & EX & GO). exists (dheight w). intros d Ld T nv k cl E. destruct (state_ok P C uord WF CO AM d) as (st & Es & I).
    unfold po_encoding in E. rewrite Es in E. cbn [obind] in E. destruct (create_po_ok P C uord WF CO AM (S d) st I) as (T1 & nv1 & k1 & cl1 & E1 & _ & _ & PF).
    assert (Q : (T1, nv1, k1, cl1) = (T, nv, k, cl)) by congruence. apply pair_equal_spec in Q as [Q ->]. apply pair_equal_spec in Q as [Q ->]. apply pair_equal_spec in Q as [-> ->]. apply (facts_complete _ _ _ _ _ _ w L plan PF GW LW); auto.
  Qed.

  Lemma search_complete solver plan : (forall cl v, satisfies v cl -> solver cl <> None) -> solution P plan -> ends_with_effect plan -> consistent P plan ->
    exists rounds plan', solve_po P C uord solver rounds = Some (Some plan').
  Proof.
    intros SO SL EE CN. assert (AC : acyclic_methods P) by (intros m Im; apply (wfm_acyclic _ _ (wf_methods _ WF m Im))).
    destruct (solution_dtr P AC plan SL) as (w & L & GW & LW & DO & EX & GO).
    assert (X : forall n depth st, pinv P C st -> (dheight w <= depth + n)%nat -> exists plan', po_search P C uord solver (S n) depth st = Some (Some plan')).
    { induction n as [|n IH]; intros depth st I Ld.
      - destruct (create_po_ok P C uord WF CO AM depth st I) as (T1 & nv1 & k1 & cl1 & E1 & I1 & _ & PF). destruct (facts_complete _ _ _ _ _ _ w L plan PF GW LW ltac:(lia) DO EE CN EX GO) as (v & Sv).
        cbn [po_search]. rewrite E1. cbn [obind]. destruct (solver cl1) as [v1|] eqn:Ev; [eauto|]. elim (SO cl1 v Sv Ev).
      - destruct (create_po_ok P C uord WF CO AM depth st I) as (T1 & nv1 & k1 & cl1 & E1 & I1 & _ & PF). remember (S n) as n1. cbn [po_search]. rewrite E1. cbn [obind]. destruct (solver cl1) as [v1|] eqn:Ev; [eauto|]. subst n1. apply IH; [exact I1|lia]. }
    destruct (X (dheight w) 1%nat (pdt_root P, 0)) as (plan' & E); [apply start_pinv; exact (wf_init _ WF)|lia|]. exists (S (dheight w)), plan'. exact E.
  Qed.
End Complete.
