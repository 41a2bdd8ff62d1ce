(** Models of the partially ordered SAT encoding are solutions. *)
From Coq Require Import Relation_Operators.
From Verif Require Import Base Htn_problem Htn_spec Htn_sem Sat_model Sat_spec Sat_proof Sf_model Sf_spec Sf_proof Posog_model Posog_spec Posog_merge Posog_thm Pom_model Pom_spec Pom_proof Pom_full Pom_thm.
From Verif Require Import Pdt_model Pdt_spec Pdt_tree Pdt_expand Pdt_prune Pdt_leafs Pdt_vars Pdt_clause Pdt_dec Pdt_sound Pdt_round Pp_model Pp_spec Pp_sem Pp_kind Pp_build Pp_round.
Local Open Scope Z_scope.

Lemma forall2_choice {A B} (R : A -> B -> Prop) l : (forall x, In x l -> exists y, R x y) -> exists l', Forall2 R l l'.
Proof. induction l as [|x l IH]; intros H; [exists []; constructor|]. destruct (H x) as (y & Hy); [now left|]. destruct IH as (l' & H'); [intros z Hz; apply H; now right|]. exists (y :: l'). constructor; auto. Qed.
Lemma forall2_at {A B} (R : A -> B -> Prop) l l' i y : Forall2 R l l' -> nth_error l' i = Some y -> exists x, nth_error l i = Some x /\ R x y.
Proof. intros H. revert i. induction H as [|a b l l' H _ IH]; intros [|i] E; cbn in E; try discriminate; [injection E as <-; exists a; auto|apply IH; auto]. Qed.
Lemma fop_at {A} (R : A -> A -> Prop) l : ForallOrdPairs R l -> forall i j x y, nth_error l i = Some x -> nth_error l j = Some y -> (i < j)%nat -> R x y.
Proof.
  induction 1 as [|a l H _ IH]; intros [|i] [|j] x y E1 E2 L; cbn in E1, E2; try discriminate; try lia.
  - injection E1 as <-. rewrite Forall_forall in H. apply H. now apply nth_error_In in E2.
  - apply (IH i j); auto. lia.
Qed.
Lemma in_combine_nth {A B} (l : list A) : forall (l' : list B) x y, In (x, y) (combine l l') <-> exists i, nth_error l i = Some x /\ nth_error l' i = Some y.
Proof.
  induction l as [|a l IH]; intros l' x y; [split; [intros []|intros ([|i] & E & _); discriminate]|]. destruct l' as [|b l']; [split; [intros []|intros ([|i] & _ & E); discriminate]|]. cbn [combine In]. rewrite IH. split.
  - intros [E|(i & E)]; [injection E as <- <-; exists 0%nat; auto|exists (S i); auto].
  - intros ([|i] & E1 & E2); cbn in E1, E2; [left; congruence|right; eauto].
Qed.
Lemma map_snd_combine {A B} (l : list A) : forall (l' : list B), length l = length l' -> map snd (combine l l') = l'.
Proof. induction l as [|a l IH]; intros [|b l'] H; try discriminate; auto. cbn. f_equal. apply IH. now injection H. Qed.

Lemma asg_deep P F : forall K t q t', asg P F q t t' -> deep K t -> deep K t'.
Proof.
  induction K as [|K IH]; intros t q t' A H; [exact I|]. destruct A as [q d ch d' ch' N L A]. cbn [deep dat kids] in *. destruct H as [H1 H2]. destruct (core_eq _ _ (na_core _ _ _ _ _ N)) as (_ & C2 & _). split; [now rewrite (na_exp _ _ _ _ _ N), C2|].
  rewrite Forall_forall in *. intros u' Hu. apply In_nth_error in Hu as (c & Hc). assert (Lc := get_lt _ _ _ Hc). rewrite L in Lc. apply get_some in Lc as (u & Hu). unfold get in Hu. apply (IH u (c :: q)); [eauto|]. apply H2. now apply nth_error_In in Hu.
Qed.

Section Sound.
  Variables (P : problem) (C : sconf) (uord : list nat -> list nat).
  Instance KI : kind := po_kind P C.
  Hypothesis WF : wf_problem P.
  Hypothesis CO : po_conf P C uord.
  Hypothesis AB : nth_error (p_prim P) (p_init P) = Some false.

  Definition pinv (st : pdt * Z) : Prop := sinv P st /\ tall has_abs (fst st).
  Lemma start_pinv : pinv (pdt_root P, 0).
  Proof. split; [now apply start_ok|]. cbn [fst]. apply tall_node. split; [|constructor]. split; [cbn; repeat constructor; intros []|]. intros H. congruence. Qed.

  Lemma all_closed T' q t : tree_ok P T' -> at_node T' q t -> closed P [] q t.
  Proof.
    intros TO A. constructor.
    - intros Q pr i cs E H. destruct q as [|c q]; [congruence|]. destruct (at_mother T' c q t A) as ([d ch] & A' & G). cbn [kids] in G. destruct (at_child_data P T' TO q d ch c t A' G) as (_ & NO & E').
      assert (Z := no_ne _ _ _ NO (dat t) pr cs (nth_error_In _ _ E') (nth_error_In _ _ E)). destruct cs as [|z cs]; [congruence|]. elim (H 0%nat). cbn. lia.
    - intros a x m _ _ [].
    - intros c0 q' pr i cs c k _ _ _ [].
    - intros p x c i k _ _ [].
    - intros a x m c k _ _ _ [].
  Qed.

  (** The tree with its variables. *)
  Record prnd (T' : pdt) (n0 : Z) : Prop := {
    p_to : tree_ok P T';
    p_abs : tall has_abs T';
    p_fi : forall q t, at_node T' q t -> filled P [] q (dat t);
    p_bd : forall x, In x (avars T') -> 1 <= x <= n0;
    p_pos : 1 <= n0;
    p_vc : tall vcond T';
    p_nd : NoDup (avars T');
    p_root : pn_prims (dat T') = [] /\ pn_abs (dat T') = [p_init P] }.
  Lemma pround depth st : pinv st -> exists T, expand_upto (po_expand_node P C) depth (fst st) = Some T /\
    forall T' n0, assign P [] T [] (snd st) = (T', n0) -> prnd T' n0 /\ snd st <= n0 /\ deep depth T'.
  Proof.
    destruct st as [T0 nv]. intros [I HA]. cbn [fst snd] in *. destruct (round_upto P (po_expand_node P C) depth T0 nv (po_expand_ok P C uord WF CO) I) as (T & E & I' & DP). exists T. split; auto. intros T' n0 A.
    assert (HA' : tall has_abs T). { eapply upto_abs; [|exact HA|exact E]. intros d d' us X. unfold po_expand_node in X. apply obind_some in X as ([[adj bdj] asgs] & _ & X). eapply expand_with_abs; eauto. }
    destruct I' as [E2 E3 I3 I4 I5 RT]. cbn [fst snd] in *. destruct (assign_ok P [] T [] nv T' n0 E2 E3 A) as (AS & (X1 & X2 & X3 & X4)). split; [|split; [exact X1|eapply asg_deep; eauto]].
    assert (D := asg_data _ _ _ _ _ AS). destruct (core_eq _ _ (na_core _ _ _ _ _ D)) as (C1 & C2 & _).
    assert (BD : forall x, In x (avars T') -> 1 <= x <= n0). { intros x Hx. destruct (X2 x Hx) as [H|H]; [|lia]. specialize (I4 x H). lia. }
    constructor; auto.
    - eapply asg_tree_ok; eauto.
    - eapply asg_abs; eauto.
    - intros q t' H. destruct (asg_at' P [] (rev q) [] T T' t' AS H) as (u & U1 & U2). rewrite rev_involutive, app_nil_r in U2. apply asg_data in U2. eapply nasg_filled; eauto.
    - destruct (na_none _ _ _ _ _ D) as (z & Hz). assert (1 <= z <= n0); [|lia]. apply BD. destruct T' as [d' ch']. cbn [avars dat] in *. unfold own_vars. rewrite Hz. now left.
    - exact (asg_vcond P [] T T' E2 (fun q t => all_closed T q t E2) AS E3).
    - apply X4; auto. intros x Hx. apply I4 in Hx. lia.
    - rewrite C1, C2. exact RT.
  Qed.

  Section One.
    Variables (T' : pdt) (n0 : Z).
    Hypothesis R : prnd T' n0.
    Definition pl_of (T : pdt) : list (list (option Z * nat)) := map (fun x => leaf_prims (snd x)) (leafs T []).
    Definition nodes v := forall q d ch, at_node T' q (PNode d ch) -> pn_exp d = true -> task_vars d <> [] -> unique_task v d /\ unique_meth v d /\ sem v [] q d ch.
    Lemma root_one : pn_prims (dat T') = [] /\ length (pn_abs (dat T')) = 1%nat.
    Proof. destruct (p_root _ _ R) as [-> ->]. auto. Qed.
    Lemma nodes_dec v : dec_cond v [] T' [] -> nodes v.
    Proof.
      rewrite (dec_all P [] T' (p_to _ _ R) (p_vc _ _ R) v). intros H q d ch A Ee N. specialize (H q d ch A Ee N).
      apply (node_meaning P [] T' n0 (p_to _ _ R) (fun q t => all_closed T' q t (p_to _ _ R)) (p_fi _ _ R) (p_bd _ _ R) (p_nd _ _ R) v q d ch A Ee); auto. intros pr i _ [].
    Qed.
    Lemma leafs_inv u q d : nth_error (leafs T' []) u = Some (q, d) -> at_node T' q (PNode d []) /\ subtree T' (rev q) = Some (PNode d []).
    Proof. intros H. apply nth_error_In in H. apply leafs_at in H. auto. Qed.
    Lemma occurs_acts v q d a : at_node T' q (PNode d []) -> (occurs v (leaf_prims d) a <-> acts v d a).
    Proof.
      intros A. unfold occurs, acts, on, leaf_prims. cbn [cvars]. split.
      - intros (x & I & V). apply in_combine_nth in I as (i & I1 & I2). exists i. split; eauto.
      - intros (i & (x & I & V) & I2). exists x. split; auto. apply in_combine_nth. eauto.
    Qed.
    Lemma pl_nth u lf : nth_error (pl_of T') u = Some lf -> exists q d, nth_error (leafs T' []) u = Some (q, d) /\ lf = leaf_prims d /\ at_node T' q (PNode d []).
    Proof.
      unfold pl_of. rewrite nth_error_map. destruct (nth_error (leafs T' []) u) as [[q d]|] eqn:E; [|discriminate]. intros H. injection H as <-. exists q, d. split; auto. split; auto. eapply leafs_inv; eauto.
    Qed.
    Lemma pl_in lf : In lf (pl_of T') -> exists q d, lf = leaf_prims d /\ at_node T' q (PNode d []).
    Proof. intros H. apply In_nth_error in H as (u & H). apply pl_nth in H as (q & d & _ & H1 & H2). eauto. Qed.
    Lemma pl_ok nv : n0 <= nv -> leafs_ok P nv (pl_of T').
    Proof.
      intros L. constructor.
      - intros l x a Hl Hx. apply pl_in in Hl as (q & d & -> & A). apply in_combine_nth in Hx as (i & _ & Hx). assert (H := at_ok P T' (p_to _ _ R) q _ A). apply tree_ok_node in H as (H & _). apply (wf_prim _ WF). apply (to_prims _ _ H). now apply nth_error_In in Hx.
      - intros l Hl. apply pl_in in Hl as (q & d & -> & A). unfold leaf_prims. rewrite map_snd_combine; [|exact (fl_len _ _ _ _ (p_fi _ _ R q _ A) true)]. assert (H := at_ok P T' (p_to _ _ R) q _ A). apply tree_ok_node in H as (H & _). exact (to_nodup _ _ H).
      - intros l x a Hl Hx. apply pl_in in Hl as (q & d & -> & A). apply in_combine_nth in Hx as (i & Hx & _). assert (B := var_bound T' n0 (p_bd _ _ R) q (PNode d []) true i x A Hx). lia.
    Qed.
    Lemma pl_one v : nodes v -> one_chosen v (pl_of T').
    Proof.
      intros N l a b Hl Oa Ob. apply pl_in in Hl as (q & d & -> & A). apply (occurs_acts v q d _ A) in Oa as (i & O1 & E1). apply (occurs_acts v q d _ A) in Ob as (j & O2 & E2).
      assert (UQ := unique_all P [] T' v (p_to _ _ R) (p_fi _ _ R) (p_vc _ _ R) N root_one q _ A). destruct (UQ _ _ _ _ O1 O2) as [_ ->]. congruence.
    Qed.

    (** Any compatible order of the chosen actions that is executable is a solution. *)
    Lemma order_solution v s ls plan : acyclic_methods P -> nodes v -> (forall q d a, at_node T' q (PNode d []) -> ~ on v false d a) -> on v false (dat T') 0 -> dag (l_adj s) ->
      (forall u w q q' d d', nth_error (leafs T' []) u = Some (q, d) -> nth_error (leafs T' []) w = Some (q', d') -> (pbefore P C T' (rev q) (rev q') <-> precedes (l_adj s) u w)) ->
      linearises v (pl_of T') (l_adj s) ls -> plan_of v (pl_of T') ls plan -> executable P (initial_state P) plan -> goal_state P (after P (initial_state P) plan) -> solution P plan.
    Proof.
      intros AC N NA O DG OR [LN LA LO] PO EX GO.
      assert (AR : at_node T' [] T') by reflexivity.
      destruct (build P C T' v WF (p_to _ _ R) (p_fi _ _ R) (p_vc _ _ R) N root_one NA T' [] AR false 0%nat (p_init P) O) as (w & GW & LW & [V1 V2 V3 V4]); [cbn [ctasks]; now rewrite (proj2 (p_root _ _ R))|].
      cbn [rev app] in *.
      set (R0 := fun (x : list nat) (la : nat * nat) => exists q d, nth_error (leafs T' []) (fst la) = Some (q, d) /\ dsub w x = Some (DA (rev q) (snd la))).
      assert (X : exists L, Forall2 (fun l x => exists a q d, nth_error (leafs T' []) l = Some (q, d) /\ acts v d a /\ dsub w x = Some (DA (rev q) a)) ls L).
      { apply forall2_choice. intros l Hl. apply LA in Hl as (lf & Hl & a & Oa). apply pl_nth in Hl as (q & d & Hq & -> & A). apply (occurs_acts v q d a A) in Oa. destruct (V2 (rev q) d a) as (y & Hy); [apply A|auto|]. exists y, a, q, d. auto. }
      destruct X as (L & F2). clear R0.
      assert (AT : forall i x, nth_error L i = Some x -> exists l a q d, nth_error ls i = Some l /\ nth_error (leafs T' []) l = Some (q, d) /\ acts v d a /\ dsub w x = Some (DA (rev q) a)).
      { intros i x Hx. destruct (forall2_at _ _ _ i x F2 Hx) as (l & Hl & a & q & d & H). exists l, a, q, d. tauto. }
      unfold solution. apply (dtr_solution P w AC GW (initial_state P) L LW); auto.
      - apply NoDup_nth_error. intros i j Hi Ej. destruct (nth_error L i) as [x|] eqn:Ex; [|apply nth_error_None in Ex; lia]. symmetry in Ej. destruct (AT i x Ex) as (l & a & q & d & H1 & H2 & H3 & H4). destruct (AT j x Ej) as (l' & a' & q' & d' & H1' & H2' & H3' & H4').
        rewrite H4 in H4'. injection H4' as Eq _. assert (q = q') by (rewrite <- (rev_involutive q), Eq, rev_involutive; auto). subst q'.
        assert (l = l') by (rewrite <- (path_index_nth _ (leafs_nodup T' []) l q d H2); apply (path_index_nth _ (leafs_nodup T' []) l' q d' H2')). subst l'.
        apply (proj1 (NoDup_nth_error ls) LN); [now apply get_lt in H1|congruence].
      - intros x. split.
        + intros Hx. apply In_nth_error in Hx as (i & Hx). destruct (AT i x Hx) as (l & a & q & d & _ & _ & _ & H). eauto.
        + intros (p & a & Hx). destruct (V1 x p a Hx) as (p' & d & -> & S & HA). assert (I : In (rev p', d) (leafs T' [])) by (apply leafs_in; exists p'; now rewrite app_nil_r).
          apply In_nth_error in I as (u & Hu). assert (Iu : In u ls). { apply LA. exists (leaf_prims d). split; [unfold pl_of; rewrite nth_error_map, Hu; reflexivity|]. exists a. apply (occurs_acts v (rev p')); auto. eapply leafs_inv; eauto. }
          apply In_nth_error in Iu as (i & Hi). destruct (pos_of _ _ _ F2 u (nth_error_In _ _ Hi)) as (k & y & K1 & K2 & a' & q & d' & K3 & _ & K4). rewrite Hu in K3. injection K3 as <- <-. rewrite rev_involutive in K4. rewrite (V3 x y p' a a' Hx K4). now apply nth_error_In in K2.
      - intros i j x y Hx Hy DB. destruct (AT i x Hx) as (l & a & q & d & H1 & H2 & H3 & H4). destruct (AT j y Hy) as (l' & a' & q' & d' & H1' & H2' & H3' & H4').
        assert (PB := V4 x y _ _ _ _ H4 H4' DB). assert (PR := proj1 (OR l l' q q' d d' H2 H2') PB).
        destruct (lt_eq_lt_dec i j) as [[Lt|E]|Lt]; auto; exfalso.
        * subst j. rewrite H1 in H1'. injection H1' as <-. exact (DG l PR).
        * exact (fop_at _ _ LO j i l' l H1' H1 Lt PR).
      - assert (G : forall k a, nth_error plan k = Some a -> exists x p, nth_error L k = Some x /\ dsub w x = Some (DA p a)).
        { intros k a Ha. destruct (forall2_at _ _ _ k a PO Ha) as (l & Hl & lf & Hlf & Oc). apply pl_nth in Hlf as (q & d & Hq & -> & A). apply (occurs_acts v q d a A) in Oc.
          assert (LL : length ls = length L) by (clear - F2; induction F2; cbn; auto). assert (Lk := get_lt _ _ _ Hl). rewrite LL in Lk. apply get_some in Lk as (x & Hx). unfold get in Hx. destruct (AT k x Hx) as (l2 & a2 & q2 & d2 & B1 & B2 & B3 & B4).
          rewrite Hl in B1. injection B1 as <-. rewrite Hq in B2. injection B2 as <- <-. exists x, (rev q). split; auto. destruct Oc as (i1 & O1 & E1), B3 as (i2 & O2 & E2).
          assert (UQ := unique_all P [] T' v (p_to _ _ R) (p_fi _ _ R) (p_vc _ _ R) N root_one q _ A). destruct (UQ _ _ _ _ O1 O2) as [_ ->]. rewrite B4. congruence. }
        assert (LP : length L = length plan) by (transitivity (length ls); [symmetry; clear - F2; induction F2; cbn; auto|clear - PO; induction PO; cbn; auto]).
        clear - G LP. revert L LP G. induction plan as [|a plan IH]; intros [|x L] LP G; try discriminate; constructor.
        + destruct (G 0%nat a eq_refl) as (x' & p & E & H). injection E as <-. eauto.
        + apply IH; [now injection LP|]. intros k b Hb. exact (G (S k) b Hb).
    Qed.
  End One.
End Sound.
