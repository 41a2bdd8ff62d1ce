(** Every depth of the partially ordered SAT encoding. *)
From Coq Require Import Relation_Operators.
From Verif Require Import Base Htn_problem Htn_spec Htn_sem Sat_model Sat_spec Sat_proof Sf_model Sf_spec Sf_proof Posog_model Posog_spec Posog_merge Posog_thm Pom_model Pom_spec Pom_proof Pom_full Pom_thm.
From Verif Require Import Pdt_model Pdt_spec Pdt_tree Pdt_expand Pdt_prune Pdt_leafs Pdt_vars Pdt_clause Pdt_dec Pdt_sound Pdt_round Pp_model Pp_spec Pp_sem Pp_kind Pp_build Pp_round Pp_sound.
Local Open Scope Z_scope.

(** The merged order of the methods of a set of abstract tasks has no cycle. *)
Definition acyclic_merges (P : problem) (C : sconf) : Prop := forall abs adj bdj asgs,
  NoDup abs -> abs <> [] -> (forall t, In t abs -> nth_error (p_prim P) t = Some false) -> node_sog P C abs = Some (adj, bdj, asgs) -> dag adj.

Lemma po_le P bits uord sep nv leafs adj vars nv2 FG nv3 : po_input P bits uord nv leafs adj -> po_formula P bits uord sep nv leafs adj = Some (vars, nv2, FG, nv3) -> nv <= nv3.
Proof.
  intros [WF BO UO NV LO AN WG DG] E. apply po_inv in E as (effs & nv1 & F & G & E1 & E2 & E3 & _).
  assert (X1 : 0 <= nv1 /\ nv <= nv1) by (eapply full_nv1; eauto). assert (X2 : nv1 <= nv2 /\ vars_le nv2 F) by (eapply full_fvars; eauto).
  assert (X3 : nv2 <= nv3) by (eapply matching_le; [exact BO|lia|apply wf_la, WF|apply wf_ld, WF|eapply full_ef; eauto|exact AN|exact E3]). lia.
Qed.

(** The conditions on the chosen actions depend only on the variables of the leafs. *)
Lemma occurs_agree P n v w leafs : leafs_ok P n leafs -> agree n v w -> forall lf a, In lf leafs -> (occurs v lf a <-> occurs w lf a).
Proof. intros LO A lf a Il. split; intros (x & I & V); exists x; split; auto; assert (B := lo_vars _ _ _ LO lf x a Il I); [rewrite <- A by auto|rewrite A by auto]; exact V. Qed.
Lemma room_agree P v w leafs ls : (forall lf a, In lf leafs -> (occurs v lf a <-> occurs w lf a)) -> room P v leafs ls -> room P w leafs ls.
Proof. intros O [H|[(lf & H1 & H2 & H3)|[H|H]]]; [left; auto|right; left|right; right; left; auto|right; right; right; auto]. exists lf. split; auto. split; auto. intros (a & H). apply H3. exists a. now apply O. Qed.
Lemma linearises_agree v w leafs adj ls : (forall lf a, In lf leafs -> (occurs v lf a <-> occurs w lf a)) -> linearises v leafs adj ls -> linearises w leafs adj ls.
Proof. intros O [L1 L2 L3]. constructor; auto. intros l. rewrite L2. split; intros (lf & G & a & Oa); exists lf; (split; auto); exists a; apply O in Oa; auto; eapply nth_error_In; eauto. Qed.
Lemma plan_of_agree v w leafs ls plan : (forall lf a, In lf leafs -> (occurs v lf a <-> occurs w lf a)) -> plan_of v leafs ls plan -> plan_of w leafs ls plan.
Proof. intros O H. unfold plan_of in *. induction H as [|l a ls plan (lf & G & Oa) _ IH]; constructor; auto. exists lf. split; auto. apply O; auto. eapply nth_error_In; eauto. Qed.

Section Main.
  Variables (P : problem) (C : sconf) (uord : list nat -> list nat).
  Instance KI : kind := po_kind P C.
  Hypothesis WF : wf_problem P.
  Hypothesis CO : po_conf P C uord.
  Hypothesis AM : acyclic_merges P C.

  Lemma merges_nodes : forall t, tree_ok P t -> tall has_abs t -> acyclic_nodes P C t.
  Proof.
    induction t as [d ch IH] using pdt_rect'. intros TO HA. apply tree_ok_node in TO as (T1 & _ & T3). apply tall_node in HA as [[H1 H2] H3]. unfold acyclic_nodes. apply tall_node. split.
    - intros NE adj bdj asgs E. eapply AM; [exact H1|auto|exact (to_abs _ _ T1)|exact E].
    - rewrite Forall_forall in *. intros u Hu. apply IH; auto.
  Qed.

  (** What the formula of a depth says. *)
  Definition psays (k : matching) (cl : list clause) : Prop :=
    dag (k_adj k) /\
    (forall v, satisfies v cl -> effects_last P (k_leafs k) (k_adj k) -> exists ls plan, linearises v (k_leafs k) (k_adj k) ls /\ plan_of v (k_leafs k) ls plan /\ solution P plan) /\
    (forall v, satisfies v cl -> all_effects P (k_leafs k) -> solution P (po_plan v k)) /\
    (forall l x a, In l (k_leafs k) -> In (x, a) l -> primitive P a).

  (** How the result of a depth is composed. *)
  Record pfacts (depth : nat) (st : pdt * Z) (T' : pdt) (nv : Z) (k : matching) (cl : list clause) : Prop := {
    pf_tree : exists T n0, expand_upto (po_expand_node P C) depth (fst st) = Some T /\ assign P [] T [] (snd st) = (T', n0);
    pf_leafs : k_leafs k = pl_of T';
    pf_adj : exists o s, otree_of P C (fun q => path_index q (leafs T' [])) T' [] = Some o /\ leaf_sogs o = Some s /\ k_adj k = l_adj s;
    pf_form : exists nv2 FG, po_input P (s_bits C) uord nv2 (k_leafs k) (k_adj k) /\ po_formula P (s_bits C) uord false nv2 (k_leafs k) (k_adj k) = Some (k_vars k, k_base k, FG, nv) /\
      forall v, satisfies v cl -> nodes T' v /\ on v false (dat T') 0 /\ satisfies v FG;
    pf_round : exists n0, prnd P C T' n0 /\ deep depth T';
    pf_ord : forall u w q q' d d', nth_error (leafs T' []) u = Some (q, d) -> nth_error (leafs T' []) w = Some (q', d') -> (pbefore P C T' (rev q) (rev q') <-> precedes (k_adj k) u w);
    pf_full : forall v ls plan, nodes T' v -> (forall q d a, at_node T' q (PNode d []) -> ~ on v false d a) -> on v false (dat T') 0 ->
      linearises v (k_leafs k) (k_adj k) ls -> plan_of v (k_leafs k) ls plan -> room P v (k_leafs k) ls -> consistent P plan -> executable P (initial_state P) plan -> goal_state P (after P (initial_state P) plan) ->
      exists v', satisfies v' cl }.

  Lemma create_po_ok depth st : pinv P C st -> exists T' nv k cl, create_po P C uord depth st = Some (T', nv, k, cl) /\ pinv P C (T', nv) /\ psays k cl /\ pfacts depth st T' nv k cl.
  Proof.
    intros I. destruct (pround P C uord WF CO depth st I) as (T & E & AS). destruct st as [T0 nv0]. cbn [fst snd] in *. destruct (assign P [] T [] nv0) as [T' n0] eqn:A. destruct (AS T' n0 eq_refl) as (R & L0 & DP). clear AS.
    assert (AN := merges_nodes T' (p_to _ _ _ _ R) (p_abs _ _ _ _ R)).
    assert (AR : at_node T' [] T') by reflexivity.
    destruct (dec_encodes P C [] T' n0 (p_to _ _ _ _ R) (fun q t => all_closed P C T' q t (p_to _ _ _ _ R)) (p_fi _ _ _ _ R) (p_bd _ _ _ _ R) (p_pos _ _ _ _ R) (pc_bits _ _ _ CO) T' [] n0 AR (Z.le_refl _)) as (c1 & nv2 & E1 & [L1 V1 _ [S1 K1]] & D1).
    destruct (fl_get _ _ _ _ (p_fi _ _ _ _ R [] T' AR) false 0%nat (p_init P)) as (r & Hr); [cbn [ctasks]; now rewrite (proj2 (p_root _ _ _ _ R))|intros []|]. cbn [cvars] in Hr.
    assert (RB : 1 <= r <= n0) by exact (var_bound T' n0 (p_bd _ _ _ _ R) [] T' false 0%nat r AR Hr).
    destruct (leaf_graph P C uord CO T' (p_to _ _ _ _ R) (p_abs _ _ _ _ R) AN) as (o & s & EO & ES & EL & LA & WG & DG & OR).
    assert (EM : omap (get (leafs T' [])) (l_leaf s) = Some (leafs T' [])) by (rewrite EL; apply omap_get_all).
    assert (LO := pl_ok P C WF T' n0 R nv2 L1). assert (N2 : 0 <= nv2) by (assert (Q := p_pos _ _ _ _ R); lia).
    assert (LL : length (l_adj s) = length (pl_of T')) by (unfold pl_of; now rewrite map_length).
    destruct (po_formula_defined P (s_bits C) uord nv2 (pl_of T') (l_adj s) WF (pc_uord _ _ _ CO) N2 LO LL WG) as ([[[vars nv3] FG] nv4] & EF).
    assert (PI : po_input P (s_bits C) uord nv2 (pl_of T') (l_adj s)) by (constructor; auto; [exact (pc_bits _ _ _ CO)|exact (pc_uord _ _ _ CO)]).
    set (k := {| k_leafs := pl_of T'; k_adj := l_adj s; k_vars := vars; k_base := nv3 |}).
    set (cl := c1 ++ assertYes (vlit (Some r)) ++ no_abstract (leafs T' []) ++ pruned_clauses [] T' [] ++ FG).
    exists T', nv4, k, cl.
    assert (LE : n0 <= nv4).
    { assert (Q := po_le P (s_bits C) uord false nv2 (pl_of T') (l_adj s) vars nv3 FG nv4 PI EF). lia. }
    assert (MS : forall v, satisfies v cl -> nodes T' v /\ (forall q d a, at_node T' q (PNode d []) -> ~ on v false d a) /\ on v false (dat T') 0 /\ satisfies v FG).
    { intros v S. unfold cl in S. rewrite !sat_app in S. destruct S as (Q1 & Q2 & Q3 & _ & Q5). split; [apply (nodes_dec P C T' n0 R v); now apply S1|]. split; [|split; auto].
      - intros q d a Aq (x & Hx & Tx). cbn [cvars] in Hx. assert (B := var_bound T' n0 (p_bd _ _ _ _ R) q (PNode d []) false a x Aq Hx). destruct (Q3 [- x]) as (l & [<-|[]] & Tl).
        + unfold no_abstract. apply in_flat_map. exists (q, d). split; [apply leafs_in; exists (rev q); rewrite rev_involutive, app_nil_r; auto|]. cbn [snd]. apply in_flat_map. exists x. split; [apply somes_in; eauto|now left].
        + rewrite lit_npos in Tl by lia. rewrite Tx in Tl. discriminate.
      - exists r. split; auto. cbn [vlit] in Q2. rewrite sat_yes, lit_pos in Q2 by lia. auto. }
    assert (AC : acyclic_methods P) by (intros m Im; apply (wfm_acyclic _ _ (wf_methods _ WF m Im))).
    split; [|split; [|split; [split; [exact DG|split; [|split]]|]]].
    - unfold create_po. rewrite E. cbn [obind]. rewrite A, E1. cbn [obind]. unfold get at 1. rewrite Hr. cbn [obind]. rewrite EO. cbn [obind]. rewrite ES. cbn [obind]. rewrite EM. cbn [obind]. fold (pl_of T'). rewrite EF. reflexivity.
    - split; [|exact (p_abs _ _ _ _ R)]. constructor; cbn [fst snd].
      + exact (p_to _ _ _ _ R).
      + exact (p_vc _ _ _ _ R).
      + apply tvars_nodup. exact (p_nd _ _ _ _ R).
      + intros x Hx. apply tvars_incl in Hx. assert (Z := p_bd _ _ _ _ R x Hx). lia.
      + lia.
      + exact (p_root _ _ _ _ R).
    - intros v S EFL. destruct (MS v S) as (N & NA & ON & SF). destruct (po_formula_sound P (s_bits C) uord false nv2 (pl_of T') (l_adj s) vars nv3 FG nv4 v PI EF EFL (pl_one P C T' n0 R v N) SF) as (ls & plan & LI & PO & EX & GO).
      exists ls, plan. split; auto. split; auto. exact (order_solution P C WF T' n0 R v s ls plan AC N NA ON DG OR LI PO EX GO).
    - intros v S AE. destruct (MS v S) as (N & NA & ON & SF). assert (OC := pl_one P C T' n0 R v N).
      destruct (po_printed_sound P (s_bits C) uord false nv2 (pl_of T') (l_adj s) vars nv3 FG nv4 v (po_plan v k) PI EF AE OC SF) as [LI XG]. cbn [k_leafs] in AE.
      assert (PO : plan_of v (pl_of T') (printed (pl_of T') vars nv3 v) (po_plan v k)).
      { unfold po_plan. cbn [k k_leafs k_vars k_base]. assert (G : forall l, In l (printed (pl_of T') vars nv3 v) -> exists lf, nth_error (pl_of T') l = Some lf /\ active v lf) by (intros l; apply (li_act _ _ _ _ LI)).
        revert G. generalize (printed (pl_of T') vars nv3 v). induction l as [|l ls IH]; intros G; [constructor|]. destruct (G l (or_introl eq_refl)) as (lf & Hl & Ac). cbn [flat_map]. rewrite (nth_error_nth _ _ [] Hl). destruct (output_task v lf) as [a|] eqn:Oa; [|elim (output_none v lf Oa Ac)].
        cbn [app]. constructor; [exists lf; split; auto; now apply output_some|]. apply IH. intros l' H'. apply G. now right. }
      destruct (XG PO) as [EX GO]. exact (order_solution P C WF T' n0 R v s _ _ AC N NA ON DG OR LI PO EX GO).
    - intros l x a Hl Hx. cbn [k k_leafs] in Hl. apply (pl_in T') in Hl as (q & d & -> & Aq). apply in_combine_nth in Hx as (i & _ & Hx). assert (H := at_ok P T' (p_to _ _ _ _ R) q _ Aq). apply tree_ok_node in H as (H & _). apply (to_prims _ _ H). now apply nth_error_In in Hx.
    - constructor; cbn [fst snd k k_leafs k_adj k_vars k_base]; eauto.
      + exists nv2, FG. split; auto. split; auto. intros v S. destruct (MS v S) as (N & _ & ON & SF). auto.
      + intros v ls plan N NA ON LI PO RM CN EX GO.
        assert (UP : forall w q t, at_node T' q t -> unpruned w [] q (dat t)) by (intros w q t _ pr i _ []).
        assert (PS := pruned_sat P [] T' n0 (fun q t => all_closed P C T' q t (p_to _ _ _ _ R)) (p_fi _ _ _ _ R) (p_bd _ _ _ _ R)).
        assert (DC : dec_cond v [] T' []).
        { apply (dec_all P [] T' (p_to _ _ _ _ R) (p_vc _ _ _ _ R) v). intros q d ch Aq Ee Nt.
          apply (node_meaning P [] T' n0 (p_to _ _ _ _ R) (fun q t => all_closed P C T' q t (p_to _ _ _ _ R)) (p_fi _ _ _ _ R) (p_bd _ _ _ _ R) (p_nd _ _ _ _ R) v q d ch Aq Ee (UP v q _ Aq)). auto. }
        destruct (K1 v DC) as (v1 & A1 & Q1). assert (AG1 : agree n0 v v1) by (intros x Hx; symmetry; apply A1; lia).
        assert (OW : forall lf a, In lf (pl_of T') -> (occurs v lf a <-> occurs v1 lf a)) by exact (occurs_agree P n0 v v1 (pl_of T') (pl_ok P C WF T' n0 R n0 (Z.le_refl _)) AG1).
        assert (N1 : nodes T' v1) by (apply (nodes_dec P C T' n0 R v1), (D1 v v1 AG1), DC).
        destruct (po_formula_complete P (s_bits C) uord false nv2 (pl_of T') (l_adj s) vars nv3 FG nv4 v1 ls plan PI EF (pl_one P C T' n0 R v1 N1) (linearises_agree _ _ _ _ _ OW LI) (plan_of_agree _ _ _ _ _ OW PO) (room_agree _ _ _ _ _ OW RM) CN EX GO) as (v2 & A2 & Q2).
        assert (AG2 : agree n0 v v2) by (intros x Hx; rewrite (AG1 x Hx); symmetry; apply A2; lia).
        exists v2. unfold cl. rewrite !sat_app. split; [|split; [|split; [|split; auto]]].
        * apply (sat_agree nv2 v1 v2 c1); auto. intros x Hx. symmetry. apply A2. lia.
        * cbn [vlit]. rewrite sat_yes, lit_pos by lia. rewrite <- (AG2 r) by lia. destruct ON as (x & Hx & Tx). cbn [cvars] in Hx. rewrite Hr in Hx. injection Hx as <-. exact Tx.
        * intros c Hc. unfold no_abstract in Hc. apply in_flat_map in Hc as ([q d] & Hq & Hc). cbn [snd] in Hc. apply in_flat_map in Hc as (x & Hx & [<-|[]]). apply leafs_at in Hq. apply somes_in in Hx as (a & Ha).
          assert (B := var_bound T' n0 (p_bd _ _ _ _ R) q (PNode d []) false a x Hq Ha). exists (- x). split; [now left|]. rewrite lit_npos by lia. rewrite <- (AG2 x B). destruct (v x) eqn:Ex; auto. elim (NA q d a Hq). exists x. auto.
        * apply PS. auto.
  Qed.
  Lemma state_ok : forall d, exists st, po_state P C uord d = Some st /\ pinv P C st.
  Proof.
    induction d as [|d (st & E & I)]; cbn [po_state]; [exists (pdt_root P, 0); split; auto; apply start_pinv; exact (wf_init _ WF)|]. rewrite E. cbn [obind]. destruct (create_po_ok (S d) st I) as (T & nv & k & cl & E' & I' & _). rewrite E'. cbn [obind]. eauto.
  Qed.
  Lemma encoding_ok d : exists T nv k cl, po_encoding P C uord d = Some (T, nv, k, cl) /\ psays k cl.
  Proof. destruct (state_ok d) as (st & E & I). unfold po_encoding. rewrite E. cbn [obind]. destruct (create_po_ok (S d) st I) as (T & nv & k & cl & E' & _ & S & _). exists T, nv, k, cl. auto. Qed.
  Lemma po_search_ok solver rounds : (forall cl v, solver cl = Some v -> satisfies v cl) -> (forall a, primitive P a -> effectful P a) -> forall depth st, pinv P C st ->
    exists r, po_search P C uord solver rounds depth st = Some r /\ forall plan, r = Some plan -> solution P plan.
  Proof.
    intros SO EF. induction rounds as [|rounds IH]; intros depth st I; cbn [po_search]; [exists None; split; auto; discriminate|]. destruct (create_po_ok depth st I) as (T & nv & k & cl & E & I' & (_ & _ & S & PR) & _). rewrite E. cbn [obind].
    destruct (solver cl) as [v|] eqn:Ev; [|auto]. exists (Some (po_plan v k)). split; auto. intros plan Ep. apply some_eq in Ep. subst plan. apply S; [now apply SO|]. intros [|[x a] lf] Hl N; [congruence|]. exists x, a. split; [now left|]. apply EF. apply (PR _ x a Hl). now left.
  Qed.
End Main.
