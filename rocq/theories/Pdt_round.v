(** One depth of the totally ordered SAT encoding. *)
From Verif Require Import Base Htn_problem Htn_spec To_spec To_sem Sat_model Sat_spec Sat_proof Sf_model Sf_spec Sf_proof Tab_proof Pdt_model Pdt_spec Pdt_tree Pdt_expand Pdt_prune Pdt_leafs Pdt_vars Pdt_clause Pdt_dec Pdt_sound.
Local Open Scope Z_scope.

Section Round.
  Context {KI : kind}.
  Variables (P : problem).
  Hypothesis AB : nth_error (p_prim P) (p_init P) = Some false.

  (** The state between the depths. *)
  Record sinv (st : pdt * Z) : Prop := {
    si_to : tree_ok P (fst st);
    si_vc : tall vcond (fst st);
    si_nd : NoDup (tvars (fst st));
    si_bd : forall x, In x (tvars (fst st)) -> 1 <= x <= snd st;
    si_nv : 0 <= snd st;
    si_root : pn_prims (dat (fst st)) = [] /\ pn_abs (dat (fst st)) = [p_init P] }.

  (** The pruned tree with its variables. *)
  Record rnd (T : pdt) (F : flags) (T' : pdt) (n0 : Z) : Prop := {
    r_to : tree_ok P T;
    r_asg : asg P F [] T T';
    r_to' : tree_ok P T';
    r_cl : forall q t, at_node T' q t -> closed P F q t;
    r_fi : forall q t, at_node T' q t -> filled P F q (dat t);
    r_bd : forall x, In x (avars T') -> 1 <= x <= n0;
    r_pos : 1 <= n0;
    r_vc : tall vcond T';
    r_nd : NoDup (avars T');
    r_leaf : forall q d a, at_node T' q (PNode d []) -> (a < length (pn_abs d))%nat -> In (IA q a) F;
    r_root : pn_prims (dat T') = [] /\ pn_abs (dat T') = [p_init P] }.

  Lemma leafs_ne : forall t q, leafs t q <> [].
  Proof.
    induction t as [d ch IH] using pdt_rect'. intros q. destruct ch as [|u r]; [discriminate|]. inversion IH as [|? ? H1 H2]; subst. specialize (H1 (O :: q)). cbn [leafs]. intros E. apply app_eq_nil in E as [E _]. auto.
  Qed.
  Lemma start_ok : sinv (pdt_root P, 0).
  Proof.
    constructor; cbn [fst snd pdt_root dat fresh_node pn_prims pn_abs]; auto.
    - apply tree_ok_node. split; [|split; [reflexivity|constructor]]. constructor; cbn [fresh_node pn_prims pn_abs]; [constructor|intros p []|]. intros t [<-|[]]. exact AB.
    - apply tall_node. split; [|constructor]. split; [split; reflexivity|]. intros _ u [].
    - constructor.
    - intros x [].
    - lia.
  Qed.
  Lemma asg_leaf F T T' q d : asg P F [] T T' -> at_node T' q (PNode d []) -> exists d0, at_node T q (PNode d0 []) /\ nasg P F q d0 d.
  Proof.
    intros A H. destruct (asg_at' P F (rev q) [] T T' _ A H) as (u & U1 & U2). rewrite rev_involutive, app_nil_r in U2. inversion U2 as [q0 d0 ch0 d' ch' N L K]; subst. destruct ch0; [|discriminate]. exists d0. split; auto.
  Qed.
  Lemma round_upto xp depth T0 nv : (forall d, tasks_ok P d -> pn_abs d <> [] -> exists d' us, xp d = Some (d', map (fun u => PNode u []) us) /\ expanded P d d' us) ->
    sinv (T0, nv) -> exists T, expand_upto xp depth T0 = Some T /\ sinv (T, nv) /\ deep depth T.
  Proof.
    intros XP [I1 I2 I3 I4 I5 I6]. cbn [fst snd] in *. destruct (expand_upto_ok P xp XP depth T0 I1 I2) as (T & E1 & E2 & E3 & E4 & E5 & E6). exists T. split; auto.
    assert (RT : pn_prims (dat T) = [] /\ pn_abs (dat T) = [p_init P]). { unfold top in E6. assert (Q := f_equal (fun x => fst (fst (fst x))) E6). cbn [fst] in Q. apply core_eq in Q as (Q1 & Q2 & _). rewrite Q1, Q2. exact I6. }
    split; [constructor; cbn [fst snd]; auto; rewrite E5; auto|auto].
  Qed.
  Lemma round_assign T nv F : sinv (T, nv) -> (forall q t, at_node T q t -> closed P F q t) -> (forall q d a, at_node T q (PNode d []) -> (a < length (pn_abs d))%nat -> In (IA q a) F) ->
    forall T' n0, assign P F T [] nv = (T', n0) -> rnd T F T' n0 /\ nv <= n0.
  Proof.
    intros [E2 E3 I3 I4 I5 RT] F2 F3 T' n0 A. cbn [fst snd] in *. destruct (assign_ok P F T [] nv T' n0 E2 E3 A) as (AS & (X1 & X2 & X3 & X4)). split; [|exact X1].
    assert (D := asg_data _ _ _ _ _ AS). destruct (core_eq _ _ (na_core _ _ _ _ _ D)) as (C1 & C2 & _).
    assert (AT : forall q t', at_node T' q t' -> exists t, at_node T q t /\ asg P F q t t'). { intros q t' H. destruct (asg_at' P F (rev q) [] T T' t' AS H) as (u & U1 & U2). rewrite rev_involutive, app_nil_r in U2. eauto. }
    assert (BD : forall x, In x (avars T') -> 1 <= x <= n0). { intros x Hx. destruct (X2 x Hx) as [H|H]; [|lia]. specialize (I4 x H). lia. }
    constructor; auto.
    - eapply asg_tree_ok; eauto.
    - intros q t' H. destruct (AT q t' H) as (t & T1 & T2). eapply asg_closed; eauto.
    - intros q t' H. destruct (AT q t' H) as (t & T1 & T2). apply asg_data in T2. eapply nasg_filled; eauto.
    - destruct (na_none _ _ _ _ _ D) as (z & Hz). assert (1 <= z <= n0); [|lia]. apply BD. destruct T' as [d' ch']. cbn [avars dat] in *. unfold own_vars. rewrite Hz. now left.
    - eapply asg_vcond; eauto.
    - apply X4; auto. intros x Hx. apply I4 in Hx. lia.
    - intros q d a H L. destruct (asg_leaf F T T' q d AS H) as (d0 & D1 & D2). apply (F3 q d0 a D1). destruct (core_eq _ _ (na_core _ _ _ _ _ D2)) as (_ & Q & _). rewrite <- Q. exact L.
    - rewrite C1, C2. exact RT.
  Qed.
End Round.

Section Depth.
  Existing Instance to_kind.
  Variables (P : problem) (C : sconf).
  Hypothesis WF : wf_problem P.
  Hypothesis CO : conf_ok P C.
  Lemma round_expand depth T0 nv : sinv P (T0, nv) -> exists T, expand_to P C depth T0 = Some T /\ sinv P (T, nv) /\ deep depth T.
  Proof. apply round_upto. exact (expand_node_ok P C WF CO). Qed.
  Lemma round_tree ff depth T0 nv : sinv P (T0, nv) -> exists T F, expand_to P C depth T0 = Some T /\ sinv P (T, nv) /\ deep depth T /\ prune P ff T = Some F /\
    forall T' n0, assign P F T [] nv = (T', n0) -> rnd P T F T' n0 /\ nv <= n0.
  Proof.
    intros I. destruct (round_expand depth T0 nv I) as (T & E & I' & D). destruct (prune_ok P T WF (si_to _ _ I') ff) as (F & F1 & F2 & F3). exists T, F. split; auto. split; auto. split; auto. split; auto. apply round_assign; auto.
  Qed.
End Depth.

Section Clauses.
  Context {KI : kind}.
  Variables (P : problem) (C : sconf).
  Hypothesis WF : wf_problem P.
  Hypothesis CO : conf_ok P C.
  Section One.
    Variables (T : pdt) (F : flags) (T' : pdt) (n0 : Z).
    Hypothesis R : rnd P T F T' n0.
    Definition atoms := map (fun x => leaf_atoms (snd x)) (leafs T' []).
    Definition all_unpruned v := forall q t, at_node T' q t -> unpruned v F q (dat t).
    Definition all_nodes v := forall q d ch, at_node T' q (PNode d ch) -> pn_exp d = true -> task_vars d <> [] -> unique_task v d /\ unique_meth v d /\ sem v F q d ch.

    Lemma nodes_meaning v : all_unpruned v -> (dec_cond v F T' [] <-> all_nodes v).
    Proof.
      intros U. rewrite (dec_all P F T' (r_to' _ _ _ _ _ R) (r_vc _ _ _ _ _ R) v).
      split; intros H q d ch A Ee N; specialize (H q d ch A Ee N); assert (Ud := U q _ A); cbn [dat] in Ud.
      - now apply (node_meaning P F T' n0 (r_to' _ _ _ _ _ R) (r_cl _ _ _ _ _ R) (r_fi _ _ _ _ _ R) (r_bd _ _ _ _ _ R) (r_nd _ _ _ _ _ R) v q d ch A Ee Ud).
      - now apply (node_meaning P F T' n0 (r_to' _ _ _ _ _ R) (r_cl _ _ _ _ _ R) (r_fi _ _ _ _ _ R) (r_bd _ _ _ _ _ R) (r_nd _ _ _ _ _ R) v q d ch A Ee Ud).
    Qed.
    Lemma root1 : pn_prims (dat T') = [] /\ length (pn_abs (dat T')) = 1%nat.
    Proof. destruct (r_root _ _ _ _ _ R) as [-> ->]. auto. Qed.
    Lemma unique_leaf v : all_unpruned v -> all_nodes v -> one_each v atoms.
    Proof.
      intros U N l Hl. apply in_map_iff in Hl as ([q d] & <- & Hq). cbn [snd]. apply leafs_at in Hq. assert (UQ := unique_all P F T' v (r_to' _ _ _ _ _ R) (r_fi _ _ _ _ _ R) (r_vc _ _ _ _ _ R) N root1 q _ Hq). cbn [dat] in UQ.
      change (chosen_at v (leaf_atoms d)) with (plan_at v d). destruct (plan_at v d) as [|x r] eqn:E; [cbn; lia|]. assert (Hx : In x (chosen_at v (leaf_atoms d))) by (change (chosen_at v (leaf_atoms d)) with (plan_at v d); rewrite E; now left).
      apply in_chosen in Hx as (y & Y1 & Y2). apply leaf_atoms_in in Y1 as (i & I1 & I2). assert (O : on v true d i) by (exists y; auto).
      rewrite (plan_at_one v d i x) in E; auto; [injection E as <-; auto|exact (fl_len _ _ _ _ (r_fi _ _ _ _ _ R q _ Hq) true)|]. intros j Oj. destruct (UQ _ _ _ _ Oj O); auto.
    Qed.
    Lemma plan_chosen v : chosen v atoms = sat_plan v T'.
    Proof. unfold chosen, atoms, sat_plan. induction (leafs T' []) as [|[q d] r IH]; auto. cbn [map flat_map snd]. now rewrite IH. Qed.
    Lemma atoms_act l x : In l atoms -> In x l -> 1 <= fst x <= n0 /\ primitive P (snd x) /\ exists q d i, at_node T' q (PNode d []) /\ nth_error (pn_pvar d) i = Some (Some (fst x)).
    Proof.
      intros Hl Hx. apply in_map_iff in Hl as ([q d] & <- & Hq). cbn [snd] in Hx. apply leafs_at in Hq. destruct x as [y p]. apply leaf_atoms_in in Hx as (i & I1 & I2). cbn [fst snd]. split; [|split].
      - exact (var_bound T' n0 (r_bd _ _ _ _ _ R) q (PNode d []) true i y Hq I1).
      - assert (H := at_ok P T' (r_to' _ _ _ _ _ R) q _ Hq). apply tree_ok_node in H as (H & _). apply (to_prims _ _ H). now apply nth_error_In in I2.
      - exists q, d, i. auto.
    Qed.
    Lemma blocks_ok (bc : bool) : exists blocks, (if bc then block_compression P (map (leaf_unpruned F) (leafs T' [])) else Some (unit_blocks atoms)) = Some blocks /\ blocks <> [] /\ concat blocks = seq 0 (length atoms) /\
      forall v, all_unpruned v -> all_nodes v -> forall b, In b blocks -> ForallOrdPairs (independent P) (bchosen atoms v b).
    Proof.
      assert (LA : length atoms = length (leafs T' [])) by (unfold atoms; now rewrite map_length).
      destruct bc.
      - destruct (compress_defined P WF (map (leaf_unpruned F) (leafs T' []))) with (l := O) (b := @nil nat) (c := @nil nat) as (bs & Eb).
        { intros l a Hl Ha. apply in_map_iff in Hl as ([q d] & <- & Hq). apply in_flat_map in Ha as ([i p] & Hi & Ha). cbn [fst snd] in *. destruct (marked F (IP q i)); [destruct Ha|]. destruct Ha as [<-|[]]. apply enum_in in Hi. apply nth_error_In in Hi. apply leafs_at in Hq.
          assert (H := at_ok P T' (r_to' _ _ _ _ _ R) q _ Hq). apply tree_ok_node in H as (H & _). exact (wf_prim _ WF _ (to_prims _ _ H p Hi)). }
        { intros a []. }
        exists bs. split; [exact Eb|]. split; [eapply compress_nonempty; exact Eb|].
        destruct (compress_ok P (map (leaf_unpruned F) (leafs T' [])) (map (leaf_unpruned F) (leafs T' [])) [] [] [] bs) as [B1 B2]; try (intros i []; fail); try (intros i a []; fail); try (intros i j x y []; fail); auto.
        rewrite map_length in B1. cbn [app] in B1. rewrite LA. split; [exact B1|]. intros v U N b Hb. assert (OE := unique_leaf v U N). specialize (B2 b Hb).
        assert (BI : forall i, In i b -> (i < length atoms)%nat). { intros i Hi. rewrite LA. assert (Z : In i (concat bs)) by (apply in_concat; eauto). rewrite B1 in Z. cbn [length] in Z. apply in_seq in Z. lia. }
        unfold bchosen, chosen, bleafs. rewrite flat_map_concat_map, map_map, <- flat_map_concat_map. apply fop_flat; [|intros i Hi; apply OE, nth_In; auto]. apply fop_seq; [|apply (fop_concat lt bs b); auto; rewrite B1; apply seq_fop].
        assert (IN : forall i x, In i b -> In x (chosen_at v (nth i atoms [])) -> In x (nth i (map (leaf_unpruned F) (leafs T' [])) [])).
        { intros i x Hi Hx. assert (Li := BI i Hi). rewrite LA in Li. destruct (nth_error (leafs T' []) i) as [[q d]|] eqn:El; [|apply nth_error_None in El; lia].
          assert (E1 : nth i atoms [] = leaf_atoms d). { apply nth_error_nth. unfold atoms. now rewrite nth_error_map, El. } assert (E2 : nth i (map (leaf_unpruned F) (leafs T' [])) [] = leaf_unpruned F (q, d)). { apply nth_error_nth. now rewrite nth_error_map, El. }
          rewrite E1 in Hx. rewrite E2. apply in_chosen in Hx as (y & Y1 & Y2). apply leaf_atoms_in in Y1 as (k & K1 & K2). apply nth_error_In in El. apply leafs_at in El. assert (NU : ~ In (IP q k) F). { apply (U q _ El true k). exists y. auto. }
          unfold leaf_unpruned. cbn [fst snd]. apply in_flat_map. exists (k, x). split; [now apply enum_in|]. apply marked_out in NU. rewrite NU. now left. }
        intros i j Hi Hj L x y Hx Hy. apply (B2 i j x y); auto.
      - exists (unit_blocks atoms). split; auto. assert (BI := unit_ok P atoms). split; [|split; [apply BI|]].
        + unfold unit_blocks. rewrite LA. destruct (leafs T' []) as [|x r] eqn:E; [exfalso; exact (leafs_ne _ _ E)|]. discriminate.
        + intros v U N. exact (blocks_fop P atoms v _ BI (unique_leaf v U N)).
    Qed.

    Variables (bc : bool).
    Hypothesis ALIVE : ~ In (IA [] O) F.
    (** The clauses after the tree has got its variables. *)
    Lemma clauses_ok : exists c1 nv2 r blocks c3 nv3, decomposition C F T' [] n0 = Some (c1, nv2) /\ get (pn_avar (dat T')) 0 = Some (Some r) /\
      (if bc then block_compression P (map (leaf_unpruned F) (leafs T' [])) else Some (unit_blocks atoms)) = Some blocks /\ state_formula P nv2 atoms blocks = Some (c3, nv3) /\ n0 <= nv3 /\ 0 <= nv2 /\
      (forall v, satisfies v (c1 ++ assertYes r ++ pruned_clauses F T' [] ++ c3) -> forall k, (k <= length blocks)%nat -> exists p1 p2, sat_plan v T' = p1 ++ p2 /\ same P (rd v (sf_base P nv2 k)) (after P (initial_state P) p1)) /\
      let cl := c1 ++ assertYes r ++ pruned_clauses F T' [] ++ c3 in
      (forall c l, In c cl -> In l c -> 1 <= Z.abs l <= nv3) /\
      (forall v, satisfies v cl -> all_unpruned v /\ all_nodes v /\ on v false (dat T') 0 /\ executable P (initial_state P) (sat_plan v T') /\ goal_state P (after P (initial_state P) (sat_plan v T'))) /\
      (forall v, all_unpruned v -> all_nodes v -> on v false (dat T') 0 -> consistent P (sat_plan v T') -> executable P (initial_state P) (sat_plan v T') -> goal_state P (after P (initial_state P) (sat_plan v T')) ->
         exists v', agree n0 v v' /\ satisfies v' cl /\ sat_plan v' T' = sat_plan v T').
    Proof.
      assert (AR : at_node T' [] T') by reflexivity.
      destruct (dec_encodes P C F T' n0 (r_to' _ _ _ _ _ R) (r_cl _ _ _ _ _ R) (r_fi _ _ _ _ _ R) (r_bd _ _ _ _ _ R) (r_pos _ _ _ _ _ R) (ok_bits _ _ CO) T' [] n0 AR (Z.le_refl _)) as (c1 & nv2 & E1 & [L1 V1 _ [S1 K1]] & D1).
      destruct (fl_get _ _ _ _ (r_fi _ _ _ _ _ R [] T' AR) false 0%nat (p_init P)) as (r & Hr); [cbn [ctasks]; now rewrite (proj2 (r_root _ _ _ _ _ R))|exact ALIVE|]. cbn [cvars] in Hr.
      destruct (blocks_ok bc) as (blocks & Eb & NB & CB & FO).
      assert (AO : actions_ok P atoms). { intros l x Hl Hx. apply (wf_prim _ WF). apply (atoms_act l x Hl Hx). }
      destruct (formula_defined P WF nv2 atoms blocks AO NB CB) as (c3 & nv3 & E3). exists c1, nv2, r, blocks, c3, nv3.
      assert (N2 : 0 <= nv2) by (assert (Q := r_pos _ _ _ _ _ R); lia). assert (XP : forall l x, In l atoms -> In x l -> 1 <= fst x <= nv2). { intros l x Hl Hx. destruct (atoms_act l x Hl Hx) as [Q _]. lia. }
      destruct (formula_vars P WF nv2 atoms N2 XP blocks c3 nv3 E3) as [L3 V3].
      assert (RB : 1 <= r <= n0) by exact (var_bound T' n0 (r_bd _ _ _ _ _ R) [] T' false 0%nat r AR Hr).
      assert (PV := pruned_vars P F T' n0 (r_cl _ _ _ _ _ R) (r_fi _ _ _ _ _ R) (r_bd _ _ _ _ _ R)).
      assert (PS := pruned_sat P F T' n0 (r_cl _ _ _ _ _ R) (r_fi _ _ _ _ _ R) (r_bd _ _ _ _ _ R)).
      assert (RV : forall v, satisfies v (assertYes r) <-> v r = true). { intros v. rewrite sat_yes, lit_pos by lia. reflexivity. }
      split; auto. split; auto. split; auto. split; auto. split; [lia|]. split; [exact N2|]. split; [|cbv zeta; split; [|split]].
      - intros v S k Lk. rewrite !sat_app in S. destruct S as (Q1 & Q2 & Q3 & Q4). assert (U := proj1 (PS v) Q3). assert (N := proj1 (nodes_meaning v U) (S1 v Q1)).
        destruct (formula_sound P WF nv2 atoms N2 XP v blocks c3 nv3 E3 (FO v U N) Q4) as (_ & _ & ST). exists (bplan atoms v (firstn k blocks)), (bplan atoms v (skipn k blocks)). split; [|exact (ST k Lk)].
        rewrite <- plan_chosen, <- (bplan_chosen atoms v blocks CB). unfold bplan. rewrite <- flat_map_app, firstn_skipn. reflexivity.
      - intros c l Hc Hl. apply in_app_or in Hc as [Hc|Hc]; [specialize (V1 c l Hc Hl); unfold lit_ok in V1; lia|]. apply in_app_or in Hc as [Hc|Hc]; [destruct Hc as [<-|[]]; destruct Hl as [<-|[]]; lia|].
        apply in_app_or in Hc as [Hc|Hc]; [specialize (PV c l Hc Hl); unfold lit_ok in PV; lia|]. exact (V3 c l Hc Hl).
      - intros v S. rewrite !sat_app in S. destruct S as (Q1 & Q2 & Q3 & Q4). assert (U := proj1 (PS v) Q3). assert (N := proj1 (nodes_meaning v U) (S1 v Q1)). split; auto. split; auto. split; [exists r; split; auto; now apply RV|].
        destruct (formula_sound P WF nv2 atoms N2 XP v blocks c3 nv3 E3 (FO v U N) Q4) as (EX & GO & _). rewrite (bplan_chosen atoms v blocks CB), plan_chosen in EX, GO. auto.
      - intros v U N O CN EX GO. destruct (K1 v (proj2 (nodes_meaning v U) N)) as (v1 & A1 & Q1).
        assert (SAME : forall w w', agree n0 w w' -> sat_plan w' T' = sat_plan w T'). { intros w w' A. rewrite <- !plan_chosen. symmetry. apply chosen_agree. intros l x Hl Hx. apply A. apply (atoms_act l x Hl Hx). }
        assert (AG1 : agree n0 v v1). { intros x Hx. symmetry. apply A1. lia. }
        assert (U1 : all_unpruned v1). { intros q t A pr i (x & Hx & Tx). apply (U q t A pr i). exists x. split; auto. rewrite (AG1 x); auto. exact (var_bound T' n0 (r_bd _ _ _ _ _ R) q t pr i x A Hx). }
        assert (DC1 : dec_cond v1 F T' []) by (apply (D1 v v1 AG1); now apply nodes_meaning). assert (N1 := proj1 (nodes_meaning v1 U1) DC1).
        assert (P1 := SAME v v1 AG1). assert (BP : bplan atoms v1 blocks = sat_plan v T') by (rewrite (bplan_chosen atoms v1 blocks CB), plan_chosen; exact P1).
        destruct (formula_complete P WF nv2 atoms N2 XP v1 blocks c3 nv3 E3 CB (FO v1 U1 N1)) as (v2 & A2 & Q2); try (rewrite BP; assumption).
        assert (AG2 : agree n0 v v2). { intros x Hx. rewrite (AG1 x Hx). symmetry. apply A2. lia. }
        exists v2. split; auto. split; [|now apply SAME]. rewrite !sat_app. split; [|split; [|split; auto]].
        + apply (sat_agree nv2 v1 v2 c1); auto. intros x Hx. symmetry. apply A2. lia.
        + apply RV. rewrite <- (AG2 r) by lia. destruct O as (x & Hx & Tx). cbn [cvars] in Hx. unfold get in Hr. rewrite Hr in Hx. injection Hx as <-. exact Tx.
        + apply PS. intros q t A pr i (x & Hx & Tx). apply (U q t A pr i). exists x. split; auto. rewrite (AG2 x); auto. exact (var_bound T' n0 (r_bd _ _ _ _ _ R) q t pr i x A Hx).
    Qed.
  End One.
End Clauses.
