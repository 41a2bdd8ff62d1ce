(** C80-C83: the SAT encoding of partially ordered leafs. *)
From Coq Require Import ZArith Lia Relation_Operators.
From Verif Require Import Base Htn_problem Htn_spec Sat_model Sat_spec Sat_proof Sf_model Sf_spec Sf_proof Posog_spec Pom_model Pom_spec Pom_proof Pom_lin Pom_full.

Local Open Scope Z_scope.

(** C80: the matching formula expresses that there is a placement of the leafs. *)
Theorem matching_exact P bits leafs effs adj vars nv F nv' :
  (forall n, (256 <= n)%nat -> (n <= 2 ^ bits n)%nat) -> 0 <= nv ->
  length (p_add P) = length (p_cost P) -> length (p_del P) = length (p_cost P) -> leafs_ok P nv leafs ->
  (forall l lf, nth_error leafs l = Some lf -> (nth l effs false = true <-> effect_leaf P lf)) ->
  (forall acts, In acts vars -> NoDup (map snd acts)) -> (forall acts x a, In acts vars -> In (x, a) acts -> 1 <= x <= nv /\ (a < length (p_cost P))%nat) ->
  length adj = length leafs -> dag adj ->
  matching_formula P bits leafs effs adj vars nv = Some (F, nv') ->
  expresses nv nv' F (fun v => exists pl, placement P v leafs adj vars pl).
Proof.
  intros BO NV LA LD LO EF VN VR AN DG E. split.
  - intros v S. destruct (matching_sound P bits BO leafs effs adj vars nv NV LA LD LO EF VN VR AN F nv' v E S) as [PL _]. eauto.
  - intros v (pl & PL). exact (matching_complete P bits BO leafs effs adj vars nv NV LA LD LO EF VN VR AN F nv' v pl E DG PL).
Qed.

(** C80: on an acyclic graph the whole encoding is defined. *)
Theorem po_formula_defined P bits uord nv leafs adj : wf_problem P -> set_order uord -> 0 <= nv -> leafs_ok P nv leafs -> length adj = length leafs -> wf_graph adj ->
  exists r, po_formula P bits uord false nv leafs adj = Some r.
Proof.
  intros WF UO NV LO AN WG. destruct (atoms_defined P uord (wf_la P WF) (wf_ld P WF) nv leafs (lo_acts _ _ _ LO)) as ([[effs vars] nv1] & E1).
  destruct (atoms_ok P uord (wf_la P WF) (wf_ld P WF) UO false nv leafs effs vars nv1 NV (lo_acts _ _ _ LO) E1) as (L1 & LE & EF & LM & VN & VA & VR & VU).
  assert (AC : forall acts x a, In acts vars -> In (x, a) acts -> (a < length (p_cost P))%nat).
  { intros acts x a Ha Hx. destruct (proj1 (VA acts a Ha)) as (l & y & Hl & Hy); [apply in_map_iff; exists (x, a); auto|]. exact (lo_acts _ _ _ LO l y a Hl Hy). }
  destruct (formula_defined P WF nv1 vars (unit_blocks vars)) as (F & nv2 & E2).
  - intros l [x a] Hl Hx. exact (AC l x a Hl Hx).
  - intros Q. apply (f_equal (@length _)) in Q. unfold unit_blocks in Q. rewrite map_length, seq_length in Q. cbn in Q. lia.
  - unfold unit_blocks. assert (C : forall l : list nat, concat (map (fun t => [t]) l) = l) by (induction l as [|x l IH]; cbn; [auto|now rewrite IH]). apply C.
  - assert (L2 : nv1 <= nv2). { apply (formula_vars P WF nv1 vars ltac:(lia)) in E2; [apply E2|]. intros l [x a] Hl Hx. specialize (VR l x a Hl Hx). cbn. lia. }
    destruct (matching_defined P bits leafs effs adj vars nv2 (wf_la P WF) (wf_ld P WF)) as (G & nv3 & E3); auto.
    + intros acts x a Ha Hx. specialize (VR acts x a Ha Hx). split; [lia|eauto].
    + intros acts l x a Ha Hl Hx. apply (VA acts a Ha). eauto.
    + exists (vars, nv2, F ++ G, nv3). unfold po_formula. rewrite E1. cbn [obind]. rewrite E2. cbn [obind]. rewrite E3. reflexivity.
Qed.

(** The setting of the following theorems. *)
Record po_input (P : problem) (bits : nat -> nat) (uord : list nat -> list nat) (nv : Z) (leafs : list pleaf) (adj : list (list nat)) : Prop := {
  pi_wf : wf_problem P;
  pi_bits : forall n, (256 <= n)%nat -> (n <= 2 ^ bits n)%nat;
  pi_uord : set_order uord;
  pi_nv : 0 <= nv;
  pi_leafs : leafs_ok P nv leafs;
  pi_len : length adj = length leafs;
  pi_graph : wf_graph adj;
  pi_dag : dag adj }.

(** C81: if leafs without effects never come after leafs with effects, every model is an executable plan in a compatible order. *)
Theorem po_formula_sound P bits uord sep nv leafs adj vars nv2 FG nv3 v : po_input P bits uord nv leafs adj ->
  po_formula P bits uord sep nv leafs adj = Some (vars, nv2, FG, nv3) -> effects_last P leafs adj -> one_chosen v leafs -> satisfies v FG ->
  exists ls plan, linearises v leafs adj ls /\ plan_of v leafs ls plan /\ executable P (initial_state P) plan /\ goal_state P (after P (initial_state P) plan).
Proof.
  intros [WF BO UO NV LO AN WG DG] E EL OC S. apply po_inv in E as (effs & nv1 & F & G & E1 & E2 & E3 & ->).
  exact (full_linear P bits uord sep nv leafs adj effs vars nv1 nv2 nv3 F G WF BO UO NV LO AN E1 E2 E3 v S OC WG DG EL).
Qed.

(** C81: if all leafs with actions have effects, the printed sequence of leafs is such a plan. *)
Theorem po_printed_sound P bits uord sep nv leafs adj vars nv2 FG nv3 v plan : po_input P bits uord nv leafs adj ->
  po_formula P bits uord sep nv leafs adj = Some (vars, nv2, FG, nv3) -> all_effects P leafs -> one_chosen v leafs -> satisfies v FG ->
  linearises v leafs adj (printed leafs vars nv2 v) /\
  (plan_of v leafs (printed leafs vars nv2 v) plan -> executable P (initial_state P) plan /\ goal_state P (after P (initial_state P) plan)).
Proof.
  intros [WF BO UO NV LO AN WG DG] E AE OC S. apply po_inv in E as (effs & nv1 & F & G & E1 & E2 & E3 & ->).
  destruct (full_printed P bits uord sep nv leafs adj effs vars nv1 nv2 nv3 F G WF BO UO NV LO AN E1 E2 E3 v S OC AE) as [LI IP]. split; auto.
  intros PO. exact (full_exec P bits uord sep nv leafs adj effs vars nv1 nv2 nv3 F G WF BO UO NV LO AN E1 E2 E3 v _ plan S OC (li_act _ _ _ _ LI) IP PO).
Qed.

(** C82: an executable order of the chosen actions is found, if there is a position left for every leaf. *)
Theorem po_formula_complete P bits uord sep nv leafs adj vars nv2 FG nv3 v ls plan : po_input P bits uord nv leafs adj ->
  po_formula P bits uord sep nv leafs adj = Some (vars, nv2, FG, nv3) -> one_chosen v leafs -> linearises v leafs adj ls -> plan_of v leafs ls plan -> room P v leafs ls ->
  consistent P plan -> executable P (initial_state P) plan -> goal_state P (after P (initial_state P) plan) ->
  exists v', (forall x, x <= nv \/ nv3 < x -> v' x = v x) /\ satisfies v' FG.
Proof.
  intros [WF BO UO NV LO AN WG DG] E OC LI PO RM CO EX GO. apply po_inv in E as (effs & nv1 & F & G & E1 & E2 & E3 & ->).
  exact (full_complete P bits uord sep nv leafs adj effs vars nv1 nv2 nv3 F G WF BO UO NV LO AN E1 E2 E3 v ls plan WG DG OC LI PO RM CO EX GO).
Qed.

(** C82: for leafs that all have effects the encoding is exact. *)
Theorem po_formula_exact P bits uord sep nv leafs adj vars nv2 FG nv3 v : po_input P bits uord nv leafs adj ->
  po_formula P bits uord sep nv leafs adj = Some (vars, nv2, FG, nv3) -> (forall lf, In lf leafs -> effect_leaf P lf) ->
  (forall a f, adds P a f -> ~ dels P a f) -> one_chosen v leafs ->
  ((exists v', (forall x, x <= nv \/ nv3 < x -> v' x = v x) /\ satisfies v' FG) <->
   (exists ls plan, linearises v leafs adj ls /\ plan_of v leafs ls plan /\ executable P (initial_state P) plan /\ goal_state P (after P (initial_state P) plan))).
Proof.
  intros PI E AE CO OC. split.
  - intros (v' & AG & S). assert (EL : effects_last P leafs adj) by (intros l k lf kf _ Gk _ _ _; apply AE; eapply nth_error_In; eauto).
    assert (OW : forall lf a, In lf leafs -> (occurs v' lf a <-> occurs v lf a)).
    { intros lf a Gl. split; intros (x & I & V); exists x; (split; [auto|]); assert (R := lo_vars _ _ _ (pi_leafs _ _ _ _ _ _ PI) lf x a Gl I); [rewrite <- AG by lia|rewrite AG by lia]; auto. }
    assert (OC' : one_chosen v' leafs) by (intros l a b I O O'; apply (OC l a b I); now apply OW).
    destruct (po_formula_sound P bits uord sep nv leafs adj vars nv2 FG nv3 v' PI E EL OC' S) as (ls & plan & [LN LA LR] & PO & R). exists ls, plan. split; [split; auto|split; auto].
    + intros l. rewrite LA. split; intros (lf & Gl & a & O); exists lf; (split; [auto|]); exists a; apply OW in O; auto; eapply nth_error_In; eauto.
    + unfold plan_of in *. clear - PO OW. induction PO as [|l a ls plan (lf & Gl & O) PO IH]; constructor; auto. exists lf. split; auto. apply OW; auto. eapply nth_error_In; eauto.
  - intros (ls & plan & LI & PO & EX & GO). eapply po_formula_complete; eauto.
    + right. right. destruct ls as [|x r]; [now left|]. right. destruct (@exists_last _ (x :: r)) as (pre & l & Q); [discriminate|].
      assert (I : In l (x :: r)) by (rewrite Q; apply in_or_app; right; now left). apply (li_act _ _ _ _ LI) in I as (lf & Gl & _). exists pre, l, lf. split; auto. split; auto. apply AE. eapply nth_error_In; eauto.
    + intros a f _. apply CO.
Qed.

(** ** C83: without these conditions both directions fail *)
Module Cex.
  Definition bits := Nat.log2_up.
  Lemma bits_suffice : forall n, (256 <= n)%nat -> (n <= 2 ^ bits n)%nat.
  Proof. intros n _. unfold bits. destruct n as [|[|n]]; [cbn; lia|cbn; lia|]. apply Nat.log2_up_spec. lia. Qed.
  Definition uord : list nat -> list nat := nodup Nat.eq_dec.
  Lemma uord_ok : set_order uord.
  Proof. intros l. split; [apply NoDup_nodup|intros x; apply nodup_In]. Qed.

  (** Two leafs, 0 before 1, with the actions 0 and 1. Action 1 needs fact 0 and has no effects; action 0 deletes (adds) fact 0. *)
  Definition prob (s0 add del : list nat) : problem :=
    {| p_nfacts := 1; p_prim := [true; true; false]; p_prec := [[]; [0%nat]]; p_add := [add; []]; p_del := [del; []]; p_cost := [1; 1]%nat;
       p_methods := [{| m_task := 2; m_subs := [0; 1]%nat; m_ord := [(0, 1)%nat] |}]; p_init := 2; p_s0 := s0; p_goal := [] |}.
  Definition leafs : list pleaf := [[(Some 1, 0%nat)]; [(Some 2, 1%nat)]].
  Definition adj : list (list nat) := [[1%nat]; []].
  Definition both : assignment := fun x => (x =? 1) || (x =? 2).

  Lemma input s0 add del : (forall f, In f s0 \/ In f add \/ In f del -> f = 0%nat) -> po_input (prob s0 add del) bits uord 2 leafs adj.
  Proof.
    intros H. split; [|apply bits_suffice|apply uord_ok|lia| |reflexivity| |].
    - constructor; cbn; auto.
      + intros x Q. destruct x as [|[|[|x]]]; cbn in Q; try discriminate; try lia. destruct x; discriminate.
      + intros l f Hl Hf. assert (f = 0%nat); [|lia]. destruct Hl as [[<-|[<-|[]]]|[[<-|[<-|[]]]|[<-|[<-|[]]]]]; cbn in Hf; auto; try tauto. lia.
      + intros f Hf. assert (f = 0%nat) by auto. lia.
      + intros f [].
      + intros me [<-|[]]. assert (LT : forall j k, m_lt {| m_task := 2; m_subs := [0; 1]%nat; m_ord := [(0, 1)]%nat |} j k -> (j < k)%nat).
        { intros j k Q. induction Q as [j k Q|]; [|lia]. destruct Q as [[= <- <-]|[]]; lia. }
        constructor; cbn; auto; try discriminate.
        * intros t [<-|[<-|[]]]; lia.
        * intros j k [[= <- <-]|[]]; lia.
        * intros j Q. specialize (LT j j Q). lia.
    - split.
      + intros l x a [<-|[<-|[]]] [E|[]]; injection E as <- <-; cbn; lia.
      + intros l [<-|[<-|[]]]; repeat constructor; intros [].
      + intros l x a [<-|[<-|[]]] [E|[]]; injection E as <- <-; lia.
    - intros x y (l & G & I). destruct x as [|[|x]]; cbn in G; [injection G as <-; destruct I as [<-|[]]; cbn; lia|injection G as <-; destruct I|destruct x; discriminate].
    - assert (LT : forall x y, precedes adj x y -> (x < y)%nat).
      { intros x y Q. induction Q as [x y (l & G & I)|]; [|lia]. destruct x as [|[|x]]; cbn in G; [injection G as <-; destruct I as [<-|[]]; lia|injection G as <-; destruct I|destruct x; discriminate]. }
      intros x Q. apply LT in Q. lia.
  Qed.
  Lemma order01 : precedes adj 0 1.
  Proof. apply t_step. exists [1%nat]. split; [reflexivity|now left]. Qed.
  Lemma one v : one_chosen v leafs.
  Proof. intros l a b [<-|[<-|[]]] (x & [E|[]] & _) (y & [E'|[]] & _); congruence. Qed.
  Lemma both0 : occurs both [(Some 1, 0%nat)] 0.
  Proof. exists 1. split; [now left|reflexivity]. Qed.
  Lemma both1 : occurs both [(Some 2, 1%nat)] 1.
  Proof. exists 2. split; [now left|reflexivity]. Qed.
  Lemma occ v l lf a : nth_error leafs l = Some lf -> occurs v lf a -> a = l.
  Proof. intros G (x & I & _). destruct l as [|[|l]]; cbn in G; [| |destruct l; discriminate]; injection G as <-; destruct I as [E|[]]; congruence. Qed.
  Lemma only_plan v ls plan : active v [(Some 1, 0%nat)] -> active v [(Some 2, 1%nat)] -> linearises v leafs adj ls -> plan_of v leafs ls plan -> plan = [0; 1]%nat.
  Proof.
    intros A0 A1 [ND AC OR] PO. assert (LS : ls = [0; 1]%nat).
    - assert (I0 : In 0%nat ls) by (apply AC; exists [(Some 1, 0%nat)]; split; auto). assert (I1 : In 1%nat ls) by (apply AC; exists [(Some 2, 1%nat)]; split; auto).
      assert (R : forall l, In l ls -> l = 0%nat \/ l = 1%nat). { intros l I. apply AC in I as (lf & G & _). destruct l as [|[|l]]; auto. destruct l; discriminate. }
      destruct ls as [|a [|b r]]; [destruct I0|destruct I0 as [->|[]], I1 as [E|[]]; discriminate|].
      assert (Ra := R a (or_introl eq_refl)). assert (Rb := R b (or_intror (or_introl eq_refl))). inversion ND as [|? ? N1 N2]; subst. inversion N2 as [|? ? N3 N4]; subst.
      assert (RN : r = []). { destruct r as [|c r]; auto. assert (Rc := R c ltac:(right; right; now left)). cbn in N1, N3. destruct Ra as [->| ->], Rb as [->| ->], Rc as [->| ->]; tauto. }
      subst r. cbn in N1. destruct Ra as [->| ->], Rb as [->| ->]; try tauto. inversion OR as [|? ? FA _]; subst. rewrite Forall_forall in FA. destruct (FA 0%nat (or_introl eq_refl) order01).
    - subst ls. inversion PO as [|? a ? p1 (lf & G & O) P1]; subst. inversion P1 as [|? b ? p2 (kf & G' & O') P2]; subst. inversion P2; subst. assert (Ea := occ v 0 lf a G O). assert (Eb := occ v 1 kf b G' O'). now subst.
  Qed.
  Lemma check v F : forallb (existsb (lit_true v)) F = true -> satisfies v F.
  Proof. intros H c Ic. rewrite forallb_forall in H. apply H in Ic. apply existsb_exists in Ic as (l & Il & V). exists l. auto. Qed.
End Cex.

(** Action 1 needs fact 0, which action 0 deletes before, but both are placed at the same position. *)
Theorem po_shared_position_refuted : exists P bits uord nv leafs adj vars nv2 FG nv3 v, po_input P bits uord nv leafs adj /\
  po_formula P bits uord false nv leafs adj = Some (vars, nv2, FG, nv3) /\ one_chosen v leafs /\ satisfies v FG /\
  forall ls plan, linearises v leafs adj ls -> plan_of v leafs ls plan -> ~ executable P (initial_state P) plan.
Proof.
  destruct (po_formula (Cex.prob [0%nat] [] [0%nat]) Cex.bits Cex.uord false 2 Cex.leafs Cex.adj) as [[[[vars nv2] FG] nv3]|] eqn:E; [|vm_compute in E; discriminate].
  exists (Cex.prob [0%nat] [] [0%nat]), Cex.bits, Cex.uord, 2, Cex.leafs, Cex.adj, vars, nv2, FG, nv3, (fun x => (1 <=? x) && (x <=? 11) && negb (x =? 6)).
  split; [apply Cex.input; cbn; lia|]. split; [exact E|]. split; [apply Cex.one|]. split.
  - vm_compute in E. apply some_eq in E. apply pair_equal_spec in E as [E _]. apply pair_equal_spec in E as [_ ->]. apply Cex.check. vm_compute. reflexivity.
  - intros ls plan LI PO. assert (plan = [0; 1]%nat); [|subst plan].
    { eapply Cex.only_plan; eauto; [exists 0%nat, 1|exists 1%nat, 2]; (split; [now left|reflexivity]). }
    cbn [executable]. intros (_ & A & _). destruct (A 0%nat) as [(l & G & I)|[_ D]].
    + exists [0%nat]. split; [reflexivity|now left].
    + cbn in G. injection G as <-. destruct I.
    + apply D. exists [0%nat]. split; [reflexivity|now left].
Qed.

(** Action 1 needs fact 0, which action 0 adds before, but there is no position left for it: the only solution is lost. *)
Theorem po_no_position_left_refuted : exists P bits uord nv leafs adj vars nv2 FG nv3 v ls plan, po_input P bits uord nv leafs adj /\
  po_formula P bits uord false nv leafs adj = Some (vars, nv2, FG, nv3) /\ one_chosen v leafs /\ linearises v leafs adj ls /\ plan_of v leafs ls plan /\ consistent P plan /\
  executable P (initial_state P) plan /\ goal_state P (after P (initial_state P) plan) /\
  forall v', (forall x, x <= nv \/ nv3 < x -> v' x = v x) -> ~ satisfies v' FG.
Proof.
  set (P := Cex.prob [] [0%nat] []).
  destruct (po_formula P Cex.bits Cex.uord false 2 Cex.leafs Cex.adj) as [[[[vars nv2] FG] nv3]|] eqn:E; [|vm_compute in E; discriminate].
  assert (PI : po_input P Cex.bits Cex.uord 2 Cex.leafs Cex.adj) by (apply Cex.input; cbn; lia).
  exists P, Cex.bits, Cex.uord, 2, Cex.leafs, Cex.adj, vars, nv2, FG, nv3, Cex.both, [0; 1]%nat, [0; 1]%nat.
  split; [exact PI|]. split; [exact E|]. split; [apply Cex.one|]. split; [|split; [|split; [|split; [|split]]]].
  - split.
    + repeat constructor; cbn; lia.
    + intros l. split.
      * intros [<-|[<-|[]]]; [exists [(Some 1, 0%nat)]|exists [(Some 2, 1%nat)]]; (split; [reflexivity|]); [exists 0%nat; apply Cex.both0|exists 1%nat; apply Cex.both1].
      * intros (lf & G & _). destruct l as [|[|l]]; cbn; auto. destruct l; discriminate.
    + constructor; [|constructor; [constructor|constructor]]. constructor; [|constructor]. intros Q. assert (D := pi_dag _ _ _ _ _ _ PI). apply (D 0%nat). eapply t_trans; [apply Cex.order01|exact Q].
  - constructor; [exists [(Some 1, 0%nat)]; split; [reflexivity|apply Cex.both0]|]. constructor; [exists [(Some 2, 1%nat)]; split; [reflexivity|apply Cex.both1]|constructor].
  - intros a f Ia A (l & G & I). destruct Ia as [<-|[<-|[]]]; cbn in G; injection G as <-; destruct I.
  - cbn [executable]. split; [intros f (l & G & I); injection G as <-; destruct I|]. split; [|exact I]. intros f (l & G & I). injection G as <-. destruct I as [<-|[]]. left. exists [0%nat]. split; [reflexivity|now left].
  - intros f [].
  - intros v' AG S. assert (LM : length vars = 1%nat). { vm_compute in E. apply some_eq in E. apply pair_equal_spec in E as [E _]. apply pair_equal_spec in E as [E _]. apply pair_equal_spec in E as [-> _]. reflexivity. }
    apply po_inv in E as (effs & nv1 & F & G & E1 & E2 & E3 & ->). destruct PI as [WF BO UO NV LO AN WG DG].
    destruct (full_sound P Cex.bits Cex.uord false 2 Cex.leafs Cex.adj effs vars nv1 nv2 nv3 F G WF BO UO NV LO AN E1 E2 E3 v' S) as (PL & _ & ST & S0 & _ & SS).
    assert (O : occurs v' [(Some 2, 1%nat)] 1) by (exists 2; split; [now left|rewrite AG by lia; reflexivity]).
    assert (Q := pl_all _ _ _ _ _ _ PL 1%nat [(Some 2, 1%nat)] eq_refl (ex_intro _ 1%nat O)). destruct (full_pl Cex.leafs vars nv2 v' 1) as [p|] eqn:QP; [|congruence].
    destruct (pl_rng _ _ _ _ _ _ PL 1%nat p QP) as [_ Lp]. change (p < length vars)%nat in Lp. assert (p = 0%nat) by lia. subst p.
    destruct vars as [|acts r]; [discriminate|]. assert (HA := pl_up _ _ _ _ _ _ PL 1%nat _ 0%nat acts 1%nat eq_refl QP eq_refl O).
    assert (A : applicable P (ST 0%nat) 1) by (apply (sr_app _ _ _ _ (SS 0%nat acts eq_refl)); apply in_chosen; exact HA).
    assert (H : ST 0%nat 0%nat) by (apply A; exists [0%nat]; split; [reflexivity|now left]). apply S0 in H; [destruct H|cbn; lia].
Qed.

Module Ex.
  (** Facts 0, 1; action 0 adds fact 0, action 1 needs fact 0 and adds fact 1, action 2 deletes fact 0. The goal is fact 1 without order between the leafs:
      the leafs hold {0}, {1, 2}, {2}. *)
  Definition prob : problem :=
    {| p_nfacts := 2; p_prim := [true; true; true; false]; p_prec := [[]; [0%nat]; [0%nat]]; p_add := [[0%nat]; [1%nat]; []]; p_del := [[]; []; [0%nat]]; p_cost := [1; 1; 1]%nat;
       p_methods := [{| m_task := 3; m_subs := [0; 1; 2]%nat; m_ord := [(0, 2)]%nat |}]; p_init := 3; p_s0 := []; p_goal := [1%nat] |}.
  Definition leafs : list pleaf := [[(Some 1, 0%nat)]; [(Some 2, 1%nat); (None, 2%nat)]; [(Some 3, 2%nat)]].
  Definition adj : list (list nat) := [[2%nat]; []; []].
  Lemma adj_edge x y : edge adj x y -> x = 0%nat /\ y = 2%nat.
  Proof. intros (l & G & I). destruct x as [|[|[|x]]]; cbn in G; try (injection G as <-); [destruct I as [<-|[]]; auto|destruct I|destruct I|destruct x; discriminate]. Qed.
  Lemma adj_prec x y : precedes adj x y -> x = 0%nat /\ y = 2%nat.
  Proof. intros Q. induction Q as [x y Q|]; [now apply adj_edge|lia]. Qed.
  Example input : po_input prob Cex.bits Cex.uord 3 leafs adj.
  Proof.
    split; [|apply Cex.bits_suffice|apply Cex.uord_ok|lia| |reflexivity| |].
    - constructor; cbn; auto.
      + intros x Q. destruct x as [|[|[|[|x]]]]; cbn in Q; try discriminate; try lia. destruct x; discriminate.
      + intros l f H F. repeat (destruct H as [H|H]); try contradiction; repeat (destruct H as [H|H]); subst; cbn in F; try contradiction; lia.
      + intros f [].
      + intros f [<-|[]]. lia.
      + intros me [<-|[]]. assert (LT : forall j k, m_lt {| m_task := 3; m_subs := [0; 1; 2]%nat; m_ord := [(0, 2)]%nat |} j k -> (j < k)%nat).
        { intros j k Q. induction Q as [j k Q|]; [|lia]. destruct Q as [[= <- <-]|[]]; lia. }
        constructor; cbn; auto; try discriminate.
        * intros t [<-|[<-|[<-|[]]]]; lia.
        * intros j k [[= <- <-]|[]]; lia.
        * intros j Q. specialize (LT j j Q). lia.
    - split.
      + intros l x a Hl Hx. cbn in Hl. repeat (destruct Hl as [<-|Hl]; [cbn in Hx; repeat (destruct Hx as [[= <- <-]|Hx]; [cbn; lia|]); destruct Hx|]). destruct Hl.
      + intros l Hl. cbn in Hl. repeat (destruct Hl as [<-|Hl]; [repeat constructor; cbn; lia|]). destruct Hl.
      + intros l x a Hl Hx. cbn in Hl. repeat (destruct Hl as [<-|Hl]; [cbn in Hx; repeat (destruct Hx as [[= <- <-]|Hx]; [lia|]); try discriminate; try (destruct Hx as [Hx|Hx]; [discriminate|]); destruct Hx|]). destruct Hl.
    - intros x y Q. apply adj_edge in Q as [-> ->]. cbn. lia.
    - intros x Q. apply adj_prec in Q as [-> Q]. discriminate.
  Qed.
  Example every_effect : forall lf, In lf leafs -> effect_leaf prob lf.
  Proof.
    intros lf [<-|[<-|[<-|[]]]].
    - exists (Some 1), 0%nat. split; [now left|]. exists 0%nat. left. exists [0%nat]. split; [reflexivity|now left].
    - exists (Some 2), 1%nat. split; [now left|]. exists 1%nat. left. exists [1%nat]. split; [reflexivity|now left].
    - exists (Some 3), 2%nat. split; [now left|]. exists 0%nat. right. exists [0%nat]. split; [reflexivity|now left].
  Qed.
  Definition v : assignment := fun x => (x =? 1) || (x =? 2) || (x =? 3).
  (** Executing the leafs in the order 0, 1, 2 works, so there is a model that chooses all three actions. *)
  Example model : exists vars nv2 FG nv3 v', po_formula prob Cex.bits Cex.uord true 3 leafs adj = Some (vars, nv2, FG, nv3) /\ length vars = 3%nat /\
    (forall x, x <= 3 \/ nv3 < x -> v' x = v x) /\ satisfies v' FG.
  Proof.
    destruct (po_formula prob Cex.bits Cex.uord true 3 leafs adj) as [[[[vars nv2] FG] nv3]|] eqn:E; [|vm_compute in E; discriminate].
    assert (OC : one_chosen v leafs). { intros l a b [<-|[<-|[<-|[]]]] (x & H & _) (y & H' & _); repeat (destruct H as [H|H]); repeat (destruct H' as [H'|H']); try contradiction; congruence. }
    assert (A0 : occurs v [(Some 1, 0%nat)] 0) by (exists 1; split; [now left|reflexivity]).
    assert (A1 : occurs v [(Some 2, 1%nat); (None, 2%nat)] 1) by (exists 2; split; [now left|reflexivity]).
    assert (A2 : occurs v [(Some 3, 2%nat)] 2) by (exists 3; split; [now left|reflexivity]).
    destruct (po_formula_complete prob Cex.bits Cex.uord true 3 leafs adj vars nv2 FG nv3 v [0; 1; 2]%nat [0; 1; 2]%nat input E OC) as (v' & AG & S).
    - split.
      + repeat constructor; cbn; lia.
      + intros l. split.
        * intros [<-|[<-|[<-|[]]]]; eexists; (split; [reflexivity|]); eexists; eauto.
        * intros (lf & G & _). destruct l as [|[|[|l]]]; cbn; auto. destruct l; discriminate.
      + repeat constructor; intros Q; apply adj_prec in Q; lia.
    - repeat apply Forall2_cons; try apply Forall2_nil; eexists; (split; [reflexivity|assumption]).
    - right. right. right. exists [0; 1]%nat, 2%nat, [(Some 3, 2%nat)]. split; auto. split; auto. apply every_effect. cbn. auto.
    - intros a f Ia (l & G & I) (l' & G' & I'). destruct Ia as [<-|[<-|[<-|[]]]]; cbn in G, G'; injection G as <-; injection G' as <-; cbn in *; lia.
    - assert (D : forall a f, dels prob a f -> a = 2%nat). { intros a f (l & G & I). destruct a as [|[|[|a]]]; cbn in G; auto; try (injection G as <-; destruct I). destruct a; discriminate. }
      assert (K : after prob (initial_state prob) [0]%nat 0%nat) by (left; exists [0%nat]; split; [reflexivity|now left]).
      split; [intros f (l & G & I); injection G as <-; destruct I|]. split; [intros f (l & G & I); injection G as <-; destruct I as [<-|[]]; exact K|].
      split; [|exact I]. intros f (l & G & I). injection G as <-. destruct I as [<-|[]]. right. split; [exact K|]. intros Q. apply D in Q. discriminate.
    - intros f [<-|[]]. right. split; [left; exists [1%nat]; split; [reflexivity|now left]|]. intros (l & G & I). cbn in G. injection G as <-. destruct I as [I|[]]. discriminate.
    - exists vars, nv2, FG, nv3, v'. split; auto. split; [|auto].
      vm_compute in E. apply some_eq in E. apply pair_equal_spec in E as [E _]. apply pair_equal_spec in E as [E _]. apply pair_equal_spec in E as [-> _]. reflexivity.
  Qed.
  (** Whatever model the solver finds for these choices, the printed order is executable. *)
  Example printed_works : forall vars nv2 FG nv3 w plan, po_formula prob Cex.bits Cex.uord true 3 leafs adj = Some (vars, nv2, FG, nv3) -> one_chosen w leafs -> satisfies w FG ->
    plan_of w leafs (printed leafs vars nv2 w) plan -> executable prob (initial_state prob) plan.
  Proof. intros vars nv2 FG nv3 w plan E OC S PO. apply (proj2 (po_printed_sound prob Cex.bits Cex.uord true 3 leafs adj vars nv2 FG nv3 w plan input E (fun lf I _ => every_effect lf I) OC S) PO). Qed.
End Ex.

Print Assumptions matching_exact.
Print Assumptions po_formula_defined.
Print Assumptions po_formula_sound.
Print Assumptions po_printed_sound.
Print Assumptions po_formula_complete.
Print Assumptions po_formula_exact.
Print Assumptions po_shared_position_refuted.
Print Assumptions po_no_position_left_refuted.
