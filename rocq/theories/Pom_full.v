(** The whole formula for partially ordered leafs: models are placements of executable plans and conversely. *)
From Coq Require Import ZArith Lia Relation_Operators Operators_Properties.
From Verif Require Import Base Htn_problem Htn_spec Sat_model Sat_spec Sat_proof Sf_model Sf_spec Sf_proof Posog_model Posog_spec Posog_order Pom_model Pom_spec Pom_proof Pom_lin.

Local Open Scope Z_scope.

Lemma wf_la P : wf_problem P -> length (p_add P) = length (p_cost P).
Proof. intros W. apply (wf_add P W). Qed.
Lemma wf_ld P : wf_problem P -> length (p_del P) = length (p_cost P).
Proof. intros W. apply (wf_del P W). Qed.

Lemma po_inv P bits uord sep nv leafs adj vars nv2 FG nv3 : po_formula P bits uord sep nv leafs adj = Some (vars, nv2, FG, nv3) ->
  exists effs nv1 F G, partial_atoms P uord sep nv leafs = Some (effs, vars, nv1) /\ state_formula P nv1 vars (unit_blocks vars) = Some (F, nv2) /\
    matching_formula P bits leafs effs adj vars nv2 = Some (G, nv3) /\ FG = F ++ G.
Proof.
  intros E. unfold po_formula in E. apply obind_some in E as ([[effs vs] nv1] & E1 & E). apply obind_some in E as ([F n2] & E2 & E). apply obind_some in E as ([G n3] & E3 & E).
  apply some_eq in E. apply pair_equal_spec in E as [E ->]. apply pair_equal_spec in E as [E ->]. apply pair_equal_spec in E as [-> ->]. exists effs, nv1, F, G. auto.
Qed.

Lemma unit_nth (vars : list leaf) k b : nth_error (unit_blocks vars) k = Some b <-> b = [k] /\ (k < length vars)%nat.
Proof.
  unfold unit_blocks. rewrite nth_error_map. split.
  - destruct (nth_error (seq 0 (length vars)) k) as [t|] eqn:E; [|discriminate]. assert (L : (k < length (seq 0 (length vars)))%nat) by (apply nth_error_Some; congruence). rewrite seq_length in L.
    rewrite seq_nth_error in E by auto. cbn in *. intros Q. split; [congruence|auto].
  - intros [-> L]. rewrite seq_nth_error by auto. reflexivity.
Qed.
Lemma unit_chosen (vars : list leaf) v k acts : nth_error vars k = Some acts -> bchosen vars v [k] = chosen_at v acts.
Proof. intros G. unfold bchosen, bleafs. cbn. rewrite (nth_error_nth vars k [] G). unfold chosen. cbn. apply app_nil_r. Qed.

(** ** The input and its formula *)
Section Full.
Variables (P : problem) (bits : nat -> nat) (uord : list nat -> list nat) (sep : bool) (nv : Z) (leafs : list pleaf) (adj : list (list nat)).
Variables (effs : list bool) (vars : list leaf) (nv1 nv2 nv3 : Z) (F G : list clause).
Hypothesis WF : wf_problem P.
Hypothesis BO : bits_ok bits.
Hypothesis UO : set_order uord.
Hypothesis NV : 0 <= nv.
Hypothesis LO : leafs_ok P nv leafs.
Hypothesis AN : length adj = length leafs.
Hypothesis E1 : partial_atoms P uord sep nv leafs = Some (effs, vars, nv1).
Hypothesis E2 : state_formula P nv1 vars (unit_blocks vars) = Some (F, nv2).
Hypothesis E3 : matching_formula P bits leafs effs adj vars nv2 = Some (G, nv3).
Notation m := (length vars).

Lemma full_atoms : nv <= nv1 /\ length effs = length leafs /\
  (forall l lf, nth_error leafs l = Some lf -> (nth l effs false = true <-> effect_leaf P lf)) /\
  m = Nat.max 1 (length (filter (fun b => b) effs)) /\
  (forall acts, In acts vars -> NoDup (map snd acts)) /\
  (forall acts a, In acts vars -> (In a (map snd acts) <-> exists l x, In l leafs /\ In (x, a) l)) /\
  (forall acts x a, In acts vars -> In (x, a) acts -> nv + 1 <= x <= nv1) /\
  (forall p q acts acts' x a b, nth_error vars p = Some acts -> nth_error vars q = Some acts' -> In (x, a) acts -> In (x, b) acts' -> p = q /\ a = b).
Proof. exact (atoms_ok P uord (wf_la P WF) (wf_ld P WF) UO sep nv leafs effs vars nv1 NV (lo_acts _ _ _ LO) E1). Qed.

Lemma full_nv1 : 0 <= nv1 /\ nv <= nv1.
Proof. destruct full_atoms as (H & _). lia. Qed.
Lemma full_xp : forall l x, In l vars -> In x l -> 1 <= fst x <= nv1.
Proof. destruct full_atoms as (_ & _ & _ & _ & _ & _ & H & _). intros l [x a] Hl Hx. specialize (H l x a Hl Hx). cbn. lia. Qed.
Lemma full_ef : forall l lf, nth_error leafs l = Some lf -> (nth l effs false = true <-> effect_leaf P lf).
Proof. apply full_atoms. Qed.
Lemma full_fvars : nv1 <= nv2 /\ vars_le nv2 F.
Proof. exact (formula_vars P WF nv1 vars (proj1 full_nv1) full_xp _ _ _ E2). Qed.
Lemma full_lo : leafs_ok P nv2 leafs.
Proof. destruct full_fvars as [L _]. assert (L1 := full_nv1). destruct LO as [A B C]. split; auto. intros l x a Hl Hx. specialize (C l x a Hl Hx). lia. Qed.
Lemma full_vn : forall acts, In acts vars -> NoDup (map snd acts).
Proof. apply full_atoms. Qed.
Lemma full_vr : forall acts x a, In acts vars -> In (x, a) acts -> 1 <= x <= nv2 /\ (a < length (p_cost P))%nat.
Proof.
  intros acts x a Ha Hx. assert (Q := full_xp acts (x, a) Ha Hx). cbn in Q. destruct full_fvars as [L _]. split; [lia|].
  destruct full_atoms as (_ & _ & _ & _ & _ & H & _). destruct (proj1 (H acts a Ha)) as (l & y & Hl & Hy); [apply in_map_iff; exists (x, a); auto|]. exact (lo_acts _ _ _ LO l y a Hl Hy).
Qed.
Lemma full_unit_len : length (unit_blocks vars) = m.
Proof. unfold unit_blocks. now rewrite map_length, seq_length. Qed.

(** A model consists of a placement and the states of the plan. *)
Definition full_pl (v : assignment) : nat -> option nat := read_pl leafs vars nv2 v.
Lemma full_sound v : satisfies v (F ++ G) ->
  placement P v leafs adj vars (full_pl v) /\ (forall l p, full_pl v l = Some p <-> (l < length leafs)%nat /\ (p < m)%nat /\ v (grid_var vars nv2 l p) = true) /\
  exists ST, same P (ST 0%nat) (initial_state P) /\ goal_state P (ST m) /\ forall p acts, nth_error vars p = Some acts -> step_rel P (ST p) (ST (S p)) (chosen_at v acts).
Proof.
  intros S. apply sat_app in S as [SF SG].
  assert (N2 : 0 <= nv2) by (destruct full_fvars; assert (Q := full_nv1); lia).
  destruct (matching_sound P bits BO leafs effs adj vars nv2 N2 (wf_la P WF) (wf_ld P WF) full_lo full_ef full_vn full_vr AN G nv3 v E3 SG) as [PL RP].
  split; [exact PL|]. split; [exact RP|].
  destruct (formula_sat P nv1 vars (proj1 full_nv1) full_xp v _ _ _ E2) as (_ & _ & Q). apply Q in SF as (S0 & SGo & SS).
  exists (fun p => rd v (sf_base P nv1 p)). rewrite full_unit_len in SGo. split; [exact S0|]. split; [exact SGo|].
  intros p acts Gp. assert (L : (p < m)%nat) by (eapply nth_lt; eauto). rewrite <- (unit_chosen vars v p acts Gp). apply SS. apply unit_nth. auto.
Qed.

(** Any list of the active leafs that respects the positions is an executable plan. *)
Lemma full_exec v ls plan : satisfies v (F ++ G) -> one_chosen v leafs -> (forall l, In l ls <-> exists lf, nth_error leafs l = Some lf /\ active v lf) ->
  ForallOrdPairs (in_place P leafs (full_pl v)) ls -> plan_of v leafs ls plan ->
  executable P (initial_state P) plan /\ goal_state P (after P (initial_state P) plan).
Proof.
  intros S OC AC FO PO. destruct (full_sound v S) as (PL & _ & ST & S0 & SG & SS).
  destruct (exec_sorted P WF leafs adj vars v (full_pl v) PL OC ST SS effs full_ef ls plan PO) with (t := 0%nat) (s := initial_state P) as [EX AF]; auto.
  - intros l Hl. now apply AC.
  - lia.
  - now apply same_sym.
  - intros; lia.
  - intros l p (lf & Gl & A & _) _ _. apply AC. eauto.
  - split; auto. intros f Hf. apply AF; [now apply (wf_goal P WF)|]. now apply SG.
Qed.

Lemma plan_exists v ls : (forall l, In l ls -> exists lf, nth_error leafs l = Some lf /\ active v lf) -> exists plan, plan_of v leafs ls plan.
Proof.
  induction ls as [|l ls IH]; intros H; [exists []; constructor|]. destruct IH as (plan & Q); [intros k Hk; apply H; now right|].
  destruct (H l (or_introl eq_refl)) as (lf & Gl & a & O). exists (a :: plan). constructor; eauto.
Qed.

Lemma full_linear v : satisfies v (F ++ G) -> one_chosen v leafs -> wf_graph adj -> dag adj -> effects_last P leafs adj ->
  exists ls plan, linearises v leafs adj ls /\ plan_of v leafs ls plan /\ executable P (initial_state P) plan /\ goal_state P (after P (initial_state P) plan).
Proof.
  intros S OC WG DG EL. destruct (full_sound v S) as (PL & _ & _). destruct (precedes_dec adj WG DG) as (pb & PB).
  destruct (sorted_linear P leafs adj vars v (full_pl v) PL effs full_ef pb PB DG EL) as [LI IP]. set (ls := sorted_leafs leafs vars v (full_pl v) effs pb) in *.
  destruct (plan_exists v ls) as (plan & PO); [intros l Hl; now apply (li_act _ _ _ _ LI)|]. exists ls, plan. split; auto. split; auto.
  apply (full_exec v ls plan); auto. apply (li_act _ _ _ _ LI).
Qed.

(** *** The printed plan *)
Lemma output_last (v : assignment) (l : list (option Z * nat)) : forall o, fold_left (fun (o : option nat) (x : option Z * nat) => match fst x with Some y => if (v y : bool) then Some (snd x) else o | None => o end) l o = match output_task v l with Some a => Some a | None => o end.
Proof.
  unfold output_task. induction l as [|[x a] l IH]; intros o; auto. cbn [fold_left fst snd]. rewrite IH, (IH (match x with Some y => if v y then Some a else None | None => None end)).
  destruct (fold_left _ l None); auto. destruct x as [y|]; auto. destruct (v y); auto.
Qed.
Lemma output_some v l a : output_task v l = Some a -> occurs v l a.
Proof.
  induction l as [|[x b] l IH]; [discriminate|]. unfold output_task. cbn [fold_left fst snd]. rewrite output_last. destruct (output_task v l) as [c|] eqn:Q.
  - intros E. destruct (IH E) as (y & Iy & Vy). exists y. split; [now right|auto].
  - destruct x as [y|]; [|discriminate]. destruct (v y) eqn:Vy; [|discriminate]. intros E. injection E as ->. exists y. split; [now left|auto].
Qed.
Lemma output_none v l : output_task v l = None -> ~ active v l.
Proof.
  induction l as [|[x b] l IH]; intros E (a & y & I & V); [destruct I|]. unfold output_task in E. cbn [fold_left fst snd] in E. rewrite output_last in E. destruct (output_task v l) as [c|] eqn:Q; [discriminate|].
  destruct I as [I|I]; [injection I as -> ->; rewrite V in E; discriminate|]. apply IH; auto. exists a, y. auto.
Qed.
Lemma output_iff v lf a : In lf leafs -> one_chosen v leafs -> (output_task v lf = Some a <-> occurs v lf a).
Proof.
  intros I OC. split; [apply output_some|]. intros O. destruct (output_task v lf) as [b|] eqn:Q.
  - f_equal. apply (OC lf b a I); auto. now apply output_some.
  - destruct (output_none v lf Q). exists a. auto.
Qed.

Definition print_at (v : assignment) (p : nat) (y : Z * nat) : list nat :=
  if v (fst y) then
    map fst (filter (fun z : nat * pleaf => v (grid_var vars nv2 (fst z) p) && match output_task v (snd z) with Some a => Nat.eqb a (snd y) | None => false end) (combine (seq 0 (length leafs)) leafs))
  else [].
Lemma in_print_at v p y l : (p < m)%nat -> (forall l q, full_pl v l = Some q <-> (l < length leafs)%nat /\ (q < m)%nat /\ v (grid_var vars nv2 l q) = true) ->
  In l (print_at v p y) <-> v (fst y) = true /\ full_pl v l = Some p /\ exists lf, nth_error leafs l = Some lf /\ output_task v lf = Some (snd y).
Proof.
  intros Lp RP. unfold print_at. destruct (v (fst y)); [|split; [intros []|intros [Q _]; discriminate]]. rewrite in_map_iff. split.
  - intros ([k lf] & <- & I). apply filter_In in I as [I Q]. cbn [fst snd] in *. apply in_enum in I. apply andb_true_iff in Q as [Q1 Q2]. split; auto. split.
    + apply RP. split; [eapply nth_lt; eauto|]. auto.
    + exists lf. split; auto. destruct (output_task v lf) as [a|]; [|discriminate]. apply Nat.eqb_eq in Q2. now subst.
  - intros (_ & Q & lf & Gl & O). exists (l, lf). split; auto. apply filter_In. split; [now apply in_enum|]. cbn [fst snd]. rewrite O, Nat.eqb_refl, andb_true_r. now apply RP in Q.
Qed.
Lemma print_nodup v p y : NoDup (print_at v p y).
Proof.
  unfold print_at. destruct (v (fst y)); [|constructor]. apply nodup_map_inj.
  - intros [a la] [b lb] Ia Ib E. apply filter_In in Ia as [Ia _], Ib as [Ib _]. apply in_enum in Ia, Ib. cbn in E. subst b. congruence.
  - apply NoDup_filter. assert (Q : NoDup (map fst (combine (seq 0 (length leafs)) leafs))); [|now apply NoDup_map_inv in Q].
    assert (R : forall (l : list pleaf) b, map fst (combine (seq b (length l)) l) = seq b (length l)) by (induction l as [|x l IH]; intros b; cbn; auto; now rewrite IH). rewrite R. apply seq_NoDup.
Qed.
Lemma printed_eq v : printed leafs vars nv2 v = flat_map (fun x : nat * leaf => flat_map (print_at v (fst x)) (snd x)) (combine (seq 0 m) vars).
Proof. reflexivity. Qed.

Lemma full_printed v : satisfies v (F ++ G) -> one_chosen v leafs -> all_effects P leafs ->
  linearises v leafs adj (printed leafs vars nv2 v) /\ ForallOrdPairs (in_place P leafs (full_pl v)) (printed leafs vars nv2 v).
Proof.
  intros S OC AE. destruct (full_sound v S) as (PL & RP & _). rewrite printed_eq.
  assert (EN : forall p acts, In (p, acts) (combine (seq 0 m) vars) -> nth_error vars p = Some acts /\ (p < m)%nat). { intros p acts I. apply in_enum in I. split; auto. eapply nth_lt; eauto. }
  assert (ONE : forall l k p, (forall lf, nth_error leafs l = Some lf -> lf <> []) -> (forall kf, nth_error leafs k = Some kf -> kf <> []) -> full_pl v l = Some p -> full_pl v k = Some p -> l = k).
  { intros l k p Nl Nk Q R. destruct (pl_rng _ _ _ _ _ _ PL l p Q) as [Ll _], (pl_rng _ _ _ _ _ _ PL k p R) as [Lk _].
    destruct (nth_error leafs l) as [lf|] eqn:Gl; [|apply nth_error_None in Gl; lia]. destruct (nth_error leafs k) as [kf|] eqn:Gk; [|apply nth_error_None in Gk; lia].
    exact (pl_one _ _ _ _ _ _ PL l k lf kf p Gl Gk (AE lf (nth_error_In _ _ Gl) (Nl lf eq_refl)) (AE kf (nth_error_In _ _ Gk) (Nk kf eq_refl)) Q R). }
  assert (AT : forall p acts l, In (p, acts) (combine (seq 0 m) vars) -> In l (flat_map (print_at v p) acts) -> full_pl v l = Some p).
  { intros p acts l I H. destruct (EN p acts I) as [Gp Lp]. apply in_flat_map in H as (y & Iy & H). apply (in_print_at v p y l Lp RP) in H. apply H. }
  assert (NZ : forall p acts l, In (p, acts) (combine (seq 0 m) vars) -> In l (flat_map (print_at v p) acts) -> forall lf, nth_error leafs l = Some lf -> lf <> []).
  { intros p acts l I H lf Gl ->. destruct (EN p acts I) as [Gp Lp]. apply in_flat_map in H as (y & Iy & H). apply (in_print_at v p y l Lp RP) in H as (_ & _ & lf' & Gl' & O). rewrite Gl in Gl'. injection Gl' as <-. discriminate. }
  assert (ND : NoDup (combine (seq 0 m) vars)).
  { assert (Q : NoDup (map fst (combine (seq 0 m) vars))); [|now apply NoDup_map_inv in Q].
    assert (R : forall (l : list leaf) b, map fst (combine (seq b (length l)) l) = seq b (length l)) by (induction l as [|x l IH]; intros b; cbn; auto; now rewrite IH). rewrite R. apply seq_NoDup. }
  assert (IN : forall p acts, In (p, acts) (combine (seq 0 m) vars) -> NoDup (flat_map (print_at v p) acts)).
  { intros p acts I. destruct (EN p acts I) as [Gp Lp]. assert (VN := full_vn acts (nth_error_In _ _ Gp)). apply nodup_flat_map.
    - now apply NoDup_map_inv in VN.
    - intros y _. apply print_nodup.
    - intros y z l Iy Iz H H'. apply (in_print_at v p y l Lp RP) in H as (_ & _ & lf & Gl & O). apply (in_print_at v p z l Lp RP) in H' as (_ & _ & lf' & Gl' & O').
      assert (lf' = lf) by congruence. subst lf'. destruct y as [y a], z as [z b]. cbn [snd] in *. assert (a = b) by congruence. subst b. f_equal. eapply nodup_snd; eauto. }
  assert (SO : ForallOrdPairs (fun x y : nat * leaf => (fst x < fst y)%nat) (combine (seq 0 m) vars)).
  { assert (R : forall (l : list leaf) b, ForallOrdPairs (fun x y : nat * leaf => (fst x < fst y)%nat) (combine (seq b (length l)) l)); [|apply R].
    induction l as [|x l IH]; intros b; cbn; constructor; auto. apply Forall_forall. intros [i y] Hy. cbn. apply in_combine_l in Hy. apply in_seq in Hy. lia. }
  assert (IP : ForallOrdPairs (fun l k => exists p q, full_pl v l = Some p /\ full_pl v k = Some q /\ (p < q)%nat) (flat_map (fun x : nat * leaf => flat_map (print_at v (fst x)) (snd x)) (combine (seq 0 m) vars))).
  { apply fop_flat_map.
    - eapply fop_impl; [|exact SO]. intros [p acts] [q acts'] I J L a b Ha Hb. cbn [fst snd] in *. exists p, q. split; [eapply AT; eauto|]. split; [eapply AT; eauto|auto].
    - intros [p acts] I. cbn [fst snd]. apply fop_short. assert (N := IN p acts I). assert (A := AT p acts). assert (B := NZ p acts). destruct (flat_map (print_at v p) acts) as [|a [|b r]]; cbn; try lia.
      assert (a = b) by (apply (ONE a b p); [apply B; auto; now left|apply B; auto; right; now left|apply A; auto; now left|apply A; auto; right; now left]). subst b. inversion N as [|? ? N1 _]. destruct N1. now left. }
  split; [split|].
  - apply nodup_flat_map; auto.
    + intros [p acts] I. apply (IN p acts I).
    + intros [p acts] [q acts'] l I J H H'. cbn [fst snd] in *. assert (Q := AT p acts l I H). assert (R := AT q acts' l J H'). assert (p = q) by congruence. subst q.
      apply EN in I as [I _], J as [J _]. congruence.
  - intros l. rewrite in_flat_map. split.
    + intros ([p acts] & I & H). cbn [fst snd] in H. destruct (EN p acts I) as [Gp Lp]. apply in_flat_map in H as (y & Iy & H). apply (in_print_at v p y l Lp RP) in H as (_ & _ & lf & Gl & O).
      exists lf. split; auto. exists (snd y). now apply output_some.
    + intros (lf & Gl & A). assert (Q := pl_all _ _ _ _ _ _ PL l lf Gl A). destruct (full_pl v l) as [p|] eqn:QP; [|congruence]. destruct (pl_rng _ _ _ _ _ _ PL l p QP) as [_ Lp]. change (p < m)%nat in Lp.
      destruct (nth_error vars p) as [acts|] eqn:Gp; [|apply nth_error_None in Gp; lia]. exists (p, acts). split; [now apply in_enum|]. cbn [fst snd]. destruct A as (a & O).
      destruct (pl_up _ _ _ _ _ _ PL l lf p acts a Gl QP Gp O) as (x & Ix & Vx). apply in_flat_map. exists (x, a). split; auto. apply (in_print_at v p (x, a) l Lp RP). cbn [fst snd].
      split; auto. split; auto. exists lf. split; auto. apply output_iff; auto. eapply nth_error_In; eauto.
  - eapply fop_impl; [|exact IP]. intros a b _ _ (p & q & Q & R & L) PR. assert (Z := pl_ord _ _ _ _ _ _ PL b a q p PR R Q). lia.
  - eapply fop_impl; [|exact IP]. intros a b _ _ (p & q & Q & R & L). exists p, q. auto.
Qed.

(** ** Completeness *)
Lemma step_rel_in s t as_ bs : (forall a, In a as_ <-> In a bs) -> step_rel P s t as_ -> step_rel P s t bs.
Proof.
  intros H [A B C D E]. split.
  - intros a Ha. apply A. now apply H.
  - intros a f Ha. apply B. now apply H.
  - intros a f Ha. apply C. now apply H.
  - intros f Lf Hf. destruct (D f Lf Hf) as [Q|(a & Ia & Q)]; auto. right. exists a. split; auto. now apply H.
  - intros f Lf Hf. destruct (E f Lf Hf) as [Q|(a & Ia & Q)]; auto. right. exists a. split; auto. now apply H.
Qed.

(** The state variables can be filled in from the plans [Q p] leading to the positions. *)
Lemma formula_fill v (Q : nat -> list nat) : Q 0%nat = [] -> goal_state P (after P (initial_state P) (Q m)) ->
  (forall p acts, nth_error vars p = Some acts -> step_rel P (after P (initial_state P) (Q p)) (after P (initial_state P) (Q (S p))) (chosen_at v acts)) ->
  exists v', (forall x, x <= nv1 \/ nv2 < x -> v' x = v x) /\ satisfies v' F.
Proof.
  intros Q0 QG QS. destruct (formula_sat P nv1 vars (proj1 full_nv1) full_xp v _ _ _ E2) as (EN & _ & _). rewrite full_unit_len in EN.
  set (N := Z.of_nat (Nat.max 1 (p_nfacts P))).
  set (s0 := fun f => memb f (p_s0 P)).
  set (v' := fun x => if (nv1 <? x) && (x <=? nv2) then aftb P s0 (Q (Z.to_nat ((x - nv1 - 1) / N))) (Z.to_nat ((x - nv1 - 1) mod N)) else v x).
  assert (AG : forall x, x <= nv1 \/ nv2 < x -> v' x = v x). { intros x Hx. unfold v'. destruct (Z.ltb_spec nv1 x), (Z.leb_spec x nv2); cbn; auto; lia. }
  assert (RD : forall k, (k <= m)%nat -> same P (rd v' (sf_base P nv1 k)) (after P (initial_state P) (Q k))).
  { intros k Hk f Lf. unfold rd, v'. assert (B := sf_base_pos P nv1 k). assert (M := base_mono P nv1 (S k) (S m) ltac:(lia)). rewrite base_S' in M.
    destruct (Z.ltb_spec nv1 (sf_base P nv1 k + Z.of_nat f)), (Z.leb_spec (sf_base P nv1 k + Z.of_nat f) nv2); cbn [andb]; try lia.
    assert (EQ : sf_base P nv1 k + Z.of_nat f - nv1 - 1 = Z.of_nat k * N + Z.of_nat f) by (unfold sf_base, N; lia). rewrite EQ.
    rewrite Z.div_add_l by lia. rewrite Z.div_small by lia. rewrite Z.add_0_r, Nat2Z.id. rewrite Z.add_comm, Z.mod_add by lia. rewrite Z.mod_small by lia. rewrite Nat2Z.id.
    apply aftb_spec. intros g. unfold s0, initial_state. apply memb_In. }
  exists v'. split; auto. apply (formula_sat P nv1 vars (proj1 full_nv1) full_xp v' _ _ _ E2). rewrite full_unit_len. split; [|split].
  - assert (R := RD 0%nat ltac:(lia)). rewrite Q0 in R. exact R.
  - intros f Hf. apply (RD m (le_n _) f); [now apply (wf_goal P WF)|]. now apply QG.
  - intros k b Hk. apply unit_nth in Hk as [-> Lk]. destruct (nth_error vars k) as [acts|] eqn:Gk; [|apply nth_error_None in Gk; lia]. rewrite (unit_chosen vars v' k acts Gk).
    rewrite (chosen_at_agree v' v acts); [|intros x Hx; apply AG; left; apply (full_xp acts x (nth_error_In _ _ Gk) Hx)].
    apply (step_rel_same P WF (after P (initial_state P) (Q k)) (after P (initial_state P) (Q (S k)))); [apply same_sym; apply RD; lia|apply same_sym; apply RD; lia|]. now apply QS.
Qed.

(** *** Placing a linearisation: a leaf goes to the position given by the number of leafs with effects before it *)
Notation eb l := (nth l effs false).
Fixpoint place_from (c : nat) (ls : list nat) : list (nat * nat) :=
  match ls with [] => [] | l :: r => (l, c) :: place_from (if eb l then S c else c) r end.
Definition cnt (ls : list nat) : nat := length (filter (fun l => eb l) ls).
Lemma place_fst ls : forall c, map fst (place_from c ls) = ls.
Proof. induction ls as [|l r IH]; intros c; cbn; auto. now rewrite IH. Qed.
Lemma place_in ls : forall c l p, In (l, p) (place_from c ls) -> exists pre post, ls = pre ++ l :: post /\ p = (c + cnt pre)%nat.
Proof.
  induction ls as [|k r IH]; intros c l p; cbn; [intros []|]. intros [E|I].
  - injection E as -> ->. exists [], r. split; [reflexivity|cbn; lia].
  - destruct (IH _ _ _ I) as (pre & post & -> & ->). exists (k :: pre), post. split; auto. unfold cnt. cbn. destruct (eb k); cbn; lia.
Qed.
Lemma place_ge ls c l p : In (l, p) (place_from c ls) -> (c <= p)%nat.
Proof. intros I. apply place_in in I as (pre & post & _ & ->). lia. Qed.
Lemma place_sorted ls : forall c, ForallOrdPairs (fun x y : nat * nat => (snd x <= snd y)%nat /\ (eb (fst x) = true -> (snd x < snd y)%nat)) (place_from c ls).
Proof.
  induction ls as [|k r IH]; intros c; cbn; constructor; auto. apply Forall_forall. intros [l p] I. apply place_ge in I. cbn. destruct (eb k); split; intros; try lia; discriminate.
Qed.

Lemma sorted_filter {A} (key : A -> nat) (l : list A) p : ForallOrdPairs (fun x y => (key x <= key y)%nat) l ->
  filter (fun x => Nat.ltb (key x) (S p)) l = filter (fun x => Nat.ltb (key x) p) l ++ filter (fun x => Nat.eqb (key x) p) l.
Proof.
  induction 1 as [|x l FA FO IH]; cbn [filter app]; auto. rewrite Forall_forall in FA. destruct (Nat.ltb_spec (key x) (S p)), (Nat.ltb_spec (key x) p), (Nat.eqb_spec (key x) p); try lia; cbn [app].
  - now rewrite IH.
  - rewrite IH. assert (Z : filter (fun x => Nat.ltb (key x) p) l = []); [|now rewrite Z].
    clear - FA e. induction l as [|y l IH]; cbn [filter]; auto. assert (Q := FA y (or_introl eq_refl)). destruct (Nat.ltb_spec (key y) p); [lia|]. apply IH. intros z Hz. apply FA. now right.
  - exact IH.
Qed.
Lemma sorted_prefix {A} (key : A -> nat) (l : list A) p : ForallOrdPairs (fun x y => (key x <= key y)%nat) l ->
  l = filter (fun x => Nat.ltb (key x) p) l ++ filter (fun x => negb (Nat.ltb (key x) p)) l.
Proof.
  induction 1 as [|x l FA FO IH]; cbn [filter app]; auto. rewrite Forall_forall in FA. destruct (Nat.ltb_spec (key x) p); cbn [negb app]; [now f_equal|].
  assert (Z : filter (fun x => Nat.ltb (key x) p) l = []).
  { clear - FA H. induction l as [|y l IH]; cbn [filter]; auto. assert (Q := FA y (or_introl eq_refl)). destruct (Nat.ltb_spec (key y) p); [lia|]. apply IH. intros z Hz. apply FA. now right. }
  rewrite Z in *. cbn [app] in *. now f_equal.
Qed.
Lemma fop_map {A B} (f : A -> B) (R : B -> B -> Prop) l : ForallOrdPairs (fun x y => R (f x) (f y)) l -> ForallOrdPairs R (map f l).
Proof. induction 1 as [|x l FA FO IH]; cbn; constructor; auto. apply Forall_map. exact FA. Qed.
Lemma fop_filter {A} (R : A -> A -> Prop) g l : ForallOrdPairs R l -> ForallOrdPairs R (filter g l).
Proof. induction 1 as [|x l FA FO IH]; cbn; [constructor|]. destruct (g x); auto. constructor; auto. rewrite Forall_forall in *. intros y Hy. apply filter_In in Hy as [Hy _]. auto. Qed.

Lemma cnt_perm : length (filter (fun b => b) effs) = cnt (seq 0 (length leafs)).
Proof.
  assert (LE : length effs = length leafs) by apply full_atoms. rewrite <- LE. unfold cnt. clear. 
  assert (R : forall (l pre : list bool), length (filter (fun b => b) l) = length (filter (fun i => nth i (pre ++ l) false) (seq (length pre) (length l)))); [|apply (R effs [])].
  induction l as [|b l IH]; intros pre; cbn; auto. rewrite app_nth2, Nat.sub_diag by lia. cbn [nth]. specialize (IH (pre ++ [b])). rewrite <- app_assoc, app_length in IH. cbn in IH.
  rewrite Nat.add_1_r in IH. destruct b; cbn; lia.
Qed.
Lemma cnt_incl ls ks : NoDup ls -> (forall l, In l ls -> eb l = true -> In l ks) -> (cnt ls <= cnt ks)%nat.
Proof.
  intros N I. unfold cnt. apply NoDup_incl_length; [now apply NoDup_filter|]. intros l Hl. apply filter_In in Hl as [Hl E]. apply filter_In. auto.
Qed.

Lemma room_bound v ls : linearises v leafs adj ls -> room P v leafs ls -> forall pre l post, ls = pre ++ l :: post -> (cnt pre < m)%nat.
Proof.
  intros [ND AC _] RM pre l post E. assert (LM : m = Nat.max 1 (length (filter (fun b => b) effs))) by apply full_atoms. rewrite cnt_perm in LM.
  assert (IL : forall k, In k ls -> (k < length leafs)%nat). { intros k Hk. apply AC in Hk as (lf & Gk & _). eapply nth_lt; eauto. }
  assert (NP : NoDup (pre ++ l :: post)) by now rewrite <- E.
  assert (Npre : NoDup pre) by (apply nodup_app_iff in NP; apply NP).
  assert (Ipre : forall k, In k pre -> In k ls) by (intros k Hk; rewrite E; apply in_or_app; now left).
  assert (ADD : forall k, ~ In k pre -> (k < length leafs)%nat -> eb k = true -> (cnt pre < m)%nat).
  { intros k Nk Lk Ek. assert (Q : (cnt (k :: pre) <= cnt (seq 0 (length leafs)))%nat).
    - apply cnt_incl; [now constructor|]. intros x [<-|Hx] _; apply in_seq; [lia|]. specialize (IL x (Ipre x Hx)). lia.
    - unfold cnt at 1 in Q. cbn [filter] in Q. rewrite Ek in Q. cbn [length] in Q. fold (cnt pre) in Q. lia. }
  destruct RM as [NE|[(lf & Il & HE & NA)|[->|(pre' & l' & lf & E' & Gl & HE)]]].
  - assert (Z : cnt pre = 0%nat); [|lia]. unfold cnt. destruct (filter (fun l0 => eb l0) pre) as [|k r] eqn:Q; auto. assert (I : In k (filter (fun l0 => eb l0) pre)) by (rewrite Q; now left).
    apply filter_In in I as [I EK]. specialize (Ipre k I). apply AC in Ipre as (kf & Gk & _). apply (full_ef k kf Gk) in EK. destruct (NE kf); auto. eapply nth_error_In; eauto.
  - apply In_nth_error in Il as (k & Gk). apply (ADD k); [|eapply nth_lt; eauto|now apply (full_ef k lf Gk)]. intros I. apply Ipre, AC in I as (kf & Gk' & A). assert (kf = lf) by congruence. now subst.
  - destruct pre; discriminate.
  - apply (ADD l'); [|eapply nth_lt; eauto|now apply (full_ef l' lf Gl)]. intros I. apply in_split in I as (x & y & ->). rewrite E in E'.
    assert (Q : NoDup ((x ++ l' :: y) ++ l :: post)) by exact NP. apply nodup_app_iff in Q as (_ & _ & Q). apply (Q l'); [apply in_or_app; right; now left|].
    assert (R : last ((x ++ l' :: y) ++ l :: post) 0%nat = l') by (rewrite E'; apply last_last). rewrite <- R. clear. 
    assert (H : forall (a : list nat) b c, In (last (a ++ b :: c) 0%nat) (b :: c)); [|apply H].
    induction a as [|z a IH]; intros b c; [|cbn [app last]; destruct (a ++ b :: c) eqn:Q; [destruct a; discriminate|rewrite <- Q; apply IH]].
    cbn [app]. revert b. induction c as [|d c IHc]; intros b; [now left|]. right. apply (IHc d).
Qed.

Lemma full_complete v ls plan : wf_graph adj -> dag adj -> one_chosen v leafs -> linearises v leafs adj ls -> plan_of v leafs ls plan -> room P v leafs ls -> consistent P plan ->
  executable P (initial_state P) plan -> goal_state P (after P (initial_state P) plan) ->
  exists v', (forall x, x <= nv \/ nv3 < x -> v' x = v x) /\ satisfies v' (F ++ G).
Proof.
  intros WG DG OC LI PO RM CO EX GO. assert (RB := room_bound v ls LI RM). destruct LI as [ND AC OR].
  (* the placed leafs with their actions *)
  set (ps := place_from 0 ls). set (zs := combine ps plan).
  assert (LP : length plan = length ls). { clear - PO. induction PO; cbn; auto. }
  assert (LS : length ps = length ls). { rewrite <- (map_length fst ps). unfold ps. now rewrite place_fst. }
  assert (ZP : map snd zs = plan). { unfold zs. assert (Q : length ps = length plan) by lia. clear - Q. revert plan Q. induction ps as [|x r IH]; intros [|a plan] Q; cbn in *; try lia; auto. f_equal. apply IH. lia. }
  assert (ZF : map fst zs = ps). { unfold zs. assert (Q : length ps = length plan) by lia. clear - Q. revert plan Q. induction ps as [|x r IH]; intros [|a plan] Q; cbn in *; try lia; auto. f_equal. apply IH. lia. }
  assert (ZO : forall l p a, In (l, p, a) zs -> exists lf, nth_error leafs l = Some lf /\ occurs v lf a).
  { intros l p a I. unfold zs, ps in I. clear - PO I. revert I. generalize 0%nat as c. induction PO as [|k b ls' plan' Hk PO IH]; intros c I; cbn in I; [destruct I|].
    destruct I as [I|I]; [|eapply IH; eauto]. apply pair_equal_spec in I as [I ->]. apply pair_equal_spec in I as [-> _]. exact Hk. }
  assert (ZS : ForallOrdPairs (fun x y : nat * nat * nat => (snd (fst x) <= snd (fst y))%nat /\ (eb (fst (fst x)) = true -> (snd (fst x) < snd (fst y))%nat)) zs).
  { assert (Q := place_sorted ls 0). fold ps in Q. rewrite <- ZF in Q. clear - Q. induction zs as [|z r IH]; [constructor|]. cbn in Q. inversion Q as [|? ? FA FO]; subst. constructor; auto.
    rewrite Forall_map in FA. exact FA. }
  assert (ZK : ForallOrdPairs (fun x y : nat * nat * nat => (snd (fst x) <= snd (fst y))%nat) zs) by (eapply fop_impl; [|exact ZS]; intros a b _ _ [Q _]; exact Q).
  assert (ZL : forall l, In l ls <-> exists p a, In (l, p, a) zs).
  { intros l. split.
    - intros I. rewrite <- (place_fst ls 0) in I. fold ps in I. rewrite <- ZF in I. apply in_map_iff in I as ([l' p] & <- & I). apply in_map_iff in I as ([[l2 p2] a] & E & I). cbn in E. exists p2, a.
      apply pair_equal_spec in E as [-> _]. exact I.
    - intros (p & a & I). rewrite <- (place_fst ls 0). fold ps. rewrite <- ZF. apply in_map_iff. exists (l, p). split; auto. apply in_map_iff. exists (l, p, a). auto. }
  assert (ZI : forall l p a, In (l, p, a) zs -> In (l, p) ps) by (intros l p a I; rewrite <- ZF; apply in_map_iff; exists (l, p, a); auto).
  assert (ZR : forall l p a, In (l, p, a) zs -> (p < m)%nat). { intros l p a I. apply ZI in I. apply place_in in I as (pre & post & E & ->). exact (RB pre l post E). }
  assert (PN : NoDup (map fst ps)) by (unfold ps; now rewrite place_fst).
  assert (ZU : forall l p q a b, In (l, p, a) zs -> In (l, q, b) zs -> p = q).
  { intros l p q a b I J. apply ZI in I, J. clear - PN I J. induction ps as [|[k c] r IH]; [destruct I|]. inversion PN as [|? ? N1 N2]; subst. cbn in N1.
    assert (X : forall x y, In (x, y) r -> In x (map fst r)) by (intros x y H; apply in_map_iff; exists (x, y); auto).
    destruct I as [I|I], J as [J|J]; [congruence| | |now apply IH]; destruct N1; [apply (X k q)|apply (X k p)]; congruence. }
  (* the placement *)
  set (pl := fun l => option_map (fun x : nat * nat => snd x) (find (fun x => Nat.eqb (fst x) l) ps)).
  assert (PLS : forall l p, pl l = Some p <-> exists a, In (l, p, a) zs).
  { intros l p. unfold pl. split.
    - destruct (find (fun x => Nat.eqb (fst x) l) ps) as [[k q]|] eqn:Q; [|discriminate]. apply find_some in Q as [I Q]. cbn in Q. apply Nat.eqb_eq in Q. subst k. cbn. intros E. injection E as ->.
      rewrite <- ZF in I. apply in_map_iff in I as ([[l2 p2] a] & E & I). cbn in E. exists a. rewrite <- E. exact I.
    - intros (a & I). destruct (find (fun x => Nat.eqb (fst x) l) ps) as [[k q]|] eqn:Q.
      + apply find_some in Q as [J Q]. cbn in Q. apply Nat.eqb_eq in Q. subst k. rewrite <- ZF in J. apply in_map_iff in J as ([[l2 p2] b] & E & J). cbn in E. rewrite E in J. cbn. f_equal. eapply ZU; eauto.
      + apply find_none with (x := (l, p)) in Q; [cbn in Q; rewrite Nat.eqb_refl in Q; discriminate|]. eapply ZI; eauto. }
  (* the action variables *)
  set (on := fun p a => existsb (fun z : nat * nat * nat => Nat.eqb (snd (fst z)) p && Nat.eqb (snd z) a) zs).
  assert (ON : forall p a, on p a = true <-> exists l, In (l, p, a) zs).
  { intros p a. unfold on. rewrite existsb_exists. split.
    - intros ([[l q] b] & I & Q). cbn in Q. apply andb_true_iff in Q as [Q1 Q2]. apply Nat.eqb_eq in Q1, Q2. subst q b. eauto.
    - intros (l & I). exists (l, p, a). split; auto. cbn. now rewrite !Nat.eqb_refl. }
  set (w := fun x => if (nv <? x) && (x <=? nv1) then existsb (fun pa : nat * leaf => existsb (fun y : Z * nat => Z.eqb x (fst y) && on (fst pa) (snd y)) (snd pa)) (combine (seq 0 m) vars) else v x).
  assert (AG1 : forall x, x <= nv \/ nv1 < x -> w x = v x). { intros x Hx. unfold w. destruct (Z.ltb_spec nv x), (Z.leb_spec x nv1); cbn; auto; lia. }
  destruct full_atoms as (L1 & LE & EF & LM & VN & VA & VR & VU).
  assert (HW : forall p acts a, nth_error vars p = Some acts -> (happens w acts a <-> exists l, In (l, p, a) zs)).
  { intros p acts a Gp. assert (Iv := nth_error_In _ _ Gp). split.
    - intros (x & I & V). assert (R := VR acts x a Iv I). unfold w in V. destruct (Z.ltb_spec nv x), (Z.leb_spec x nv1); cbn [andb] in V; try lia.
      apply existsb_exists in V as ([q acts'] & J & V). apply in_enum in J. cbn [fst snd] in V. apply existsb_exists in V as ([y b] & K & V). cbn [fst snd] in V. apply andb_true_iff in V as [V1 V2]. apply Z.eqb_eq in V1. subst y.
      destruct (VU p q acts acts' x a b Gp J I K) as [-> ->]. now apply ON.
    - intros (l & I). destruct (ZO l p a I) as (lf & Gl & O). destruct O as (y & Iy & _). assert (Ia : In a (map snd acts)) by (apply (VA acts a Iv); exists lf, (Some y); split; auto; eapply nth_error_In; eauto).
      apply in_map_iff in Ia as ([x b] & E & Ix). cbn in E. subst b. exists x. split; auto. assert (R := VR acts x a Iv Ix). unfold w. destruct (Z.ltb_spec nv x), (Z.leb_spec x nv1); cbn [andb]; try lia.
      apply existsb_exists. exists (p, acts). split; [now apply in_enum|]. cbn [fst snd]. apply existsb_exists. exists (x, a). split; auto. cbn [fst snd]. rewrite Z.eqb_refl. cbn. apply ON. eauto. }
  assert (OW : forall l lf a, nth_error leafs l = Some lf -> (occurs w lf a <-> occurs v lf a)).
  { intros l lf a Gl. split; intros (x & I & V); exists x; (split; [auto|]); assert (R := lo_vars _ _ _ LO lf x a (nth_error_In _ _ Gl) I); [rewrite <- AG1 by lia|rewrite AG1 by lia]; auto. }
  assert (SAME : forall l p a lf b, In (l, p, a) zs -> nth_error leafs l = Some lf -> occurs v lf b -> a = b).
  { intros l p a lf b I Gl O. destruct (ZO l p a I) as (lf' & Gl' & O'). assert (lf' = lf) by congruence. subst lf'. exact (OC lf a b (nth_error_In _ _ Gl) O' O). }
  assert (FOP : forall l p a k q b, In (l, p, a) zs -> In (k, q, b) zs -> (l, p, a) = (k, q, b) \/ ((p <= q)%nat /\ (eb l = true -> (p < q)%nat)) \/ ((q <= p)%nat /\ (eb k = true -> (q < p)%nat))).
  { intros l p a k q b I J. destruct (fop_in _ zs (l, p, a) (k, q, b) ZS I J) as [H|[H|H]]; cbn [fst snd] in H; auto. }
  assert (PLW : placement P w leafs adj vars pl).
  { split.
    - intros l p Q. apply PLS in Q as (a & I). split; [|eapply ZR; eauto]. destruct (ZO l p a I) as (lf & Gl & _). eapply nth_lt; eauto.
    - intros l lf Gl (a & O) Q. apply (OW l lf a Gl) in O. assert (I : In l ls) by (apply AC; exists lf; split; auto; exists a; auto). apply ZL in I as (p & b & I). assert (H : pl l = Some p) by (apply PLS; eauto). congruence.
    - intros l k lf kf p Gl Gk HE HE' Q R. apply PLS in Q as (a & I), R as (b & J). apply (EF l lf Gl) in HE. apply (EF k kf Gk) in HE'.
      destruct (FOP l p a k p b I J) as [H|[[_ H]|[_ H]]]; [congruence|specialize (H HE); lia|specialize (H HE'); lia].
    - intros l k p q PR Q R. apply PLS in Q as (a & I), R as (b & J). assert (Il : In l ls) by (apply ZL; eauto). assert (Ik : In k ls) by (apply ZL; eauto).
      (* l stands before k in ls, hence in zs *)
      assert (OZ : ForallOrdPairs (fun x y : nat * nat * nat => ~ precedes adj (fst (fst y)) (fst (fst x))) zs).
      { assert (Q := OR). rewrite <- (place_fst ls 0) in Q. fold ps in Q. rewrite <- ZF in Q. rewrite map_map in Q. clear - Q. induction zs as [|z r IH]; [constructor|]. cbn in Q. inversion Q as [|? ? FA FO]; subst. constructor; auto.
        rewrite Forall_map in FA. exact FA. }
      assert (BO2 : ForallOrdPairs (fun x y : nat * nat * nat => ~ precedes adj (fst (fst y)) (fst (fst x)) /\ (snd (fst x) <= snd (fst y))%nat) zs).
      { clear - OZ ZK. revert OZ. induction ZK as [|x r FA FO IH]; intros OZ; [constructor|]. inversion OZ as [|? ? FA' FO']; subst. constructor; auto. rewrite Forall_forall in *. auto. }
      destruct (fop_in _ zs (l, p, a) (k, q, b) BO2 I J) as [H|[H|H]]; cbn [fst snd] in H.
      + apply pair_equal_spec in H as [H _]. apply pair_equal_spec in H as [_ ->]. lia.
      + apply H.
      + destruct H as [H _]. contradiction.
    - intros l lf p acts a Gl Q Gp O. apply PLS in Q as (b & I). apply (OW l lf a Gl) in O. assert (b = a) by (eapply SAME; eauto). subst b. apply (HW p acts a Gp). eauto.
    - intros l lf p acts a Gl HE Q Gp He H. apply (HW p acts a Gp) in H as (k & J). apply PLS in Q as (b & I). apply (OW l lf a Gl).
      destruct (ZO k p a J) as (kf & Gk & O). assert (HK : effect_leaf P kf) by (destruct O as (y & Iy & _); exists (Some y), a; auto).
      apply (EF l lf Gl) in HE. apply (EF k kf Gk) in HK. destruct (FOP l p b k p a I J) as [H|[[_ H]|[_ H]]]; [|specialize (H HE); lia|specialize (H HK); lia].
      apply pair_equal_spec in H as [H _]. apply pair_equal_spec in H as [-> _]. assert (kf = lf) by congruence. now subst kf.
    - intros p acts a Gp He H. apply (HW p acts a Gp) in H as (k & J). destruct (ZO k p a J) as (kf & Gk & O). exists k, kf. split; auto. split; [destruct O as (y & Iy & _); exists (Some y), a; auto|]. apply PLS. eauto. }
  (* the states *)
  set (before := fun p => map snd (filter (fun z : nat * nat * nat => Nat.ltb (snd (fst z)) p) zs)).
  assert (B0 : before 0%nat = []). { unfold before. clear. induction zs as [|z r IH]; cbn; auto. }
  assert (BM : before m = plan).
  { unfold before. rewrite <- ZP. f_equal. clear - ZR. induction zs as [|[[l p] a] r IH]; cbn [filter fst snd]; auto. assert (Q := ZR l p a (or_introl eq_refl)). destruct (Nat.ltb_spec p m); [|lia]. f_equal. apply IH. intros k q b I. apply (ZR k q b). now right. }
  set (at_ := fun p => map snd (filter (fun z : nat * nat * nat => Nat.eqb (snd (fst z)) p) zs)).
  assert (BS : forall p, before (S p) = before p ++ at_ p). { intros p. unfold before, at_. rewrite (sorted_filter (fun z : nat * nat * nat => snd (fst z)) zs p ZK). apply map_app. }
  assert (BP : forall p, exists post, plan = before p ++ post). { intros p. exists (map snd (filter (fun z : nat * nat * nat => negb (Nat.ltb (snd (fst z)) p)) zs)). rewrite <- ZP. unfold before. rewrite <- map_app. f_equal. now apply sorted_prefix. }
  assert (IA : forall p a, In a (at_ p) <-> exists l, In (l, p, a) zs).
  { intros p a. unfold at_. rewrite in_map_iff. split.
    - intros ([[l q] b] & <- & I). apply filter_In in I as [I Q]. cbn in Q. apply Nat.eqb_eq in Q. subst q. eauto.
    - intros (l & I). exists (l, p, a). split; auto. apply filter_In. split; auto. cbn. apply Nat.eqb_refl. }
  assert (IND : forall p, ForallOrdPairs (independent P) (at_ p)).
  { intros p. unfold at_. apply fop_map. eapply fop_impl; [|apply fop_filter, ZS]. intros [[l q] a] [[k r] b] I J [_ H]. apply filter_In in I as [I Q], J as [J R]. cbn [fst snd] in *. apply Nat.eqb_eq in Q, R. subst q r.
    destruct (ZO l p a I) as (lf & Gl & x & Ix & _). assert (NE : ~ effectful P a). { intros He. assert (HE : eb l = true) by (apply (EF l lf Gl); exists (Some x), a; auto). specialize (H HE). lia. }
    intros f. split; intros D; destruct NE; exists f; auto. }
  destruct (formula_fill w before) as (w' & AG2 & SF); auto.
  - now rewrite BM.
  - intros p acts Gp. rewrite BS, after_app. apply (step_rel_in _ _ (at_ p)).
    + intros a. rewrite IA, in_chosen. symmetry. apply (HW p acts a Gp).
    + destruct (BP (S p)) as (post & EP). rewrite BS in EP. rewrite EP in EX. apply exec_app in EX as [EX _]. apply exec_app in EX as [_ EX]. apply step_complete; auto.
      intros a f Ia. apply CO. rewrite EP. apply in_or_app. left. apply in_or_app. now right.
  - assert (N2 : 0 <= nv2) by (destruct full_fvars; assert (Q := full_nv1); lia). destruct full_fvars as [L2 FV].
    (* the placement only depends on the variables up to nv1 *)
    assert (PLW' : placement P w' leafs adj vars pl).
    { assert (OW' : forall l lf a, nth_error leafs l = Some lf -> (occurs w' lf a <-> occurs w lf a)).
      { intros l lf a Gl. split; intros (x & I & V); exists x; (split; [auto|]); assert (R := lo_vars _ _ _ LO lf x a (nth_error_In _ _ Gl) I); [rewrite <- AG2 by lia|rewrite AG2 by lia]; auto. }
      assert (HW' : forall p acts a, nth_error vars p = Some acts -> (happens w' acts a <-> happens w acts a)).
      { intros p acts a Gp. split; intros (x & I & V); exists x; (split; [auto|]); assert (R := VR acts x a (nth_error_In _ _ Gp) I); [rewrite <- AG2 by lia|rewrite AG2 by lia]; auto. }
      destruct PLW as [H1 H2 H3 H4 H5 H6 H7]. split; auto.
      - intros l lf Gl (a & O). apply (H2 l lf Gl). exists a. now apply (OW' l lf a Gl).
      - intros l lf p acts a Gl Q Gp O. apply (HW' p acts a Gp). apply (H5 l lf p acts a Gl Q Gp). now apply (OW' l lf a Gl).
      - intros l lf p acts a Gl HE Q Gp He H. apply (OW' l lf a Gl). apply (H6 l lf p acts a Gl HE Q Gp He). now apply (HW' p acts a Gp).
      - intros p acts a Gp He H. apply (H7 p acts a Gp He). now apply (HW' p acts a Gp). }
    destruct (matching_complete P bits BO leafs effs adj vars nv2 N2 (wf_la P WF) (wf_ld P WF) full_lo full_ef full_vn full_vr AN G nv3 w' pl E3 DG PLW') as (v' & AG3 & SG).
    assert (L3 : nv2 <= nv3).
    { eapply (matching_le P bits BO leafs effs adj vars nv2); eauto using wf_la, wf_ld, full_ef, full_vn, full_vr, full_lo. }
    exists v'. split.
    + intros x Hx. rewrite AG3 by lia. rewrite AG2 by lia. apply AG1. lia.
    + apply sat_app. split; auto. apply (sat_agree nv2 w'); auto. intros x Hx. symmetry. apply AG3. lia.
Qed.
End Full.
