(** The cost clauses say that the plan is cheap. *)
From Coq Require Import ZArith.
From Verif Require Import Base Htn_problem Htn_spec Sat_model Sat_spec Sat_proof Sat_thm Sf_model Sf_spec Opt_spec Opt_model.
Local Open Scope Z_scope.

Lemma solution_plan_cost cost plan : solution_cost cost plan = plan_cost cost plan.
Proof. induction plan as [|a r IH]; auto. unfold solution_cost in *. cbn [fold_right plan_cost]. now rewrite IH. Qed.
Lemma unit_one cost plan : unit_cost 1 cost plan = plan_cost cost plan.
Proof. induction plan as [|a r IH]; auto. cbn [unit_cost plan_cost]. rewrite IH. now rewrite Nat.div_1_r. Qed.
Lemma unit_app u cost p q : unit_cost u cost (p ++ q) = (unit_cost u cost p + unit_cost u cost q)%nat.
Proof. induction p as [|a r IH]; auto. cbn [app unit_cost]. rewrite IH. lia. Qed.
(** Rounding down every action costs at most a unit minus one per action. *)
Lemma unit_below u cost plan : (0 < u)%nat -> (u * unit_cost u cost plan <= plan_cost cost plan)%nat.
Proof. intros U. induction plan as [|a r IH]; cbn [unit_cost plan_cost]; [lia|]. assert (Q := Nat.mul_div_le (nth a cost 0%nat) u). nia. Qed.
Lemma unit_above u cost plan : (0 < u)%nat -> (plan_cost cost plan <= u * unit_cost u cost plan + (u - 1) * length plan)%nat.
Proof. intros U. induction plan as [|a r IH]; cbn [unit_cost plan_cost length]; [lia|]. assert (Q := Nat.mod_upper_bound (nth a cost 0%nat) u). assert (R := Nat.div_mod (nth a cost 0%nat) u). nia. Qed.
Lemma unit_zero u cost plan : (forall c, In c cost -> (c < u)%nat) -> unit_cost u cost plan = 0%nat.
Proof.
  intros H. induction plan as [|a r IH]; auto. cbn [unit_cost]. rewrite IH. destruct (Nat.lt_ge_cases a (length cost)) as [L|L].
  - rewrite Nat.div_small; auto. apply H. now apply nth_In.
  - rewrite nth_overflow by lia. destruct u; [reflexivity|]. now rewrite Nat.div_0_l.
Qed.

Lemma count_seq v k nv : forall m b, (forall c, (b <= c < b + m)%nat -> v (nv + Z.of_nat c) = (c <=? k)%nat) -> 0 <= nv -> (0 < b)%nat ->
  count_true v (map (fun c => nv + Z.of_nat c) (seq b m)) = Nat.min m (S k - b).
Proof.
  induction m as [|m IH]; intros b H N B; auto. cbn [seq map]. rewrite count_cons, IH; auto; try lia; [|intros c Hc; apply H; lia]. rewrite lit_pos by lia. rewrite H by lia. destruct (Nat.leb_spec b k); lia.
Qed.
Lemma filter_single (v : assignment) (l : leaf) : (length (chosen_at v l) <= 1)%nat -> chosen_at v l = [] /\ (forall x, In x l -> v (fst x) = false) \/ exists y, In y l /\ v (fst y) = true /\ chosen_at v l = [snd y] /\ forall x, In x l -> v (fst x) = true -> x = y.
Proof.
  unfold chosen_at. rewrite map_length. intros L. destruct (filter (fun x => v (fst x)) l) as [|y [|z r]] eqn:E; [left|right|cbn in L; lia].
  - split; auto. intros x Hx. destruct (v (fst x)) eqn:Ev; auto. assert (Q : In x (filter (fun x => v (fst x)) l)) by (apply filter_In; auto). rewrite E in Q. destruct Q.
  - assert (Q : In y (filter (fun x => v (fst x)) l)) by (rewrite E; now left). apply filter_In in Q as [Q1 Q2]. exists y. split; auto. split; auto. split; auto. intros x Hx Ev. assert (R : In x (filter (fun x => v (fst x)) l)) by (apply filter_In; auto). rewrite E in R. destruct R as [R|[]]. auto.
Qed.

Section Cost.
  Variables (cost : list nat) (cf : nat) (n0 : Z).
  Hypothesis CF : (0 < cf)%nat.
  Hypothesis N0 : 0 <= n0.
  Notation price := (fun x : Z * nat => (fst x, nth (snd x) cost 0%nat)).
  Definition leaf_ok (l : leaf) : Prop := forall x, In x l -> 1 <= fst x <= n0 /\ (snd x < length cost)%nat.

  Lemma prices l : leaf_ok l -> omap (fun x : Z * nat => k <- get cost (snd x) ;; Some (fst x, k)) l = Some (map price l).
  Proof.
    induction l as [|x l IH]; intros H; auto. cbn [omap map]. destruct (get_some cost (snd x)) as (k & E); [apply H; now left|]. rewrite E. cbn [obind]. rewrite IH; [|intros y Hy; apply H; now right]. cbn [obind]. unfold get in E. now rewrite (nth_error_nth _ _ _ E).
  Qed.
  Lemma price_max l y : In y l -> (nth (snd y) cost 0 / cf <= list_max (map snd (map price l)) / cf)%nat.
  Proof.
    intros Hy. apply Nat.div_le_mono; [lia|]. assert (Q := proj1 (list_max_le (map snd (map price l)) (list_max (map snd (map price l)))) (Nat.le_refl _)). rewrite Forall_forall in Q. apply Q. rewrite map_map. cbn [snd]. apply in_map_iff. exists y. auto.
  Qed.
  Lemma clauses_mean v l c cv : leaf_ok l -> 0 < cv -> satisfies v (cost_clauses cf (map price l) c cv) <-> forall x, In x l -> v (fst x) = true -> v cv = (c <=? nth (snd x) cost 0 / cf)%nat.
  Proof.
    intros OK CV. unfold cost_clauses. rewrite sat_flat. split.
    - intros H x Hx Vx. destruct (OK x Hx) as [R _]. specialize (H (price x) (in_map _ _ _ Hx)). cbn [fst snd] in H. destruct (c <=? _)%nat.
      + apply sat_implies in H; [|lia|rewrite lit_pos; auto; lia]. rewrite lit_pos in H; auto.
      + apply sat_implies_not in H; [|lia|lia|rewrite lit_pos; auto; lia]. rewrite lit_pos in H; auto.
    - intros H y Hy. apply in_map_iff in Hy as (x & <- & Hx). specialize (H x Hx). destruct (OK x Hx) as [R _]. destruct (c <=? _)%nat.
      + apply sat_implies; [lia|]. rewrite !lit_pos by lia. auto.
      + apply sat_implies_not; [lia|lia|]. rewrite !lit_pos by lia. auto.
  Qed.

  Lemma pos_ok nv l : n0 <= nv -> leaf_ok l -> exists cs vs nv', cost_pos cost cf nv l = Some (cs, vs, nv') /\ nv <= nv' /\ (forall x, In x vs -> nv + 1 <= x <= nv') /\ vars_le nv' cs /\
    (forall v, satisfies v cs -> (length (chosen_at v l) <= 1)%nat -> (unit_cost cf cost (chosen_at v l) <= count_true v vs)%nat) /\
    (forall v, (length (chosen_at v l) <= 1)%nat -> exists v', (forall x, x <= nv \/ nv' < x -> v' x = v x) /\ satisfies v' cs /\ count_true v' vs = unit_cost cf cost (chosen_at v l)).
  Proof.
    intros L OK. unfold cost_pos. rewrite (prices l OK). cbn [obind]. cbv zeta. set (m := (list_max (map snd (map price l)) / cf)%nat).
    eexists _, _, _. split; [reflexivity|]. split; [lia|]. split; [|split; [|split]].
    - intros x Hx. apply in_map_iff in Hx as (c & <- & Hc). apply in_seq in Hc. lia.
    - apply vars_flat. intros c Hc. apply in_seq in Hc. apply vars_flat. intros y Hy. apply in_map_iff in Hy as (x & <- & Hx). destruct (OK x Hx) as [R _]. cbn [fst snd].
      destruct (c <=? _)%nat; intros cl li [<-|[]] Hl; cbn in Hl; unfold lit_ok; destruct Hl as [<-|[<-|[]]]; lia.
    - intros v S AM. destruct (filter_single v l AM) as [[E _]|(y & Y1 & Y2 & E & _)]; rewrite E; cbn [unit_cost]; [lia|]. assert (PM := price_max l y Y1). fold m in PM. rewrite (count_seq v (nth (snd y) cost 0%nat / cf)); try lia.
      intros c Hc. rewrite sat_flat in S. assert (Q := S c ltac:(apply in_seq; lia)). apply (clauses_mean v l c (nv + Z.of_nat c) OK ltac:(lia)) with (x := y) in Q; auto.
    - intros v AM. set (k := unit_cost cf cost (chosen_at v l)). set (v' := fun x => if (nv <? x) && (x <=? nv + Z.of_nat m) then (x - nv <=? Z.of_nat k) else v x).
      assert (OUT : forall x, x <= nv \/ nv + Z.of_nat m < x -> v' x = v x). { intros x Hx. unfold v'. destruct (Z.ltb_spec nv x), (Z.leb_spec x (nv + Z.of_nat m)); auto; lia. }
      assert (INN : forall c, (1 <= c < 1 + m)%nat -> v' (nv + Z.of_nat c) = (c <=? k)%nat). { intros c Hc. unfold v'. destruct (Z.ltb_spec nv (nv + Z.of_nat c)); [|lia]. destruct (Z.leb_spec (nv + Z.of_nat c) (nv + Z.of_nat m)); [|lia]. cbn [andb]. destruct (Nat.leb_spec c k), (Z.leb_spec (nv + Z.of_nat c - nv) (Z.of_nat k)); auto; lia. }
      exists v'. split; auto. split.
      + apply sat_flat. intros c Hc. apply in_seq in Hc. apply clauses_mean; [auto|lia|]. intros x Hx Vx. destruct (OK x Hx) as [R _]. rewrite OUT in Vx by lia. rewrite INN by lia.
        destruct (filter_single v l AM) as [[_ E]|(y & Y1 & Y2 & E & U)]; [rewrite E in Vx by auto; discriminate|]. rewrite (U x Hx Vx). unfold k. rewrite E. cbn [unit_cost]. now rewrite Nat.add_0_r.
      + assert (KM : (k <= m)%nat). { unfold k. destruct (filter_single v l AM) as [[E _]|(y & Y1 & Y2 & E & U)]; rewrite E; cbn [unit_cost]; [lia|]. assert (PM := price_max l y Y1). fold m in PM. lia. }
        rewrite (count_seq v' k nv m 1 INN); lia.
  Qed.

  Lemma count_app v l l' : count_true v (l ++ l') = (count_true v l + count_true v l')%nat.
  Proof. unfold count_true. now rewrite filter_app, app_length. Qed.
  Lemma chosen_at_same v v' l : leaf_ok l -> agree n0 v v' -> chosen_at v l = chosen_at v' l.
  Proof. intros OK A. unfold chosen_at. f_equal. apply filter_ext_in. intros x Hx. apply A. apply (OK x Hx). Qed.
  Lemma chosen_same v v' ls : (forall l, In l ls -> leaf_ok l) -> agree n0 v v' -> chosen v ls = chosen v' ls.
  Proof. intros OK A. unfold chosen. induction ls as [|l r IH]; auto. cbn [flat_map]. rewrite IH by (intros; apply OK; now right). f_equal. apply chosen_at_same; auto. apply OK. now left. Qed.

  Lemma positions_ok : forall ls nv, n0 <= nv -> (forall l, In l ls -> leaf_ok l) -> exists cs vs nv', cost_positions cost cf nv ls = Some (cs, vs, nv') /\ nv <= nv' /\ (forall x, In x vs -> nv + 1 <= x <= nv') /\ vars_le nv' cs /\
    (forall v, satisfies v cs -> one_each v ls -> (unit_cost cf cost (chosen v ls) <= count_true v vs)%nat) /\
    (forall v, one_each v ls -> exists v', (forall x, x <= nv \/ nv' < x -> v' x = v x) /\ satisfies v' cs /\ count_true v' vs = unit_cost cf cost (chosen v ls)).
  Proof.
    induction ls as [|l r IH]; intros nv L OK.
    - exists [], [], nv. split; auto. split; [lia|]. split; [intros x []|]. split; [apply vars_nil|]. split; [intros; cbn; lia|]. intros v _. exists v. split; auto. split; [apply sat_nil|reflexivity].
    - destruct (pos_ok nv l L (OK l (or_introl eq_refl))) as (c1 & v1 & nv1 & E1 & L1 & B1 & V1 & S1 & K1). destruct (IH nv1 ltac:(lia) (fun l' H => OK l' (or_intror H))) as (c2 & v2 & nv2 & E2 & L2 & B2 & V2 & S2 & K2).
      cbn [cost_positions]. rewrite E1. cbn [obind]. rewrite E2. cbn [obind]. eexists _, _, _. split; [reflexivity|]. split; [lia|]. split; [|split; [|split]].
      + intros x Hx. apply in_app_or in Hx as [Hx|Hx]; [specialize (B1 x Hx)|specialize (B2 x Hx)]; lia.
      + apply vars_app. split; auto. eapply vars_mono; eauto.
      + intros v S O. apply sat_app in S as [Q1 Q2]. unfold chosen. cbn [flat_map]. rewrite unit_app, count_app. fold (chosen v r). assert (R1 := S1 v Q1 (O l (or_introl eq_refl))). assert (R2 := S2 v Q2 (fun l' H => O l' (or_intror H))). lia.
      + intros v O. destruct (K1 v (O l (or_introl eq_refl))) as (w & W1 & W2 & W3). assert (AW : agree n0 v w) by (intros x Hx; symmetry; apply W1; lia).
        destruct (K2 w) as (u & U1 & U2 & U3). { intros l' Hl'. rewrite <- (chosen_at_same v w l'); auto; [apply O; now right|apply OK; now right]. }
        exists u. split; [|split].
        * intros x Hx. rewrite U1 by lia. apply W1. lia.
        * apply sat_app. split; auto. apply (sat_agree nv1 w u); auto. intros x Hx. symmetry. apply U1. lia.
        * rewrite count_app, U3. unfold chosen at 2. cbn [flat_map]. rewrite unit_app. fold (chosen v r). rewrite (chosen_same v w r); auto; [|intros; apply OK; now right]. f_equal. rewrite <- W3. apply (count_agree nv1).
          -- intros x Hx. specialize (B1 x Hx). unfold lit_ok. lia.
          -- intros x Hx. apply U1. lia.
  Qed.

  (** The cost clauses and the bound. *)
  Lemma bound_ok K ls nv : -1 <= K -> n0 <= nv -> (forall l, In l ls -> leaf_ok l) -> exists cs vs nv5 ck nv6, cost_positions cost cf nv ls = Some (cs, vs, nv5) /\ atMostK K nv5 vs = (ck, nv6) /\ nv <= nv6 /\ vars_le nv6 (cs ++ ck) /\
    (0 <= K -> forall v, satisfies v (cs ++ ck) -> one_each v ls -> Z.of_nat (unit_cost cf cost (chosen v ls)) <= K) /\
    (forall v, one_each v ls -> K < 0 \/ Z.of_nat (unit_cost cf cost (chosen v ls)) <= K -> exists v', (forall x, x <= nv -> v' x = v x) /\ satisfies v' (cs ++ ck)).
  Proof.
    intros KB L OK. destruct (positions_ok ls nv L OK) as (cs & vs & nv5 & E & L5 & B & V & S & K5). destruct (atMostK K nv5 vs) as [ck nv6] eqn:EK. exists cs, vs, nv5, ck, nv6.
    assert (LO : forall x, In x vs -> lit_ok nv5 x) by (intros x Hx; specialize (B x Hx); unfold lit_ok; lia). assert (N5 : 0 <= nv5) by lia.
    split; auto. split; auto. destruct (Z.le_gt_cases 0 K) as [KP|KN].
    - assert (Q := amk_encodes K nv5 N5 KP vs LO). rewrite EK in Q. cbn [fst] in Q. assert (EN : nv6 = amk_base K nv5 (Datatypes.S (length vs)) - 1) by (unfold atMostK in EK; congruence). rewrite <- EN in Q. destruct Q as [QL QV _ [QS QC]].
      split; [lia|]. split; [apply vars_app; split; auto; eapply vars_mono; eauto|]. split.
      + intros _ v H O. apply sat_app in H as [H1 H2]. specialize (QS v H2). specialize (S v H1 O). lia.
      + intros v O [H|H]; [lia|]. destruct (K5 v O) as (w & W1 & W2 & W3). destruct (QC w) as (u & U1 & U2); [rewrite W3; exact H|]. exists u. split; [intros x Hx; rewrite U1 by lia; apply W1; lia|]. apply sat_app. split; auto. apply (sat_agree nv5 w u); auto. intros x Hx. symmetry. apply U1. lia.
    - assert (K = -1) by lia. subst K. assert (EN : nv6 = amk_base (-1) nv5 (Datatypes.S (length vs)) - 1) by (unfold atMostK in EK; congruence).
      assert (L6 : nv5 <= nv6) by (rewrite EN; unfold amk_base; nia). split; [lia|]. split; [|split; [lia|]].
      + apply vars_app. split; [eapply vars_mono; eauto|]. replace ck with (fst (atMostK (-1) nv5 vs)) by now rewrite EK. unfold atMostK. cbn [fst]. apply vars_app. split.
        * apply vars_flat. intros [i x] Hi. apply combine_seq in Hi as [_ Hi]. assert (Li : (i - 0 < length vs)%nat) by (apply nth_error_Some; congruence). cbn [fst snd]. unfold amk_step. change (Z.to_nat (-1 + 1)) with 0%nat. cbn [seq flat_map app].
          intros c y [<-|[]] [<-|[]]. rewrite EN. unfold lit_ok, amk_base. change (1 + Z.max 0 (-1 + 1)) with 1. lia.
        * intros c y [<-|[]] [<-|[]]. rewrite EN. unfold lit_ok, amk_base. change (1 + Z.max 0 (-1 + 1)) with 1. lia.
      + intros v O _. destruct (K5 v O) as (w & W1 & W2 & _). destruct (at_most_minus_one_refuted nv5 vs N5 LO w) as (_ & u & U1 & U2 & _). rewrite EK in U2. cbn [fst] in U2. exists u. split; [intros x Hx; rewrite U1 by lia; apply W1; lia|]. apply sat_app. split; auto. apply (sat_agree nv5 w u); auto. intros x Hx. symmetry. apply U1. lia.
  Qed.
End Cost.
