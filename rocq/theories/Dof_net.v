(** The net change constraints. *)
From Verif Require Import Base Htn_problem Htn_spec Pg_model Lm_spec Dof_spec Dof_model Dof_count Dof_proof.
Local Open Scope nat_scope.

(** ** Assumptions about the variables (firstIndex, lastIndex) *)
Definition same_var (V : list (nat * nat)) (p e : nat) : Prop := exists fi la, In (fi, la) V /\ fi <= p <= la /\ fi <= e <= la.
Record vars_ok (P : problem) (V : list (nat * nat)) : Prop := {
  vo_range : forall fi la, In (fi, la) V -> la < p_nfacts P;
  vo_cover : forall f, f < p_nfacts P -> exists fi la, In (fi, la) V /\ fi <= f <= la }.
(** An action that needs one value of a variable and adds another one deletes the old value. *)
Definition sas_ok (P : problem) (V : list (nat * nat)) : Prop :=
  forall a p e, precs P a p -> adds P a e -> p <> e -> same_var V p e -> dels P a p /\ ~ adds P a p.

Section Net.
Variables (P : problem) (V : list (nat * nat)).
Hypothesis WP : wf_problem P.
Hypothesis VO : vars_ok P V.

Lemma var_of_ok f : f < p_nfacts P -> exists fi la, var_of V f = Some (fi, la) /\ In (fi, la) V /\ fi <= f <= la.
Proof.
  intros H. destruct (vo_cover _ _ VO f H) as (fi & la & I & L). unfold var_of. destruct (find _ (rev V)) as [[fi' la']|] eqn:E.
  - apply find_some in E as [E1 E2]. apply in_rev in E1. apply andb_prop in E2 as [E2 E3]. apply Nat.leb_le in E2, E3. exists fi', la'. auto.
  - apply in_rev in I. apply (find_none _ _ E) in I. cbn in I. apply andb_false_iff in I as [I|I]; apply Nat.leb_gt in I; lia.
Qed.
Lemma prec_in_ok pre fs : exists p, prec_in pre fs = Some p /\ match p with Some i => In i fs /\ In i pre | None => True end.
Proof.
  induction fs as [|i fs (p & E & H)]; cbn [prec_in]; [exists None; auto|]. destruct (containsInt_sound pre i) as (b & Eb & Hb). rewrite Eb. cbn [obind].
  destruct b; [exists (Some i); split; auto; split; [now left|auto]|]. exists p. split; auto. destruct p; auto. destruct H. split; [now right|auto].
Qed.

(** The tables after all effects of the actions in [done]. *)
Definition producer (x : nc_tab) (f a : nat) : Prop := In (f, a) (n_ap x) \/ In (f, a) (n_sp x).
Definition ac_ok (x : nc_tab) : Prop := forall f a, In (f, a) (n_ac x) -> precs P a f /\ exists e, adds P a e /\ e <> f /\ same_var V f e.
Definition grows (x y : nc_tab) : Prop := forall f a, producer x f a -> producer y f a.

Lemma nc_eff_ok a x e : a < length (p_cost P) -> adds P a e -> ac_ok x ->
  exists y, nc_eff P V a x e = Some y /\ ac_ok y /\ grows x y /\ (producer y e a \/ precs P a e).
Proof.
  intros La He AO. destruct He as (l & El & Il). assert (Fe : e < p_nfacts P) by (eapply (wf_facts _ WP l); [right; left; eapply nth_error_In; eauto|auto]).
  destruct (var_of_ok e Fe) as (fi & la & EV & IV & LV). unfold nc_eff. rewrite EV. cbn [obind].
  destruct (nth_error (p_prec P) a) as [pre|] eqn:EP; [|apply nth_error_None in EP; rewrite (wf_prec _ WP) in EP; lia]. unfold get. rewrite EP. cbn [obind].
  destruct (prec_in_ok pre (seq fi (S la - fi))) as (p & EPr & HP). rewrite EPr. cbn [obind]. destruct p as [q|].
  - destruct HP as [H1 H2]. assert (PQ : precs P a q) by (exists pre; auto). destruct (Nat.eqb_spec q e) as [->|N].
    + exists x. split; auto. split; auto. split; [intros f b; auto|]. now right.
    + eexists. split; [reflexivity|]. split; [|split].
      * intros f b [Hf|Hf]; [injection Hf as <- <-|auto]. split; auto. exists e. split; [exists l; auto|]. split; auto. apply in_seq in H1. exists fi, la. split; auto. lia.
      * intros f b [H|H]; [left; now right|right; auto].
      * left. left. now left.
  - eexists. split; [reflexivity|]. split; [exact AO|]. split.
    + intros f b [H|H]; [left; auto|right; now right].
    + left. right. now left.
Qed.
Lemma nc_act_ok a x : a < length (p_cost P) -> ac_ok x -> exists y, nc_act P V x a = Some y /\ ac_ok y /\ grows x y /\ forall e, adds P a e -> producer y e a \/ precs P a e.
Proof.
  intros La AO. unfold nc_act. destruct (nth_error (p_add P) a) as [l|] eqn:EA; [|apply nth_error_None in EA; rewrite (wf_add _ WP) in EA; lia]. unfold get. rewrite EA. cbn [obind].
  assert (G : forall l', (forall e, In e l' -> adds P a e) -> forall x, ac_ok x -> exists y, ofold (nc_eff P V a) l' x = Some y /\ ac_ok y /\ grows x y /\ forall e, In e l' -> producer y e a \/ precs P a e).
  { induction l' as [|e l' IH]; intros HA z Hz; [exists z; split; [reflexivity|]; split; auto; split; [intros f b; auto|easy]|]. cbn [ofold].
    destruct (nc_eff_ok a z e La (HA e (or_introl eq_refl)) Hz) as (y1 & E1 & O1 & G1 & P1). rewrite E1. cbn [obind].
    destruct (IH (fun e' H => HA e' (or_intror H)) y1 O1) as (y & E2 & O2 & G2 & P2). exists y. split; auto. split; auto. split.
    - intros f b H. auto.
    - intros e' [<-|H]; auto. destruct P1; auto. }
  destruct (G l) with (x := x) as (y & E & O & Gr & Pr); auto; [intros e He; exists l; auto|]. exists y. split; auto. split; auto. split; auto.
  intros e (l' & E' & I'). apply Pr. congruence.
Qed.
Lemma nc_tables_ok : exists x, nc_tables P V = Some x /\ ac_ok x /\ forall a e, a < length (p_cost P) -> adds P a e -> producer x e a \/ precs P a e.
Proof.
  unfold nc_tables. replace (forallb _ V) with true.
  - assert (G : forall l, (forall a, In a l -> a < length (p_cost P)) -> forall x, ac_ok x -> exists y, ofold (nc_act P V) l x = Some y /\ ac_ok y /\ grows x y /\ forall a e, In a l -> adds P a e -> producer y e a \/ precs P a e).
    { induction l as [|a l IH]; intros HA z Hz; [exists z; split; [reflexivity|]; split; auto; split; [intros f b; auto|easy]|]. cbn [ofold].
      destruct (nc_act_ok a z (HA a (or_introl eq_refl)) Hz) as (y1 & E1 & O1 & G1 & P1). rewrite E1. cbn [obind].
      destruct (IH (fun e' H => HA e' (or_intror H)) y1 O1) as (y & E2 & O2 & G2 & P2). exists y. split; auto. split; auto. split.
      - intros f b H. auto.
      - intros b e [<-|H]; auto. intros He. destruct (P1 e He); auto. }
    destruct (G (seq 0 (length (p_cost P)))) with (x := {| n_ap := []; n_sp := []; n_ac := [] |}) as (y & E & O & _ & Pr).
    + intros a Ha. apply in_seq in Ha. lia.
    + intros f a [].
    + exists y. split; auto. split; auto. intros a e La. apply Pr, in_seq. lia.
  - symmetry. apply forallb_forall. intros [fi la] H. apply Nat.ltb_lt. eapply (vo_range _ _ VO). eauto.
Qed.

Lemma in_row na l f a : In a (row na l f) <-> a < na /\ In (f, a) l.
Proof.
  unfold row. rewrite filter_In, in_seq, existsb_exists. split.
  - intros [L ([g b] & I & E)]. apply andb_prop in E as [E1 E2]. apply Nat.eqb_eq in E1, E2. subst. split; [lia|auto].
  - intros [L I]. split; [lia|]. exists (f, a). split; auto. now rewrite !Nat.eqb_refl.
Qed.

(** Number of the actions of a plan that are in a list. *)
Definition uses (rw plan : list nat) : nat := length (filter (fun a => memb a rw) plan).
Lemma uses_cons rw a plan : uses rw (a :: plan) = (if memb a rw then 1 else 0) + uses rw plan.
Proof. unfold uses. cbn [filter]. destruct (memb a rw); reflexivity. Qed.
Lemma uses_sum rw plan : NoDup rw -> list_sum (map (cnt plan) rw) = uses rw plan.
Proof.
  intros N. induction plan as [|a plan IH].
  - cbn [count_occ]. now apply sum_map_zero.
  - rewrite uses_cons, <- IH. rewrite (sum_map_ext (cnt (a :: plan)) (fun x => 1 * (if Nat.eq_dec a x then 1 else 0) + cnt plan x)).
    + rewrite (sum_map_add (fun x => 1 * (if Nat.eq_dec a x then 1 else 0))). f_equal. destruct (memb a rw) eqn:E.
      * apply memb_In in E. now apply (sum_indicator (fun _ => 1)).
      * apply memb_false in E. apply sum_map_zero. intros x Hx. destruct (Nat.eq_dec a x) as [->|]; [easy|reflexivity].
    + intros x _. cbn [count_occ]. destruct (Nat.eq_dec a x); lia.
Qed.
Lemma uses_filter rw plan (p : nat -> bool) : (forall a, In a plan -> p a = true) -> uses (filter p rw) plan = uses rw plan.
Proof.
  intros H. unfold uses. f_equal. apply filter_ext_in. intros a Ha. destruct (memb a rw) eqn:E.
  - apply memb_In in E. apply memb_In, filter_In. auto.
  - apply memb_false in E. apply memb_false. intros X. apply filter_In in X. tauto.
Qed.

Hypothesis SO : sas_ok P V.
Variable x : nc_tab.
Hypothesis AO : ac_ok x.
Hypothesis PO : forall a e, a < length (p_cost P) -> adds P a e -> producer x e a \/ precs P a e.
Variable f : nat.
Notation na := (length (p_cost P)).
Notation ap := (row na (n_ap x) f).
Notation sp := (row na (n_sp x) f).
Notation ac := (row na (n_ac x) f).

Definition delsb (a : nat) : bool := memb f (nth a (p_del P) []).
Lemma delsb_ok a : delsb a = true <-> dels P a f.
Proof.
  unfold delsb, dels. rewrite memb_In. split.
  - intros H. destruct (nth_error (p_del P) a) as [l|] eqn:E; [rewrite (nth_error_nth _ _ _ E) in H; eauto|]. apply nth_error_None in E. now rewrite nth_overflow in H.
  - intros (l & E & I). now rewrite (nth_error_nth _ _ _ E).
Qed.

Definition b2n (b : bool) : nat := if b then 1 else 0.
Lemma net_change plan : forall (st : state) b, (forall a, In a plan -> a < na) -> (st f <-> b = true) -> executable P st plan ->
  exists b', (after P st plan f <-> b' = true) /\ uses ac plan + b2n b' <= uses ap plan + uses sp plan + b2n b.
Proof.
  induction plan as [|a plan IH]; intros st b LP Hb E.
  - exists b. split; [exact Hb|]. unfold uses. cbn [filter length]. lia.
  - destruct E as [Ap E]. destruct (IH (result P st a) (addsb P f a || (b && negb (delsb a)))) as (b' & H1 & H2); auto.
    + intros c Hc. apply LP. now right.
    + unfold result. rewrite orb_true_iff, andb_true_iff, negb_true_iff, addsb_ok, <- Hb, <- not_true_iff_false, delsb_ok. reflexivity.
    + exists b'. split; auto. rewrite !uses_cons.
      assert (CA : memb a ac = true -> b = true /\ addsb P f a = false /\ delsb a = true).
      { intros Q. apply memb_In, in_row in Q as [_ Q]. destruct (AO _ _ Q) as (PF & e & Ae & Ne & SV). destruct (SO a f e PF Ae) as [D1 D2]; auto. split; [apply Hb, Ap, PF|].
        split; [apply not_true_iff_false; now rewrite addsb_ok|now apply delsb_ok]. }
      assert (CP : addsb P f a = true -> b = false -> memb a ap = true \/ memb a sp = true).
      { intros Q1 Q2. apply addsb_ok in Q1. destruct (PO a f (LP a (or_introl eq_refl)) Q1) as [[Q|Q]|Q].
        - left. apply memb_In, in_row. split; auto. apply LP. now left.
        - right. apply memb_In, in_row. split; auto. apply LP. now left.
        - apply Ap, Hb in Q. congruence. }
      destruct (memb a ac) eqn:M; [destruct (CA eq_refl) as (B1 & B2 & B3); subst b; rewrite B2, B3 in H2; cbn [orb andb negb b2n] in *; lia|]. clear CA.
      destruct b; [cbn [b2n] in *; destruct (addsb P f a || (true && negb (delsb a))); cbn [b2n] in *; lia|].
      destruct (addsb P f a) eqn:AA; cbn [orb andb b2n] in *; [|lia]. destruct (CP eq_refl eq_refl) as [Q | Q]; rewrite Q; lia.
Qed.
End Net.
