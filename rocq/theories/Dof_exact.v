(** What the net change constraints say. *)
From Coq Require Import Sorted QArith.
From Verif Require Import Base Htn_problem Htn_spec Heap_model IntUtil_model IntUtil_thm Tab_model Tab_thm Pg_model Pg_spec Pg_thm Rc_spec Lm_spec Dof_spec Dof_model Dof_count Dof_proof Dof_net Dof_main Dof_sol Dof_relax.
Local Open Scope nat_scope.

Lemma containsInt_exact l f : ascending (map Z.of_nat l) -> exists b, containsInt (map Z.of_nat l) 0 (length l) (Z.of_nat f) = Some b /\ (b = true <-> In f l).
Proof.
  intros A. destruct (containsInt_sound l f) as (b & E & H). exists b. split; auto. split; auto. intros I. unfold containsInt in E.
  destruct (indexOf_correct (map Z.of_nat l) 0 (length l) (Z.of_nat f)) as (i & Ei & Hi); [now rewrite map_length|intros i j _ H1 H2; apply asc_le; auto; now rewrite map_length|].
  rewrite Ei in E. cbn [obind] in E. injection E as <-. apply Z.leb_le. destruct Hi as [(k & _ & -> & _)|(_ & N)]; [lia|]. exfalso. apply In_nth_error in I as (k & Ek). apply (N k).
  - split; [lia|]. apply nth_error_Some. congruence.
  - erewrite nth_error_nth; [|rewrite nth_error_map, Ek; reflexivity]. reflexivity.
Qed.

(** The input in the form of finite domain variables: every fact is a value of one variable, the preconditions are sorted and name at most one value of a variable. *)
Record sas_form (P : problem) (V : list (nat * nat)) : Prop := {
  sf_one : forall v w f, In v V -> In w V -> fst v <= f <= snd v -> fst w <= f <= snd w -> v = w;
  sf_sorted : forall l, In l (p_prec P) -> ascending (map Z.of_nat l);
  sf_unique : forall a p q, precs P a p -> precs P a q -> same_var V p q -> p = q }.

Section Exact.
Variables (P : problem) (V : list (nat * nat)).
Hypothesis WP : wf_problem P.
Hypothesis VO : vars_ok P V.
Hypothesis SF : sas_form P V.
Notation na := (length (p_cost P)).

Lemma prec_in_exact pre fs : ascending (map Z.of_nat pre) -> exists p, prec_in pre fs = Some p /\ match p with Some i => In i fs /\ In i pre | None => forall i, In i fs -> ~ In i pre end.
Proof.
  intros A. induction fs as [|i fs (p & E & H)]; cbn [prec_in]; [exists None; auto|]. destruct (containsInt_exact pre i A) as (b & Eb & Hb). rewrite Eb. cbn [obind].
  destruct b; [exists (Some i); split; auto; split; [now left|now apply Hb]|]. exists p. split; auto. destruct p; [destruct H; split; [now right|auto]|]. intros j [<-|Hj]; auto. intros X. apply Hb in X. discriminate.
Qed.
Lemma in_interval fi la i : In i (seq fi (S la - fi)) <-> fi <= i <= la.
Proof. rewrite in_seq. lia. Qed.

Definition ap_of (a e : nat) : Prop := adds P a e /\ exists p, precs P a p /\ same_var V p e /\ p <> e.
Definition sp_of (a e : nat) : Prop := adds P a e /\ ~ exists p, precs P a p /\ same_var V p e.
Definition ac_of (a p : nat) : Prop := precs P a p /\ exists e, adds P a e /\ same_var V p e /\ p <> e.

Lemma nc_eff_exact a x e y : a < na -> adds P a e -> nc_eff P V a x e = Some y ->
  (forall f b, In (f, b) (n_ap y) <-> In (f, b) (n_ap x) \/ (b = a /\ f = e /\ ap_of a e)) /\
  (forall f b, In (f, b) (n_sp y) <-> In (f, b) (n_sp x) \/ (b = a /\ f = e /\ sp_of a e)) /\
  (forall f b, In (f, b) (n_ac y) <-> In (f, b) (n_ac x) \/ (b = a /\ precs P a f /\ same_var V f e /\ f <> e)).
Proof.
  intros La He E. assert (Fe : e < p_nfacts P) by (destruct He as (l & El & Il); eapply (wf_facts _ WP l); [right; left; eapply nth_error_In; eauto|auto]).
  destruct (var_of_ok P V VO e Fe) as (fi & la & EV & IV & LV). unfold nc_eff in E. rewrite EV in E. cbn [obind] in E. apply obind_some in E as (pre & Epre & E). unfold get in Epre.
  destruct (prec_in_exact pre (seq fi (S la - fi)) (sf_sorted _ _ SF _ (nth_error_In _ _ Epre))) as (p & Ep & Hp). rewrite Ep in E. cbn [obind] in E.
  assert (PR : forall q, precs P a q <-> In q pre) by (intros q; split; [intros (l & El & Il); congruence|intros H; exists pre; auto]).
  assert (SV : forall q, same_var V q e <-> fi <= q <= la).
  { intros q. split; [|intros H; exists fi, la; auto]. intros (fi' & la' & I' & Q1 & Q2). assert (X := sf_one _ _ SF (fi', la') (fi, la) e I' IV Q2 LV). injection X as -> ->. auto. }
  destruct p as [p|].
  - destruct Hp as [Hp1 Hp2]. apply in_interval in Hp1. assert (U : forall q, precs P a q -> same_var V q e -> q = p).
    { intros q Hq Sq. apply (sf_unique _ _ SF a); auto; [now apply PR|]. apply SV in Sq. exists fi, la. auto. }
    assert (NS : ~ sp_of a e) by (intros [_ N]; apply N; exists p; split; [now apply PR|now apply SV]).
    destruct (Nat.eqb_spec p e) as [PE|NE]; injection E as E; subst y; cbn [n_ap n_sp n_ac].
    + assert (NA : ~ ap_of a e) by (intros [_ (q & Q1 & Q2 & Q3)]; apply Q3; rewrite <- PE; apply U; auto). split; [|split]; intros f b; split; auto; intros [H|H]; auto; try tauto.
      destruct H as (_ & H1 & H2 & H3). elim H3. rewrite <- PE. now apply U.
    + assert (NA : ap_of a e) by (split; auto; exists p; split; [now apply PR|]; split; [now apply SV|auto]).
      split; [|split]; intros f b; split; cbn [In]; auto.
      * intros [H|H]; [injection H as <- <-; auto|auto].
      * intros [H|(-> & -> & _)]; auto.
      * intros [H|H]; auto; tauto.
      * intros [H|H]; [injection H as <- <-; right; split; auto; split; [now apply PR|]; split; [now apply SV|auto]|auto].
      * intros [H|(-> & H1 & H2 & H3)]; auto. left. now rewrite (U f H1 H2).
  - injection E as <-. cbn [n_ap n_sp n_ac]. assert (N : forall q, precs P a q -> ~ same_var V q e) by (intros q Hq Sq; apply (Hp q); [apply in_interval; now apply SV|now apply PR]).
    assert (SO : sp_of a e) by (split; auto; intros (q & Q1 & Q2); eapply N; eauto).
    split; [|split]; intros f b; split; cbn [In]; auto.
    + intros [H|(_ & _ & _ & q & Q1 & Q2 & _)]; auto. elim (N q Q1 Q2).
    + intros [H|H]; [injection H as <- <-; auto|auto].
    + intros [H|(-> & -> & _)]; auto.
    + intros [H|(_ & Q1 & Q2 & _)]; auto. elim (N f Q1 Q2).
Qed.

Lemma nc_act_exact a x y : a < na -> nc_act P V x a = Some y ->
  (forall f b, In (f, b) (n_ap y) <-> In (f, b) (n_ap x) \/ (b = a /\ ap_of a f)) /\
  (forall f b, In (f, b) (n_sp y) <-> In (f, b) (n_sp x) \/ (b = a /\ sp_of a f)) /\
  (forall f b, In (f, b) (n_ac y) <-> In (f, b) (n_ac x) \/ (b = a /\ ac_of a f)).
Proof.
  intros La E. unfold nc_act in E. apply obind_some in E as (l & El & E). unfold get in El.
  assert (G : forall l', (forall e, In e l' -> adds P a e) -> forall x y, ofold (nc_eff P V a) l' x = Some y ->
    (forall f b, In (f, b) (n_ap y) <-> In (f, b) (n_ap x) \/ (b = a /\ In f l' /\ ap_of a f)) /\
    (forall f b, In (f, b) (n_sp y) <-> In (f, b) (n_sp x) \/ (b = a /\ In f l' /\ sp_of a f)) /\
    (forall f b, In (f, b) (n_ac y) <-> In (f, b) (n_ac x) \/ (b = a /\ precs P a f /\ exists e, In e l' /\ same_var V f e /\ f <> e))).
  { clear E x y. induction l' as [|e l' IH]; intros HA x y E; cbn [ofold] in E.
    - injection E as <-. split; [|split]; intros f b; split; auto; intros [H|H]; auto; [destruct H as (_ & [] & _)|destruct H as (_ & [] & _)|destruct H as (_ & _ & e & [] & _)].
    - apply obind_some in E as (x1 & E1 & E). destruct (nc_eff_exact a x e x1 La (HA e (or_introl eq_refl)) E1) as (A1 & A2 & A3).
      destruct (IH (fun e' H => HA e' (or_intror H)) x1 y E) as (B1 & B2 & B3). split; [|split]; intros f b.
      + rewrite B1, A1. cbn [In]. split; [intros [[H|(-> & -> & H)]|(-> & H1 & H2)]; auto 8|intros [H|(-> & [->|H1] & H2)]; auto 8].
      + rewrite B2, A2. cbn [In]. split; [intros [[H|(-> & -> & H)]|(-> & H1 & H2)]; auto 8|intros [H|(-> & [->|H1] & H2)]; auto 8].
      + rewrite B3, A3. split.
        * intros [[H|(-> & H1 & H2 & H3)]|(-> & H1 & e' & H2 & H3)]; [now left| |]; right; (split; [reflexivity|]); (split; [assumption|]).
          -- exists e. split; [now left|auto].
          -- exists e'. split; [now right|auto].
        * intros [H|(-> & H1 & e' & [<-|H2] & H3)]; [now left; left|left; right; tauto|right; split; [reflexivity|]; split; [assumption|]; exists e'; auto]. }
  destruct (G l (fun e H => ex_intro _ l (conj El H)) x y E) as (A1 & A2 & A3).
  assert (IL : forall f, adds P a f <-> In f l) by (intros f; split; [intros (l' & El' & Il'); congruence|intros H; exists l; auto]).
  split; [|split]; intros f b.
  - rewrite A1. split; [intros [H|(H1 & H2 & H3)]; auto|intros [H|(H1 & H2)]; auto]. right. split; auto. split; auto. apply IL, H2.
  - rewrite A2. split; [intros [H|(H1 & H2 & H3)]; auto|intros [H|(H1 & H2)]; auto]. right. split; auto. split; auto. apply IL, H2.
  - rewrite A3. unfold ac_of. split; (intros [H|(H1 & H2 & e & H3 & H4)]; [auto|]; right; split; auto; split; auto; exists e; split; auto; now apply IL).
Qed.

Lemma nc_tables_exact x : nc_tables P V = Some x ->
  (forall f a, In (f, a) (n_ap x) <-> a < na /\ ap_of a f) /\ (forall f a, In (f, a) (n_sp x) <-> a < na /\ sp_of a f) /\ (forall f a, In (f, a) (n_ac x) <-> a < na /\ ac_of a f).
Proof.
  unfold nc_tables. destruct (forallb _ V); [|discriminate]. intros E.
  assert (G : forall l, (forall a, In a l -> a < na) -> forall x y, ofold (nc_act P V) l x = Some y ->
    (forall f b, In (f, b) (n_ap y) <-> In (f, b) (n_ap x) \/ (In b l /\ ap_of b f)) /\
    (forall f b, In (f, b) (n_sp y) <-> In (f, b) (n_sp x) \/ (In b l /\ sp_of b f)) /\
    (forall f b, In (f, b) (n_ac y) <-> In (f, b) (n_ac x) \/ (In b l /\ ac_of b f))).
  { clear E x. induction l as [|a l IH]; intros HA x y E; cbn [ofold] in E.
    - injection E as <-. split; [|split]; intros f b; split; auto; intros [H|[[] _]]; auto.
    - apply obind_some in E as (x1 & E1 & E). destruct (nc_act_exact a x x1 (HA a (or_introl eq_refl)) E1) as (A1 & A2 & A3).
      destruct (IH (fun e' H => HA e' (or_intror H)) x1 y E) as (B1 & B2 & B3). split; [|split]; intros f b; [rewrite B1, A1|rewrite B2, A2|rewrite B3, A3]; cbn [In];
      (split; [intros [[H|(-> & H)]|(H1 & H2)]; auto 8|intros [H|([->|H1] & H2)]; auto 8]). }
  destruct (G (seq 0 na)) with (x := {| n_ap := []; n_sp := []; n_ac := [] |}) (y := x) as (A1 & A2 & A3); auto; [intros a Ha; apply in_seq in Ha; lia|].
  assert (S0 : forall a, In a (seq 0 na) <-> a < na) by (intros a; rewrite in_seq; lia).
  split; [|split]; intros f b; [rewrite A1|rewrite A2|rewrite A3]; cbn [n_ap n_sp n_ac In]; rewrite S0; tauto.
Qed.
End Exact.

Lemma value_app x a b : Qeq (value x (a ++ b)) (value x a + value x b).
Proof. induction a as [|[c v] a IH]; cbn [app value fold_right]; [now rewrite Qplus_0_l|]. fold (value x (a ++ b)). fold (value x a). rewrite IH. now rewrite Qplus_assoc. Qed.
Lemma value_neg x (l : list nat) : Qeq (value x (map (fun a => ((-1)%Z, UA a)) l)) (- value x (map (fun a => (1%Z, UA a)) l)).
Proof.
  induction l as [|a l IH]; cbn [map value fold_right]; [reflexivity|]. fold (value x (map (fun a => ((-1)%Z, UA a)) l)). fold (value x (map (fun a => (1%Z, UA a)) l)). rewrite IH.
  rewrite Qopp_plus. apply Qplus_comp; [|reflexivity]. change (inject_Z (-1)) with (- inject_Z 1)%Q. unfold inject_Z. ring.
Qed.
Lemma in_row na l f a : In a (row na l f) <-> a < na /\ In (f, a) l.
Proof.
  unfold row. rewrite filter_In, in_seq, existsb_exists. split.
  - intros [H ([g b] & I & E)]. apply andb_true_iff in E as [E1 E2]. apply Nat.eqb_eq in E1, E2. subst. split; [lia|auto].
  - intros [H I]. split; [lia|]. exists (f, a). split; auto. now rewrite !Nat.eqb_refl.
Qed.
Lemma nodup_row na l f : NoDup (row na l f).
Proof. apply NoDup_filter, seq_NoDup. Qed.
Lemma nodup_app2 (a b : list nat) : NoDup a -> NoDup b -> (forall x, In x a -> ~ In x b) -> NoDup (a ++ b).
Proof. induction 1 as [|x a N _ IH]; intros B D; cbn [app]; auto. constructor; [|apply IH; auto; intros y Hy; apply D; now right]. rewrite in_app_iff. intros [H|H]; [auto|]. apply (D x); auto. now left. Qed.

Lemma net_enforced P V r s C o cs lms J ip x f : wf_problem P -> vars_ok P V -> sas_form P V -> ascending (map Z.of_nat (p_goal P)) -> o_net o = true ->
  dof_ilp P V o r s C cs lms = Some J -> feasible ip J x -> f < p_nfacts P -> useful r f = true -> ~ holds s f ->
  exists Pr Co, NoDup Pr /\ NoDup Co /\
    (forall a, In a Pr <-> a < length (p_cost P) /\ taskReachable r a = true /\ adds P a f /\ ~ precs P a f) /\
    (forall a, In a Co <-> a < length (p_cost P) /\ taskReachable r a = true /\ precs P a f /\ exists e, adds P a e /\ same_var V f e /\ f <> e) /\
    (forall g, (g = 1%Z /\ In f (p_goal P)) \/ (g = 0%Z /\ ~ In f (p_goal P)) -> Qle (value x (map (fun a => (1%Z, UA a)) Co) + inject_Z g) (value x (map (fun a => (1%Z, UA a)) Pr))).
Proof.
  intros WP VO SF AG ON EJ (_ & _ & F3) Lf Uf Nf. unfold dof_ilp in EJ. apply obind_some in EJ as (vs & E1 & E). apply obind_some in E as (ob & E2 & E). apply obind_some in E as (pc & E3 & E). apply obind_some in E as (hc & E4 & E).
  apply obind_some in E as (lc & E5 & E). apply obind_some in E as (nc & E6 & E). injection E as <-. cbn [i_cons] in F3. unfold net_cons in E6. rewrite ON in E6. apply obind_some in E6 as (t & Et & E6).
  destruct (nc_tables_exact P V WP VO SF t Et) as (A1 & A2 & A3).
  destruct (containsInt_exact (p_goal P) f AG) as (b & Eb & Hb).
  assert (K : exists l, net_con P V r s t f = Some l).
  { clear -E6 Lf. unfold oflat in E6. apply obind_some in E6 as (ls & E6 & _). assert (I : In f (seq 0 (p_nfacts P))) by (apply in_seq; lia). revert ls E6 I. induction (seq 0 (p_nfacts P)) as [|g l IH]; intros ls E I; [easy|].
    cbn [omap] in E. apply obind_some in E as (y & Ey & E). apply obind_some in E as (ys & Eys & E). destruct I as [->|I]; eauto. }
  destruct K as (l & El). pose proof El as El0. unfold net_con in El. rewrite Uf in El. cbn [negb] in El. rewrite map_length, Eb in El. cbn [obind] in El. apply obind_some in El as (v & _ & El). apply obind_some in El as (h & Eh & El).
  assert (h = false) by (destruct h; auto; elim Nf; exact Eh). subst h. cbv zeta in El. injection El as El.
  set (n := length (p_cost P)) in *. pose (rp := filter (taskReachable r) (row n (n_ap t) f)). pose (rs := filter (taskReachable r) (row n (n_sp t) f)). pose (rc := filter (taskReachable r) (row n (n_ac t) f)).
  exists (rp ++ rs), rc.
  assert (IP : forall a, In a rp <-> a < n /\ taskReachable r a = true /\ ap_of P V a f) by (intros a; unfold rp; rewrite filter_In, in_row, A1; fold n; tauto).
  assert (IS : forall a, In a rs <-> a < n /\ taskReachable r a = true /\ sp_of P V a f) by (intros a; unfold rs; rewrite filter_In, in_row, A2; fold n; tauto).
  assert (SFf : same_var V f f) by (destruct (vo_cover _ _ VO f Lf) as (fi & la & I & H); exists fi, la; auto).
  split; [|split; [|split; [|split]]].
  - apply nodup_app2; [apply NoDup_filter, nodup_row|apply NoDup_filter, nodup_row|]. intros a H1 H2. apply IP in H1 as (_ & _ & _ & p & Q1 & Q2 & _). apply IS in H2 as (_ & _ & _ & N). apply N. eauto.
  - apply NoDup_filter, nodup_row.
  - intros a. rewrite in_app_iff, IP, IS. split.
    + intros [(La & Ra & Ad & p & Q1 & Q2 & Q3)|(La & Ra & Ad & N)]; (split; [auto|]); (split; [auto|]); (split; [auto|]); intros Pf.
      * apply Q3. apply (sf_unique _ _ SF a); auto.
      * apply N. eauto.
    + intros (La & Ra & Ad & Np). destruct (prec_in_exact (match nth_error (p_prec P) a with Some l => l | None => [] end) (match var_of V f with Some (fi, la) => seq fi (S la - fi) | None => [] end)) as (p & _ & Hp).
      { destruct (nth_error (p_prec P) a) eqn:Q; [apply (sf_sorted _ _ SF); eapply nth_error_In; eauto|constructor]. }
      destruct (var_of_ok P V VO f Lf) as (fi & la & EV & IV & LV). rewrite EV in Hp. destruct p as [p|].
      * left. split; auto. split; auto. split; auto. destruct Hp as [H1 H2]. apply in_interval in H1. exists p. destruct (nth_error (p_prec P) a) as [lp|] eqn:Q; [|easy]. assert (PP : precs P a p) by (exists lp; auto).
        split; auto. split; [exists fi, la; auto|]. intros ->. auto.
      * right. split; auto. split; auto. split; auto. intros (p & (lp & Elp & Ip) & (fi' & la' & I' & Q1 & Q2)). assert (X := sf_one _ _ SF (fi', la') (fi, la) f I' IV Q2 LV). injection X as -> ->.
        rewrite Elp in Hp. apply (Hp p); auto. now apply in_interval.
  - intros a. unfold rc. rewrite filter_In, in_row, A3. fold n. unfold ac_of. tauto.
  - intros g Hg. assert (S1 : sat x {| l_terms := map (fun a => (1%Z, UA a)) rp ++ map (fun a => (1%Z, UA a)) rs ++ map (fun a => ((-1)%Z, UA a)) rc; l_rel := GE; l_rhs := g |}).
    { apply F3. rewrite !in_app_iff. right. right. right. right. apply (oflat_some _ _ _ E6). exists f, l. split; [apply in_seq; lia|]. split; auto. rewrite <- El. left. unfold rp, rs, rc.
      destruct b, Hg as [[-> Hg]|[-> Hg]]; try reflexivity; exfalso; [apply Hg, Hb; reflexivity|apply Hb in Hg; discriminate]. }
    unfold sat in S1. cbn [l_rel l_rhs l_terms] in S1. rewrite !value_app, value_neg in S1. rewrite map_app, value_app.
    set (X := value x (map (fun a => (1%Z, UA a)) rp)) in *. set (Y := value x (map (fun a => (1%Z, UA a)) rs)) in *. set (Z := value x (map (fun a => (1%Z, UA a)) rc)) in *. clearbody X Y Z. clear -S1.
    rewrite Qplus_comm. apply (Qplus_le_l _ _ Z) in S1. setoid_replace (X + (Y + - Z) + Z)%Q with (X + Y)%Q in S1 by ring. exact S1.
Qed.
