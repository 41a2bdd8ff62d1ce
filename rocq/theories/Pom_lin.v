(** From placements to plans and back. *)
From Coq Require Import ZArith Lia Relation_Operators Operators_Properties.
From Verif Require Import Base Htn_problem Htn_spec Sat_model Sat_spec Sat_proof Sf_model Sf_spec Sf_proof Posog_model Posog_spec Posog_order Pom_model Pom_spec Pom_proof.

Local Open Scope Z_scope.

Lemma seq_nth_error n : forall b i, (i < n)%nat -> nth_error (seq b n) i = Some (b + i)%nat.
Proof. induction n as [|n IH]; intros b [|i] H; cbn; try lia; [f_equal; lia|]. rewrite IH by lia. f_equal. lia. Qed.

(** ** The action variables of the positions *)
Section Atoms.
Variables (P : problem) (uord : list nat -> list nat).
Hypothesis LA : length (p_add P) = length (p_cost P).
Hypothesis LD : length (p_del P) = length (p_cost P).
Hypothesis UO : set_order uord.

Lemma leaf_effect_iff l e : leaf_effect P l = Some e -> (fst e = true <-> effect_leaf P l).
Proof.
  intros E. unfold leaf_effect in E. apply obind_some in E as (bs & Eb & E). apply some_eq in E. subst e. cbn [fst]. apply omap_some in Eb. rewrite existsb_exists. split.
  - intros (b & Ib & ->). destruct (forall2_in_r _ _ _ _ Eb Ib) as ([x a] & Ix & Q). cbn [snd] in Q. exists x, a. split; auto. now apply (eff_some P LA LD a true).
  - intros (x & a & I & H). destruct (forall2_in_l _ _ _ _ Eb I) as (b & Ib & Q). cbn [snd] in Q. exists b. split; auto. now apply (eff_some P LA LD a b).
Qed.

Lemma atoms_ok sep nv leafs effs vars nv1 : 0 <= nv -> (forall l x a, In l leafs -> In (x, a) l -> (a < length (p_cost P))%nat) ->
  partial_atoms P uord sep nv leafs = Some (effs, vars, nv1) ->
  nv <= nv1 /\ length effs = length leafs /\
  (forall l lf, nth_error leafs l = Some lf -> (nth l effs false = true <-> effect_leaf P lf)) /\
  length vars = Nat.max 1 (length (filter (fun b => b) effs)) /\
  (forall acts, In acts vars -> NoDup (map snd acts)) /\
  (forall acts a, In acts vars -> (In a (map snd acts) <-> exists l x, In l leafs /\ In (x, a) l)) /\
  (forall acts x a, In acts vars -> In (x, a) acts -> nv + 1 <= x <= nv1) /\
  (forall p q acts acts' x a b, nth_error vars p = Some acts -> nth_error vars q = Some acts' -> In (x, a) acts -> In (x, b) acts' -> p = q /\ a = b).
Proof.
  intros NV AC E. unfold partial_atoms in E. apply obind_some in E as (es & Ee & E). destruct (sep && existsb (fun e => fst e && snd e) es); [discriminate|]. cbv zeta in E. apply some_eq in E.
  apply pair_equal_spec in E as [E E3]. apply pair_equal_spec in E as [E1 E2]. apply omap_some in Ee.
  set (acts := uord (flat_map (map snd) leafs)) in *. set (k := length acts) in *. set (st := Nat.max 1 (length (filter (fun b => b) (map fst es)))) in *.
  destruct (UO (flat_map (map snd) leafs)) as [UN UI]. fold acts in UN, UI.
  assert (LE : length es = length leafs). { clear - Ee. induction Ee; cbn; auto. }
  assert (IN : forall t x a, (t < st)%nat -> In (x, a) (map (fun x : nat * nat => (nv + 1 + Z.of_nat (t * k + fst x), snd x)) (combine (seq 0 k) acts)) ->
     exists i, nth_error acts i = Some a /\ x = nv + 1 + Z.of_nat (t * k + i) /\ (i < k)%nat).
  { intros t x a Lt I. apply in_map_iff in I as ([i b] & Q & I). apply in_enum in I. cbn [fst snd] in Q. apply pair_equal_spec in Q as [<- <-]. exists i. split; auto. split; auto. eapply nth_lt; eauto. }
  assert (SN : forall t, map snd (map (fun x : nat * nat => (nv + 1 + Z.of_nat (t * k + fst x), snd x)) (combine (seq 0 k) acts)) = acts).
  { intros t. rewrite map_map. cbn [snd]. clear. unfold k. generalize 0%nat as b. induction acts as [|a l IH]; intros b; cbn; auto. f_equal. apply IH. }
  assert (VV : forall p ac, nth_error vars p = Some ac -> (p < st)%nat /\ ac = map (fun x : nat * nat => (nv + 1 + Z.of_nat (p * k + fst x), snd x)) (combine (seq 0 k) acts)).
  { intros p ac G. assert (L := nth_lt _ _ _ G). subst vars. rewrite map_length, seq_length in L. split; auto. rewrite nth_error_map in G. rewrite seq_nth_error in G by lia. cbn in G. congruence. }
  subst effs nv1.
  split; [lia|]. split; [now rewrite map_length|]. split; [|split; [|split; [|split; [|split]]]].
  - intros l lf G. destruct (nth_error es l) as [e|] eqn:Ge; [|apply nth_error_None in Ge; apply nth_lt in G; lia].
    assert (Q : leaf_effect P lf = Some e). { clear - Ee G Ge. revert l G Ge. induction Ee as [|a b r s H F IH]; intros [|l] G Ge; try discriminate; cbn in G, Ge; [congruence|eauto]. }
    rewrite (nth_error_nth (map fst es) l false (x := fst e)); [now apply leaf_effect_iff|]. rewrite nth_error_map, Ge. reflexivity.
  - subst vars. now rewrite map_length, seq_length.
  - intros ac I. apply In_nth_error in I as (p & G). destruct (VV p ac G) as [_ ->]. now rewrite SN.
  - intros ac a I. apply In_nth_error in I as (p & G). destruct (VV p ac G) as [_ ->]. rewrite SN, UI, in_flat_map. split.
    + intros (l & Il & I). apply in_map_iff in I as ([x b] & <- & I). eauto.
    + intros (l & x & Il & I). exists l. split; auto. apply in_map_iff. now exists (x, a).
  - intros ac x a I Ix. apply In_nth_error in I as (p & G). destruct (VV p ac G) as [Lp ->]. destruct (IN p x a Lp Ix) as (i & _ & -> & Li). assert (p * k + i < st * k)%nat by nia. lia.
  - intros p q ac ac' x a b G G' I I'. destruct (VV p ac G) as [Lp ->], (VV q ac' G') as [Lq ->]. destruct (IN p x a Lp I) as (i & Gi & -> & Li). destruct (IN q _ b Lq I') as (j & Gj & Q & Lj).
    assert (E : (p * k + i = q * k + j)%nat) by lia. assert (p = q) by nia. subst q. assert (i = j) by lia. subst j. split; congruence.
Qed.
Lemma atoms_defined nv leafs : (forall l x a, In l leafs -> In (x, a) l -> (a < length (p_cost P))%nat) -> exists r, partial_atoms P uord false nv leafs = Some r.
Proof.
  intros AC. unfold partial_atoms. destruct (omap_ok (leaf_effect P) leafs) as (es & ->); [|cbn; eauto].
  intros l Il. unfold leaf_effect. destruct (omap_ok (fun x => has_effect P (snd x)) l) as (bs & ->); [|cbn; eauto]. intros [x a] I. cbn [snd].
  destruct (eff_iff P LA LD a (AC l x a Il I)) as (e & -> & _). eauto.
Qed.
End Atoms.

(** ** Sorting *)
Section Sort.
Variable key : nat -> nat.
Fixpoint sinsert (x : nat) (l : list nat) : list nat :=
  match l with [] => [x] | y :: r => if Nat.leb (key x) (key y) then x :: l else y :: sinsert x r end.
Fixpoint isort (l : list nat) : list nat := match l with [] => [] | x :: r => sinsert x (isort r) end.
Lemma sinsert_in x l y : In y (sinsert x l) <-> x = y \/ In y l.
Proof. induction l as [|z l IH]; cbn; [tauto|]. destruct (Nat.leb (key x) (key z)); cbn; [tauto|]. rewrite IH. tauto. Qed.
Lemma isort_in l y : In y (isort l) <-> In y l.
Proof. induction l as [|z l IH]; cbn; [tauto|]. rewrite sinsert_in, IH. tauto. Qed.
Lemma sinsert_nodup x l : ~ In x l -> NoDup l -> NoDup (sinsert x l).
Proof.
  intros NI N. induction N as [|y l Ny N IH]; cbn; [constructor; [intros []|constructor]|]. destruct (Nat.leb (key x) (key y)).
  - constructor; auto. constructor; auto.
  - constructor; [|apply IH; intros I; apply NI; now right]. rewrite sinsert_in. intros [->|I]; [apply NI; now left|auto].
Qed.
Lemma isort_nodup l : NoDup l -> NoDup (isort l).
Proof. induction 1 as [|x l Nx N IH]; cbn; [constructor|]. apply sinsert_nodup; auto. now rewrite isort_in. Qed.
Lemma isort_sorted l : ForallOrdPairs (fun x y => (key x <= key y)%nat) (isort l).
Proof.
  induction l as [|x l IH]; cbn; [constructor|]. revert IH. generalize (isort l) as r. clear l. intros r. induction 1 as [|y r FA FO IH]; cbn.
  - repeat constructor.
  - rewrite Forall_forall in FA. destruct (Nat.leb_spec (key x) (key y)).
    + constructor; [|constructor; [apply Forall_forall; auto|auto]]. apply Forall_forall. intros z [<-|Iz]; auto. specialize (FA z Iz). lia.
    + constructor; auto. apply Forall_forall. intros z Iz. apply sinsert_in in Iz as [->|Iz]; [lia|auto].
Qed.
End Sort.

Lemma fop_flat_map {A B} (R : B -> B -> Prop) (f : A -> list B) l : ForallOrdPairs (fun i j => forall a b, In a (f i) -> In b (f j) -> R a b) l ->
  (forall i, In i l -> ForallOrdPairs R (f i)) -> ForallOrdPairs R (flat_map f l).
Proof.
  induction 1 as [|i r FA FO IH]; intros H; cbn; [constructor|]. apply fop_app; [apply H; now left|apply IH; intros j Hj; apply H; now right|].
  intros a b Ha Hb. apply in_flat_map in Hb as (j & Hj & Hb). rewrite Forall_forall in FA. eauto.
Qed.
Lemma nodup_flat_map {A B} (f : A -> list B) l : NoDup l -> (forall i, In i l -> NoDup (f i)) -> (forall i j b, In i l -> In j l -> In b (f i) -> In b (f j) -> i = j) -> NoDup (flat_map f l).
Proof.
  induction 1 as [|i r Ni N IH]; intros H D; cbn; [constructor|]. apply nodup_app_iff. split; [apply H; now left|]. split.
  - apply IH; [intros j Hj; apply H; now right|]. intros j k b Hj Hk. apply D; now right.
  - intros b Hb Hb'. apply in_flat_map in Hb' as (j & Hj & Hb'). assert (i = j) by (apply (D i j b); auto; [now left|now right]). now subst.
Qed.
Lemma fop_impl {A} (R Q : A -> A -> Prop) l : (forall a b, In a l -> In b l -> R a b -> Q a b) -> ForallOrdPairs R l -> ForallOrdPairs Q l.
Proof.
  intros H F. induction F as [|a r FA FO IH]; constructor.
  - rewrite Forall_forall in *. intros b Hb. apply H; [now left|now right|auto].
  - apply IH. intros x y Hx Hy. apply H; now right.
Qed.

(** ** Executing placed leafs *)
Section Sound.
Variable P : problem.
Hypothesis WF : wf_problem P.
Variables (leafs : list pleaf) (adj : list (list nat)) (vars : list leaf) (v : assignment) (pl : nat -> option nat).
Hypothesis PL : placement P v leafs adj vars pl.
Hypothesis OC : one_chosen v leafs.
Variable ST : nat -> state.
Hypothesis STP : forall p acts, nth_error vars p = Some acts -> step_rel P (ST p) (ST (S p)) (chosen_at v acts).
Variable effs : list bool.
Hypothesis EF : forall l lf, nth_error leafs l = Some lf -> (nth l effs false = true <-> effect_leaf P lf).
Notation m := (length vars).
Notation same := (Sf_proof.same P).

Lemma chosen_happens acts a : In a (chosen_at v acts) <-> happens v acts a.
Proof. rewrite in_chosen. reflexivity. Qed.

(** [l] is an active leaf that may change the state *)
Definition mover (l : nat) : Prop := exists lf, nth_error leafs l = Some lf /\ active v lf /\ effect_leaf P lf.

Lemma quiet p : (p < m)%nat -> (forall l, mover l -> pl l <> Some p) -> same (ST p) (ST (S p)).
Proof.
  intros Lp NM. destruct (nth_error vars p) as [acts|] eqn:G; [|apply nth_error_None in G; lia]. destruct (STP p acts G) as [S1 S2 S3 S4 S5].
  assert (NE : forall a, In a (chosen_at v acts) -> ~ effectful P a).
  { intros a I He. apply chosen_happens in I. destruct (pl_caused _ _ _ _ _ _ PL p acts a G He I) as (l & lf & Gl & HE & Q). apply (NM l); auto. exists lf. split; auto. split; auto.
    exists a. eapply (pl_down _ _ _ _ _ _ PL); eauto. }
  intros f Lf. split; intros H.
  - destruct (S5 f Lf H) as [Q|(a & I & D)]; auto. destruct (NE a I). exists f. auto.
  - destruct (S4 f Lf H) as [Q|(a & I & D)]; auto. destruct (NE a I). exists f. auto.
Qed.
Lemma quiet_to t p : (t <= p)%nat -> (p <= m)%nat -> (forall l q, mover l -> pl l = Some q -> (t <= q)%nat -> (p <= q)%nat) -> same (ST t) (ST p).
Proof.
  intros Ltp Lp H. induction Ltp as [|p Ltp IH]; [intros f _; reflexivity|]. eapply same_trans; [apply IH; [lia|]|apply quiet; [lia|]].
  - intros l q M Q Lq. specialize (H l q M Q Lq). lia.
  - intros l M Q. specialize (H l p M Q Ltp). lia.
Qed.

(** the order in which leafs may be executed *)
Definition in_place (l k : nat) : Prop := exists p q, pl l = Some p /\ pl k = Some q /\ ((p < q)%nat \/ (p = q /\ forall lf, nth_error leafs l = Some lf -> ~ effect_leaf P lf)).

Lemma exec_sorted : forall ls plan, plan_of v leafs ls plan -> (forall l, In l ls -> exists lf, nth_error leafs l = Some lf /\ active v lf) -> ForallOrdPairs in_place ls ->
  forall t s, (t <= m)%nat -> same s (ST t) -> (forall l p, In l ls -> pl l = Some p -> (t <= p)%nat) -> (forall l p, mover l -> pl l = Some p -> (t <= p)%nat -> In l ls) ->
  executable P s plan /\ same (after P s plan) (ST m).
Proof.
  induction ls as [|l ls IH]; intros plan PO AC FO t s Lt SS GE MV; inversion PO as [|? a ? plan' (lf & G & O) PO']; subst; cbn [executable after].
  - split; auto. eapply same_trans; [exact SS|]. apply quiet_to; auto. intros l q M Q Lq. destruct (MV l q M Q Lq).
  - inversion FO as [|? ? FA FO']; subst. rewrite Forall_forall in FA.
    assert (ACL : active v lf) by (exists a; auto). assert (Q := pl_all _ _ _ _ _ _ PL l lf G ACL). destruct (pl l) as [p|] eqn:QP; [|congruence]. clear Q.
    destruct (pl_rng _ _ _ _ _ _ PL l p QP) as [_ Lp]. change (p < m)%nat in Lp. assert (Ltp := GE l p (or_introl eq_refl) QP).
    assert (SP : same s (ST p)).
    { eapply same_trans; [exact SS|]. apply quiet_to; [auto|lia|]. intros k q M Q Lq. destruct (MV k q M Q Lq) as [<-|I]; [assert (p = q) by congruence; lia|].
      destruct (FA k I) as (p' & q' & P1 & P2 & P3). assert (p' = p) by congruence. assert (q' = q) by congruence. destruct P3 as [P3|[P3 _]]; lia. }
    destruct (nth_error vars p) as [acts|] eqn:Gp; [|apply nth_error_None in Gp; lia]. assert (HA := pl_up _ _ _ _ _ _ PL l lf p acts a G QP Gp O).
    assert (Ia := proj2 (chosen_happens acts a) HA). assert (STp := STP p acts Gp). destruct STp as [S1 S2 S3 S4 S5].
    assert (AP : applicable P s a). { intros f Hf. apply SP; [apply (fact_lt P WF a f); auto|]. now apply (S1 a Ia). }
    assert (AC' : forall k, In k ls -> exists kf, nth_error leafs k = Some kf /\ active v kf) by (intros k Hk; apply AC; now right).
    destruct (nth l effs false) eqn:EL.
    + apply (EF l lf G) in EL.
      assert (OT : forall b, In b (chosen_at v acts) -> effectful P b -> b = a).
      { intros b Ib Hb. apply chosen_happens in Ib. assert (Q := pl_down _ _ _ _ _ _ PL l lf p acts b G EL QP Gp Hb Ib). exact (OC lf b a (nth_error_In _ _ G) Q O). }
      assert (RS : same (result P s a) (ST (S p))).
      { intros f Lf. unfold result. split.
        - intros [A|[H D]]; [now apply (S2 a)|]. apply SP in H; auto. destruct (S5 f Lf H) as [Q|(b & Ib & Hb)]; auto. rewrite (OT b Ib) in Hb; [contradiction|exists f; auto].
        - intros H. destruct (dels_dec P a f) as [D|D]; [now destruct (S3 a f Ia D)|]. destruct (S4 f Lf H) as [Q|(b & Ib & Hb)]; [right; split; auto; now apply SP|].
          left. rewrite (OT b Ib) in Hb; [auto|exists f; auto]. }
      destruct (IH plan' PO' AC' FO' (S p) (result P s a)) as [E1 E2]; auto.
      * intros k q Ik Qk. destruct (FA k Ik) as (p' & q' & P1 & P2 & P3). assert (p' = p) by congruence. assert (q' = q) by congruence. destruct P3 as [P3|[_ P3]]; [lia|]. now destruct (P3 lf G).
      * intros k q M Q Lq. destruct (MV k q M Q ltac:(lia)) as [<-|I]; auto. assert (p = q) by congruence. lia.
    + assert (NE : ~ effect_leaf P lf). { intros Q. apply (EF l lf G) in Q. congruence. }
      assert (NA : ~ effectful P a). { intros Q. apply NE. destruct O as (x & I & _). exists (Some x), a. auto. }
      assert (RS : same (result P s a) (ST p)).
      { intros f Lf. unfold result. rewrite <- (SP f Lf). split; [intros [A|[H D]]; auto; destruct NA; exists f; auto|]. intros H. right. split; auto. intros D. apply NA. exists f. auto. }
      destruct (IH plan' PO' AC' FO' p (result P s a)) as [E1 E2]; auto; [lia| |].
      * intros k q Ik Qk. destruct (FA k Ik) as (p' & q' & P1 & P2 & P3). assert (p' = p) by congruence. assert (q' = q) by congruence. destruct P3 as [P3|[P3 _]]; lia.
      * intros k q M Q Lq. destruct (MV k q M Q ltac:(lia)) as [<-|I]; auto. destruct M as (lf' & G' & _ & HE). assert (lf' = lf) by congruence. now subst.
Qed.

(** the active leafs, position by position, those without effects first, in the order of the numbers of their predecessors *)
Variable pb : nat -> nat -> bool.
Hypothesis PB : forall x y, pb x y = true <-> precedes adj x y.
Hypothesis DG : dag adj.
Hypothesis EL : effects_last P leafs adj.
Notation n := (length leafs).
Definition preds (l : nat) : nat := length (filter (fun k => pb k l) (seq 0 n)).
Definition at_pos (p : nat) (l : nat) : bool := match pl l with Some q => Nat.eqb p q | None => false end && activeb v (nth l leafs []).
Definition plain_at (p : nat) : list nat := isort preds (filter (fun l => at_pos p l && negb (nth l effs false)) (seq 0 n)).
Definition moving_at (p : nat) : list nat := filter (fun l => at_pos p l && nth l effs false) (seq 0 n).
Definition sorted_leafs : list nat := flat_map (fun p => plain_at p ++ moving_at p) (seq 0 m).

Lemma at_pos_iff p l : (l < n)%nat -> at_pos p l = true <-> exists lf, nth_error leafs l = Some lf /\ active v lf /\ pl l = Some p.
Proof.
  intros Ll. unfold at_pos. destruct (nth_error leafs l) as [lf|] eqn:G; [|apply nth_error_None in G; lia]. rewrite (nth_error_nth leafs l [] G). rewrite andb_true_iff, activeb_iff. split.
  - intros [H A]. destruct (pl l) as [q|]; [|discriminate]. apply Nat.eqb_eq in H. subst. eauto.
  - intros (lf' & Q & A & H). rewrite H, Nat.eqb_refl. split; auto. congruence.
Qed.
Lemma in_plain p l : In l (plain_at p) <-> exists lf, nth_error leafs l = Some lf /\ active v lf /\ pl l = Some p /\ ~ effect_leaf P lf.
Proof.
  unfold plain_at. rewrite isort_in, filter_In, in_seq, andb_true_iff, negb_true_iff. split.
  - intros (Ll & A & E). apply at_pos_iff in A as (lf & G & A & Q); [|lia]. exists lf. split; auto. split; auto. split; auto. intros HE. apply (EF l lf G) in HE. congruence.
  - intros (lf & G & A & Q & HE). assert (Ll : (l < n)%nat) by (eapply nth_lt; eauto). split; [lia|]. split; [apply at_pos_iff; eauto|]. apply not_true_is_false. intros H. now apply (EF l lf G) in H.
Qed.
Lemma in_moving p l : In l (moving_at p) <-> exists lf, nth_error leafs l = Some lf /\ active v lf /\ pl l = Some p /\ effect_leaf P lf.
Proof.
  unfold moving_at. rewrite filter_In, in_seq, andb_true_iff. split.
  - intros (Ll & A & E). apply at_pos_iff in A as (lf & G & A & Q); [|lia]. exists lf. split; auto. split; auto. split; auto. now apply (EF l lf G).
  - intros (lf & G & A & Q & HE). assert (Ll : (l < n)%nat) by (eapply nth_lt; eauto). split; [lia|]. split; [apply at_pos_iff; eauto|]. now apply (EF l lf G).
Qed.
Lemma in_sorted l : In l sorted_leafs <-> exists lf, nth_error leafs l = Some lf /\ active v lf.
Proof.
  unfold sorted_leafs. rewrite in_flat_map. split.
  - intros (p & _ & I). apply in_app_or in I as [I|I]; [apply in_plain in I as (lf & G & A & _)|apply in_moving in I as (lf & G & A & _)]; eauto.
  - intros (lf & G & A). assert (Q := pl_all _ _ _ _ _ _ PL l lf G A). destruct (pl l) as [p|] eqn:QP; [|congruence]. destruct (pl_rng _ _ _ _ _ _ PL l p QP) as [_ Lp]. change (p < m)%nat in Lp.
    exists p. split; [apply in_seq; lia|]. apply in_or_app. destruct (nth l effs false) eqn:E.
    + right. apply in_moving. exists lf. repeat (split; [assumption|]). now apply (EF l lf G).
    + left. apply in_plain. exists lf. repeat (split; [assumption|]). intros HE. apply (EF l lf G) in HE. congruence.
Qed.
Lemma at_plain_moving p l : In l (plain_at p ++ moving_at p) -> pl l = Some p.
Proof. intros I. apply in_app_or in I as [I|I]; [apply in_plain in I as (lf & _ & _ & Q & _)|apply in_moving in I as (lf & _ & _ & Q & _)]; auto. Qed.
Lemma moving_nodup p : NoDup (moving_at p).
Proof. apply NoDup_filter, seq_NoDup. Qed.
Lemma sorted_nodup : NoDup sorted_leafs.
Proof.
  unfold sorted_leafs. apply nodup_flat_map.
  - apply seq_NoDup.
  - intros p _. apply nodup_app_iff. split; [apply isort_nodup, NoDup_filter, seq_NoDup|]. split; [apply moving_nodup|].
    intros l I I'. apply in_plain in I as (lf & G & _ & _ & NE). apply in_moving in I' as (lf' & G' & _ & _ & HE). assert (lf' = lf) by congruence. now subst.
  - intros p q l _ _ I I'. apply at_plain_moving in I, I'. congruence.
Qed.
Lemma preds_lt x y : precedes adj x y -> (x < n)%nat -> (preds x < preds y)%nat.
Proof.
  intros H Lx. unfold preds. assert (XY : forall k, pb k x = true -> pb k y = true). { intros k Q. apply PB in Q. apply PB. eapply t_trans; eauto. }
  assert (I : In x (seq 0 n)) by (apply in_seq; lia). assert (F1 : pb x x = false). { apply not_true_is_false. intros Q. apply PB in Q. exact (DG x Q). } assert (F2 : pb x y = true) by now apply PB.
  revert I. generalize (seq 0 n) as l. intros l. assert (LE : forall l, (length (filter (fun k => pb k x) l) <= length (filter (fun k => pb k y) l))%nat).
  { induction l0 as [|k r IH]; cbn; auto. destruct (pb k x) eqn:Q; [rewrite (XY k Q); cbn; lia|]. destruct (pb k y); cbn; lia. }
  induction l as [|k r IH]; [intros []|]. intros [->|I]; cbn.
  - rewrite F1, F2. cbn. specialize (LE r). lia.
  - specialize (IH I). destruct (pb k x) eqn:Q; [rewrite (XY k Q); cbn; lia|]. destruct (pb k y); cbn; lia.
Qed.

Lemma sorted_linear : linearises v leafs adj sorted_leafs /\ ForallOrdPairs in_place sorted_leafs.
Proof.
  assert (IP : ForallOrdPairs in_place sorted_leafs).
  { unfold sorted_leafs. apply fop_flat_map.
    - apply fop_seq; [|apply seq_fop]. intros p q Ip Iq L a b Ia Ib. apply at_plain_moving in Ia, Ib. exists p, q. auto.
    - intros p _. apply fop_app.
      + eapply fop_impl; [|apply isort_sorted]. intros a b Ia Ib _. apply in_plain in Ia as (lf & G & _ & Q & NE), Ib as (kf & G' & _ & Q' & _). exists p, p. split; auto. split; auto. right. split; auto. intros lf' G2. assert (lf' = lf) by congruence. now subst.
      + assert (Q : (length (moving_at p) <= 1)%nat); [|now apply fop_short]. assert (N := moving_nodup p). destruct (moving_at p) as [|a [|b r]] eqn:E; cbn; try lia.
        assert (Ia : In a (moving_at p)) by (rewrite E; now left). assert (Ib : In b (moving_at p)) by (rewrite E; right; now left).
        apply in_moving in Ia as (lf & G & _ & Q & HE), Ib as (kf & G' & _ & Q' & HE'). assert (a = b) by (eapply (pl_one _ _ _ _ _ _ PL); eauto). subst b. inversion N as [|? ? N1 _]. destruct N1. now left.
      + intros a b Ia Ib. apply in_plain in Ia as (lf & G & _ & Q & NE). apply in_moving in Ib as (kf & G' & _ & Q' & _). exists p, p. split; auto. split; auto. right. split; auto. intros lf' G2. assert (lf' = lf) by congruence. now subst. }
  split; auto. split; [apply sorted_nodup|apply in_sorted|].
  unfold sorted_leafs. apply fop_flat_map.
  - apply fop_seq; [|apply seq_fop]. intros p q Ip Iq L a b Ia Ib PR. apply at_plain_moving in Ia, Ib. assert (Q := pl_ord _ _ _ _ _ _ PL b a q p PR Ib Ia). lia.
  - intros p _. apply fop_app.
    + eapply fop_impl; [|apply isort_sorted]. intros a b Ia Ib LE PR. cbn beta in LE. apply in_plain in Ib as (kf & G' & _). assert (Q := preds_lt b a PR ltac:(eapply nth_lt; eauto)). lia.
    + assert (Q : (length (moving_at p) <= 1)%nat); [|now apply fop_short]. assert (N := moving_nodup p). destruct (moving_at p) as [|a [|b r]] eqn:E; cbn; try lia.
      assert (Ia : In a (moving_at p)) by (rewrite E; now left). assert (Ib : In b (moving_at p)) by (rewrite E; right; now left).
      apply in_moving in Ia as (lf & G & _ & Q & HE), Ib as (kf & G' & _ & Q' & HE'). assert (a = b) by (eapply (pl_one _ _ _ _ _ _ PL); eauto). subst b. inversion N as [|? ? N1 _]. destruct N1. now left.
    + intros a b Ia Ib PR. apply in_plain in Ia as (lf & G & A & Q & NE). apply in_moving in Ib as (kf & G' & _ & Q' & HE). apply NE. refine (EL b a kf lf G' G _ HE PR). intros ->. destruct A as (x & y & [] & _).
Qed.
End Sound.
