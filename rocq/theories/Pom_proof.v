(** The clauses of the matching formula. *)
From Coq Require Import ZArith Lia Relation_Operators Operators_Properties.
From Verif Require Import Base Htn_problem Htn_spec Sat_model Sat_spec Sat_proof Sf_model Sf_proof Posog_model Posog_spec Posog_order Mx_clause Pom_model Pom_spec.

Local Open Scope Z_scope.

Lemma omap_concat_sat {A} v (f : A -> option (list clause)) l r : omap f l = Some r -> satisfies v (concat r) <-> forall x c, In x l -> f x = Some c -> satisfies v c.
Proof.
  intros E. apply omap_some in E. rewrite sat_concat. split.
  - intros H x c Hx Ec. destruct (forall2_in_l _ _ _ _ E Hx) as (d & Id & Ed). assert (d = c) by congruence. subst. auto.
  - intros H d Hd. destruct (forall2_in_r _ _ _ _ E Hd) as (x & Hx & Ex). eauto.
Qed.
Lemma omap_concat_vars {A} k (f : A -> option (list clause)) l r : omap f l = Some r -> (forall x c, In x l -> f x = Some c -> vars_le k c) -> vars_le k (concat r).
Proof. intros E H c y Hc Hy. apply omap_some in E. apply in_concat in Hc as (d & Id & Hc). destruct (forall2_in_r _ _ _ _ E Id) as (x & Hx & Ex). exact (H x d Hx Ex c y Hc Hy). Qed.
Lemma omap_in {A B} (f : A -> option B) l r x : omap f l = Some r -> In x l -> exists b, f x = Some b.
Proof. intros E Hx. apply omap_some in E. destruct (forall2_in_l _ _ _ _ E Hx) as (b & _ & Eb). eauto. Qed.
Lemma in_enum {A} (l : list A) i x : In (i, x) (combine (seq 0 (length l)) l) <-> nth_error l i = Some x.
Proof. rewrite combine_seq, Nat.sub_0_r. split; [tauto|]. split; auto. lia. Qed.

Lemma last_of_in {A} (l : list (A * nat)) a x : last_of l a = Some x -> In (x, a) l.
Proof.
  induction l as [|[y b] l IH]; cbn; [discriminate|]. destruct (last_of l a) as [z|].
  - intros [= ->]. right. auto.
  - destruct (Nat.eqb_spec a b) as [->|]; [|discriminate]. intros [= ->]. now left.
Qed.
Lemma last_of_none {A} (l : list (A * nat)) a : last_of l a = None -> ~ In a (map snd l).
Proof.
  induction l as [|[y b] l IH]; cbn; [intros _ []|]. destruct (last_of l a) as [z|]; [discriminate|]. destruct (Nat.eqb_spec a b); [discriminate|]. intros _ [->|H]; auto. now apply IH.
Qed.
Lemma nodup_snd {A} (l : list (A * nat)) x y a : NoDup (map snd l) -> In (x, a) l -> In (y, a) l -> x = y.
Proof.
  induction l as [|[z b] l IH]; cbn; [intros _ []|]. intros N [E|H] [E'|H']; inversion N as [|? ? N1 N2]; subst.
  - congruence.
  - injection E as -> ->. destruct N1. apply in_map_iff. now exists (y, a).
  - injection E' as -> ->. destruct N1. apply in_map_iff. now exists (x, a).
  - auto.
Qed.
Lemma last_of_some {A} (l : list (A * nat)) x a : NoDup (map snd l) -> In (x, a) l -> last_of l a = Some x.
Proof.
  intros N H. destruct (last_of l a) as [y|] eqn:E.
  - apply last_of_in in E. f_equal. eapply nodup_snd; eauto.
  - apply last_of_none in E. destruct E. apply in_map_iff. now exists (x, a).
Qed.

Lemma sat_not_implies_all_not v i j : 0 < i -> (forall x, In x j -> 0 < x) -> satisfies v (notImpliesAllNot i j) <-> ((exists x, In x j /\ v x = true) -> v i = true).
Proof.
  intros I J. unfold notImpliesAllNot. rewrite sat_map. split.
  - intros H (x & Hx & Vx). destruct (H x Hx) as (y & [<-|[<-|[]]] & T); [now rewrite lit_pos in T by lia|]. rewrite lit_npos, Vx in T by auto. discriminate.
  - intros H x Hx. destruct (v x) eqn:V; [|exists (- x); split; [cbn; auto|]; rewrite lit_npos, V by auto; reflexivity].
    exists i. split; [now left|]. rewrite lit_pos by lia. eauto.
Qed.
(** A variable equivalent to a disjunction. *)
Lemma sat_equiv_or v i j : 0 < i -> (forall x, In x j -> 0 < x) -> satisfies v (impliesOr i j ++ notImpliesAllNot i j) <-> (v i = true <-> exists x, In x j /\ v x = true).
Proof.
  intros I J. rewrite sat_app, sat_implies_or, sat_not_implies_all_not by (auto; lia). rewrite lit_pos by lia. split.
  - intros [H1 H2]. split; auto. intros V. destruct (H1 V) as (l & Il & Tl). exists l. split; auto. rewrite lit_pos in Tl; auto.
  - intros [H1 H2]. split; auto. intros V. destruct (H1 V) as (l & Il & Tl). exists l. split; auto. rewrite lit_pos; auto.
Qed.

Lemma count_le_one v is : (forall x, In x is -> 0 < x) -> NoDup is -> (count_true v is <= 1)%nat <-> forall x y, In x is -> In y is -> v x = true -> v y = true -> x = y.
Proof.
  intros PO N. rewrite count_one. unfold at_most_one. split.
  - intros H x y Hx Hy Vx Vy. apply In_nth_error in Hx as Ex. apply In_nth_error in Hy as Ey. destruct Ex as (i & Ei), Ey as (j & Ej).
    assert (Q : i = j). { apply (H i j x y); auto; rewrite lit_pos; auto. } congruence.
  - intros H i j x y Ei Ej Tx Ty. assert (Hx := nth_error_In _ _ Ei). assert (Hy := nth_error_In _ _ Ej). rewrite lit_pos in Tx, Ty by auto.
    assert (E := H x y Hx Hy Tx Ty). subst y. rewrite NoDup_nth_error in N. apply N; [apply nth_error_Some; congruence|congruence].
Qed.


Lemma nodup_map_inj {A B} (f : A -> B) l : (forall x y, In x l -> In y l -> f x = f y -> x = y) -> NoDup l -> NoDup (map f l).
Proof.
  intros H N. induction N as [|a l Na N IH]; cbn; constructor.
  - intros I. apply in_map_iff in I as (b & E & Ib). assert (b = a) by (apply H; [now right|now left|auto]). now subst.
  - apply IH. intros x y Hx Hy. apply H; now right.
Qed.
Lemma nth_lt {A} (l : list A) i x : nth_error l i = Some x -> (i < length l)%nat.
Proof. intros H. apply nth_error_Some. congruence. Qed.
Lemma and_iff (A A' B B' : Prop) : (A <-> A') -> (B <-> B') -> (A /\ B <-> A' /\ B').
Proof. tauto. Qed.
Lemma enc_map {A} n0 (f : A -> Z -> list clause * Z) (l : list A) (B : A -> assignment -> Prop) : 0 <= n0 ->
  (forall x, In x l -> enc n0 [f x] (B x)) -> enc n0 (map f l) (fun v => forall x, In x l -> B x v).
Proof. intros N0 H. replace (map f l) with (flat_map (fun x => [f x]) l); [now apply enc_flat|]. clear H. induction l; cbn; congruence. Qed.

Lemma precedes_dec adj : wf_graph adj -> dag adj -> exists pb : nat -> nat -> bool, forall x y, pb x y = true <-> precedes adj x y.
Proof.
  intros W D. destruct (reach_sets_ok adj W D) as (sets & E & L & F).
  exists (fun x y => memb y (nth x sets []) && negb (Nat.eqb x y)). intros x y. rewrite andb_true_iff, negb_true_iff, Nat.eqb_neq, memb_In.
  destruct (nth_error sets x) as [l|] eqn:G.
  - rewrite (nth_error_nth sets x [] G). rewrite (F x l G y). unfold reaches. split; [intros [[[-> _]|Q] N]; [congruence|auto]|]. intros Q. split; [now right|]. intros ->. exact (D y Q).
  - rewrite nth_overflow by (now apply nth_error_None). split; [intros [[] _]|]. intros Q. exfalso. apply nth_error_None in G. rewrite L in G.
    apply clos_trans_t1n in Q. inversion Q as [? (s & Gs & _)|? ? (s & Gs & _) _]; subst; apply nth_error_None in G; congruence.
Qed.

Section Eff.
Variable P : problem.
Hypothesis LA : length (p_add P) = length (p_cost P).
Hypothesis LD : length (p_del P) = length (p_cost P).
Lemma eff_iff a : (a < length (p_cost P))%nat -> exists e, has_effect P a = Some e /\ (e = true <-> effectful P a).
Proof.
  intros L. unfold has_effect, get. destruct (nth_error (p_add P) a) as [ad|] eqn:EA; [|apply nth_error_None in EA; lia].
  destruct (nth_error (p_del P) a) as [de|] eqn:ED; [|apply nth_error_None in ED; lia]. cbn [obind]. eexists. split; [reflexivity|]. unfold effectful, adds, dels.
  destruct ad as [|f ad]; [destruct de as [|f de]|].
  - split; [discriminate|]. intros (f & [(l & Q & I)|(l & Q & I)]); [rewrite EA in Q|rewrite ED in Q]; injection Q as <-; destruct I.
  - split; auto. intros _. exists f. right. eexists. split; [exact ED|now left].
  - split; auto. intros _. exists f. left. eexists. split; [exact EA|now left].
Qed.
Lemma eff_some a e : has_effect P a = Some e -> (e = true <-> effectful P a).
Proof.
  intros E. assert (L : (a < length (p_cost P))%nat). { unfold has_effect, get in E. apply obind_some in E as (ad & Ea & _). rewrite <- LA. apply nth_error_Some. congruence. }
  destruct (eff_iff a L) as (e' & E' & Q). assert (e' = e) by congruence. now subst.
Qed.

End Eff.

Section Matching.
Variables (P : problem) (bits : nat -> nat).
Hypothesis BO : bits_ok bits.
Variables (leafs : list pleaf) (effs : list bool) (adj : list (list nat)) (vars : list leaf).
Variable nv : Z.
Hypothesis NV : 0 <= nv.
Notation n := (length leafs).
Notation m := (length vars).
Hypothesis LA : length (p_add P) = length (p_cost P).
Hypothesis LD : length (p_del P) = length (p_cost P).
Hypothesis LO : leafs_ok P nv leafs.
Hypothesis EF : forall l lf, nth_error leafs l = Some lf -> (nth l effs false = true <-> effect_leaf P lf).
Hypothesis VN : forall acts, In acts vars -> NoDup (map snd acts).
Hypothesis VR : forall acts x a, In acts vars -> In (x, a) acts -> 1 <= x <= nv /\ (a < length (p_cost P))%nat.
Hypothesis AN : length adj = n.

Notation gv := (grid_var vars).
Lemma grid_inj b l p k q : (p < m)%nat -> (q < m)%nat -> gv b l p = gv b k q -> l = k /\ p = q.
Proof. unfold grid_var. intros Hp Hq E. assert (E' : (l * m + p = k * m + q)%nat) by lia. assert (l = k) by nia. subst. split; auto. lia. Qed.
Lemma grid_rng b l p : (l < n)%nat -> (p < m)%nat -> b + 1 <= gv b l p <= b + Z.of_nat (n * m).
Proof. unfold grid_var. intros Hl Hp. assert (l * m + p < n * m)%nat by nia. lia. Qed.
Lemma grid_split b x : b < x <= b + Z.of_nat (n * m) -> exists l p, (l < n)%nat /\ (p < m)%nat /\ x = gv b l p.
Proof.
  intros H. assert (M : (0 < m)%nat) by nia. exists (Z.to_nat (x - b - 1) / m)%nat, (Z.to_nat (x - b - 1) mod m)%nat.
  assert (D := Nat.div_mod (Z.to_nat (x - b - 1)) m ltac:(lia)). assert (R := Nat.mod_upper_bound (Z.to_nat (x - b - 1)) m ltac:(lia)).
  assert (L : (Z.to_nat (x - b - 1) / m < n)%nat) by (apply Nat.div_lt_upper_bound; lia). split; auto. split; auto. unfold grid_var.
  replace (Z.to_nat (x - b - 1) / m * m + Z.to_nat (x - b - 1) mod m)%nat with (Z.to_nat (x - b - 1)) by lia. lia.
Qed.

Lemma effect_iff a : (a < length (p_cost P))%nat -> exists e, has_effect P a = Some e /\ (e = true <-> effectful P a).
Proof. exact (eff_iff P LA LD a). Qed.
Lemma effect_some a e : has_effect P a = Some e -> (e = true <-> effectful P a).
Proof. exact (eff_some P LA LD a e). Qed.

Lemma in_somes l x : In x (somes_fst l) <-> exists a, In (Some x, a) l.
Proof.
  unfold somes_fst. rewrite in_flat_map. split.
  - intros ([[y|] a] & I & H); cbn in H; [|destruct H]. destruct H as [<-|[]]. eauto.
  - intros (a & I). exists (Some x, a). split; auto. now left.
Qed.
Lemma somes_active v l : (exists x, In x (somes_fst l) /\ v x = true) <-> active v l.
Proof.
  unfold active, occurs. split.
  - intros (x & I & V). apply in_somes in I as (a & I). eauto.
  - intros (a & x & I & V). exists x. split; auto. apply in_somes. eauto.
Qed.
Lemma leaf_var_pos l lf x : nth_error leafs l = Some lf -> In x (somes_fst lf) -> 1 <= x <= nv.
Proof. intros G I. apply in_somes in I as (a & I). apply nth_error_In in G. eapply (lo_vars _ _ _ LO); eauto. Qed.

Lemma in_effect_vars acts vs : effect_vars P acts = Some vs -> forall x, In x vs <-> exists a, In (x, a) acts /\ effectful P a.
Proof.
  intros E x. unfold effect_vars in E. apply obind_some in E as (cs & Ec & E). apply some_eq in E. subst vs. apply omap_some in Ec. rewrite in_concat. split.
  - intros (c & Ic & Ix). destruct (forall2_in_r _ _ _ _ Ec Ic) as ([y a] & Iy & Q). cbn [fst snd] in Q. apply obind_some in Q as (e & Ee & Q). apply some_eq in Q. subst c.
    destruct e; [|destruct Ix]. destruct Ix as [<-|[]]. exists a. split; auto. now apply (effect_some a true).
  - intros (a & Ia & Ha). destruct (forall2_in_l _ _ _ _ Ec Ia) as (c & Ic & Q). cbn [fst snd] in Q. apply obind_some in Q as (e & Ee & Q). apply some_eq in Q. subst c.
    exists [x]. split; [|now left]. apply (effect_some a e Ee) in Ha. subst e. exact Ic.
Qed.

(** the clauses, one group after the other *)
Lemma active_sat v la : 0 < la -> satisfies v (m_active leafs vars nv la) <->
  (forall l lf, nth_error leafs l = Some lf -> (v (la + Z.of_nat l) = true <-> active v lf)) /\
  (forall l, (l < n)%nat -> v (la + Z.of_nat l) = true -> exists p, (p < m)%nat /\ v (gv nv l p) = true).
Proof.
  intros L. unfold m_active. rewrite sat_app, !sat_flat.
  assert (Q1 : (forall x, In x (combine (seq 0 n) leafs) -> satisfies v (let a := la + Z.of_nat (fst x) in impliesOr a (somes_fst (snd x)) ++ notImpliesAllNot a (somes_fst (snd x)))) <->
     (forall l lf, nth_error leafs l = Some lf -> (v (la + Z.of_nat l) = true <-> active v lf))).
  { split.
    - intros H l lf G. specialize (H (l, lf) (proj2 (in_enum _ _ _) G)). cbn [fst snd] in H. cbv zeta in H. rewrite sat_equiv_or in H; [now rewrite somes_active in H|lia|].
      intros x Ix. assert (Z := leaf_var_pos l lf x G Ix). lia.
    - intros H [l lf] I. apply in_enum in I. cbn [fst snd]. cbv zeta. rewrite sat_equiv_or; [rewrite somes_active; auto|lia|]. intros x Ix. assert (Z := leaf_var_pos l lf x I Ix). lia. }
  assert (Q2 : (forall l, In l (seq 0 n) -> satisfies v (impliesOr (la + Z.of_nat l) (match_leaf vars nv l))) <->
     (forall l, (l < n)%nat -> v (la + Z.of_nat l) = true -> exists p, (p < m)%nat /\ v (gv nv l p) = true)).
  { split.
    - intros H l Ll. specialize (H l ltac:(apply in_seq; lia)). rewrite sat_implies_or, lit_pos in H by lia. intros V. destruct (H V) as (x & Ix & Tx).
      unfold match_leaf in Ix. apply in_map_iff in Ix as (p & <- & Ip). apply in_seq in Ip. exists p. split; [lia|]. rewrite lit_pos in Tx; auto. assert (R := grid_rng nv l p Ll ltac:(lia)). lia.
    - intros H l Il. apply in_seq in Il. rewrite sat_implies_or, lit_pos by lia. intros V. destruct (H l ltac:(lia) V) as (p & Lp & Vp). exists (gv nv l p). split.
      + unfold match_leaf. apply in_map_iff. exists p. split; auto. apply in_seq. lia.
      + rewrite lit_pos; auto. assert (R := grid_rng nv l p ltac:(lia) Lp). lia. }
  rewrite Q1, Q2. reflexivity.
Qed.
Lemma in_match_pos p x : (p < m)%nat -> In x (match_pos leafs effs vars nv p) <-> exists l lf, nth_error leafs l = Some lf /\ effect_leaf P lf /\ x = gv nv l p.
Proof.
  intros Lp. unfold match_pos. rewrite in_map_iff. split.
  - intros (l & <- & I). apply filter_In in I as [Il E]. apply in_seq in Il. destruct (nth_error leafs l) as [lf|] eqn:G; [|apply nth_error_None in G; lia].
    exists l, lf. split; auto. split; auto. now apply (EF l lf G).
  - intros (l & lf & G & H & ->). exists l. split; auto. apply filter_In. split; [|now apply (EF l lf G)]. apply in_seq. assert (l < n)%nat by (apply nth_error_Some; congruence). lia.
Qed.
Lemma match_pos_rng p x : (p < m)%nat -> In x (match_pos leafs effs vars nv p) -> nv + 1 <= x <= nv + Z.of_nat (n * m).
Proof. intros Lp I. apply (in_match_pos p x Lp) in I as (l & lf & G & _ & ->). apply grid_rng; auto. apply nth_error_Some. congruence. Qed.

Lemma caused_sat v pa ca : 0 < pa -> m_caused P leafs effs vars nv pa = Some ca -> satisfies v ca <->
  (forall p acts, nth_error vars p = Some acts -> (v (pa + Z.of_nat p) = true <-> exists a, effectful P a /\ happens v acts a)) /\
  (forall p, (p < m)%nat -> v (pa + Z.of_nat p) = true -> exists l lf, nth_error leafs l = Some lf /\ effect_leaf P lf /\ v (gv nv l p) = true).
Proof.
  intros L E. unfold m_caused in E. apply obind_some in E as (cs & Ec & E). apply some_eq in E. subst ca. rewrite sat_app, (omap_concat_sat v _ _ _ Ec), sat_flat.
  assert (PQ : forall p acts vs, nth_error vars p = Some acts -> effect_vars P acts = Some vs ->
     (satisfies v (impliesOr (pa + Z.of_nat p) vs ++ notImpliesAllNot (pa + Z.of_nat p) vs) <-> (v (pa + Z.of_nat p) = true <-> exists a, effectful P a /\ happens v acts a))).
  { intros p acts vs G Ev. rewrite sat_equiv_or; [|lia|].
    - assert (Q : (exists x, In x vs /\ v x = true) <-> (exists a, effectful P a /\ happens v acts a)).
      { unfold happens. split.
        - intros (x & Ix & V). apply (in_effect_vars _ _ Ev) in Ix as (a & Ia & Ha). eauto.
        - intros (a & Ha & x & Ix & V). exists x. split; auto. apply (in_effect_vars _ _ Ev). eauto. }
      rewrite Q. reflexivity.
    - intros x Ix. apply (in_effect_vars _ _ Ev) in Ix as (a & Ia & _). assert (Z := VR acts x a (nth_error_In _ _ G) Ia). lia. }
  assert (Q2 : (forall p, In p (seq 0 m) -> satisfies v (impliesOr (pa + Z.of_nat p) (match_pos leafs effs vars nv p))) <->
     (forall p, (p < m)%nat -> v (pa + Z.of_nat p) = true -> exists l lf, nth_error leafs l = Some lf /\ effect_leaf P lf /\ v (gv nv l p) = true)).
  { split.
    - intros H p Lp. specialize (H p ltac:(apply in_seq; lia)). rewrite sat_implies_or, lit_pos in H by lia. intros V. destruct (H V) as (x & Ix & Tx).
      assert (R := match_pos_rng p x Lp Ix). apply (in_match_pos p x Lp) in Ix as (l & lf & G & HE & ->). exists l, lf. split; auto. split; auto. rewrite lit_pos in Tx; auto. lia.
    - intros H p Ip. apply in_seq in Ip. rewrite sat_implies_or, lit_pos by lia. intros V. destruct (H p ltac:(lia) V) as (l & lf & G & HE & Vl). exists (gv nv l p).
      assert (I : In (gv nv l p) (match_pos leafs effs vars nv p)) by (apply in_match_pos; [lia|eauto]). split; auto. rewrite lit_pos; auto. assert (R := match_pos_rng p _ ltac:(lia) I). lia. }
  rewrite Q2. apply and_iff_compat_r. split.
  - intros H p acts G. assert (I := proj2 (in_enum _ _ _) G). destruct (omap_in _ _ _ _ Ec I) as (c & Ecc). specialize (H _ _ I Ecc). cbn [fst snd] in Ecc.
    apply obind_some in Ecc as (vs & Ev & Q). cbv zeta in Q. apply some_eq in Q. subst c. now apply (PQ p acts vs).
  - intros H [p acts] c I Ecc. apply in_enum in I. cbn [fst snd] in Ecc. apply obind_some in Ecc as (vs & Ev & Q). cbv zeta in Q. apply some_eq in Q. subst c. apply (PQ p acts vs); auto.
Qed.

Lemma up_sat v up : m_up leafs vars nv = Some up -> satisfies v up <->
  forall p acts l lf a, nth_error vars p = Some acts -> nth_error leafs l = Some lf -> v (gv nv l p) = true -> occurs v lf a -> happens v acts a.
Proof.
  intros E. unfold m_up in E. apply obind_some in E as (cs & Ec & E). apply some_eq in E. subst up. rewrite (omap_concat_sat v _ _ _ Ec).
  assert (LQ : forall p acts l lf c, nth_error vars p = Some acts -> nth_error leafs l = Some lf -> m_up_leaf (gv nv l p) acts lf = Some c ->
    (satisfies v c <-> (forall a, v (gv nv l p) = true -> occurs v lf a -> happens v acts a))).
  { intros p acts l lf c Gp Gl Q. unfold m_up_leaf in Q. apply obind_some in Q as (ds & Ed & Q). apply some_eq in Q. subst c. rewrite (omap_concat_sat v _ _ _ Ed).
    assert (R := grid_rng nv l p ltac:(apply nth_error_Some; congruence) ltac:(apply nth_error_Some; congruence)). split.
    - intros H a V (x & Ix & Vx). destruct (omap_in _ _ _ _ Ed Ix) as (c & Ecc). specialize (H _ _ Ix Ecc). cbn [fst snd] in Ecc. apply obind_some in Ecc as (z & Ez & Q). apply some_eq in Q. subst c.
      apply last_of_in in Ez. assert (Z1 := lo_vars _ _ _ LO lf x a (nth_error_In _ _ Gl) Ix). assert (Z2 := VR acts z a (nth_error_In _ _ Gp) Ez).
      rewrite sat_implies_and, !lit_pos in H by lia. exists z. split; auto.
    - intros H [[y|] a] c Iy Ecc; cbn [fst snd] in Ecc; [|apply some_eq in Ecc; subst c; apply sat_nil]. apply obind_some in Ecc as (z & Ez & Q). apply some_eq in Q. subst c.
      apply last_of_in in Ez. assert (Z1 := lo_vars _ _ _ LO lf y a (nth_error_In _ _ Gl) Iy). assert (Z2 := VR acts z a (nth_error_In _ _ Gp) Ez).
      rewrite sat_implies_and, !lit_pos by lia. intros V Vy. destruct (H a V) as (z' & Iz & Vz); [exists y; auto|]. assert (z' = z); [|congruence]. eapply nodup_snd; [exact (VN acts (nth_error_In _ _ Gp))|eauto|eauto]. }
  split.
  - intros H p acts l lf a Gp Gl V O. assert (Ip := proj2 (in_enum _ _ _) Gp). assert (Il := proj2 (in_enum _ _ _) Gl). destruct (omap_in _ _ _ _ Ec Ip) as (c & Ecc). specialize (H _ _ Ip Ecc). cbn [fst snd] in Ecc.
    apply obind_some in Ecc as (ds & Ed & Q). apply some_eq in Q. subst c. rewrite (omap_concat_sat v _ _ _ Ed) in H. destruct (omap_in _ _ _ _ Ed Il) as (c & Ecc). specialize (H _ _ Il Ecc). cbn [fst snd] in Ecc.
    eapply (LQ p acts l lf c); eauto.
  - intros H [p acts] c Ip Ecc. apply in_enum in Ip. cbn [fst snd] in Ecc. apply obind_some in Ecc as (ds & Ed & Q). apply some_eq in Q. subst c. rewrite (omap_concat_sat v _ _ _ Ed).
    intros [l lf] c Il Ecc. apply in_enum in Il. cbn [fst snd] in Ecc. apply (LQ p acts l lf c); eauto.
Qed.

Lemma down_sat v dn : m_down P leafs effs vars nv = Some dn -> satisfies v dn <->
  forall p acts l lf a, nth_error vars p = Some acts -> nth_error leafs l = Some lf -> effect_leaf P lf -> v (gv nv l p) = true -> effectful P a -> happens v acts a -> occurs v lf a.
Proof.
  intros E. unfold m_down in E. apply obind_some in E as (cs & Ec & E). apply some_eq in E. subst dn. rewrite (omap_concat_sat v _ _ _ Ec).
  assert (LQ : forall p acts l lf c, nth_error vars p = Some acts -> nth_error leafs l = Some lf -> m_down_pos P (gv nv l p) acts lf = Some c ->
    (satisfies v c <-> (forall a, v (gv nv l p) = true -> effectful P a -> happens v acts a -> occurs v lf a))).
  { intros p acts l lf c Gp Gl Q. unfold m_down_pos in Q. apply obind_some in Q as (ds & Ed & Q). apply some_eq in Q. subst c. rewrite (omap_concat_sat v _ _ _ Ed).
    assert (R := grid_rng nv l p ltac:(apply nth_error_Some; congruence) ltac:(apply nth_error_Some; congruence)). assert (Ilf := nth_error_In _ _ Gl). assert (Ia' := nth_error_In _ _ Gp).
    assert (NN := lo_nodup _ _ _ LO lf Ilf). split.
    - intros H a V He (x & Ix & Vx). destruct (omap_in _ _ _ _ Ed Ix) as (c & Ecc). specialize (H _ _ Ix Ecc). cbn [fst snd] in Ecc. apply obind_some in Ecc as (e & Ee & Q). apply some_eq in Q. subst c.
      apply (effect_some a e Ee) in He. subst e. assert (Z2 := VR acts x a Ia' Ix).
      destruct (last_of lf a) as [[y|]|] eqn:EL; [|rewrite sat_implies_not, !lit_pos in H by lia; rewrite H in Vx by auto; discriminate|rewrite sat_implies_not, !lit_pos in H by lia; rewrite H in Vx by auto; discriminate].
      apply last_of_in in EL. assert (Z1 := lo_vars _ _ _ LO lf y a Ilf EL). destruct (Z.ltb_spec 0 y); [|lia]. rewrite sat_implies_and, !lit_pos in H by lia. exists y. auto.
    - intros H [x a] c Ix Ecc. cbn [fst snd] in Ecc. apply obind_some in Ecc as (e & Ee & Q). apply some_eq in Q. subst c. assert (EQ := effect_some a e Ee). destruct e; [|apply sat_nil].
      assert (He : effectful P a) by now apply EQ. assert (Z2 := VR acts x a Ia' Ix).
      assert (NO : (forall y, ~ In (Some y, a) lf) -> satisfies v (impliesNot (gv nv l p) x)).
      { intros No. rewrite sat_implies_not, !lit_pos by lia. intros V. destruct (v x) eqn:Vx; auto. destruct (H a V He) as (y & Iy & _); [exists x; auto|]. now destruct (No y). }
      destruct (last_of lf a) as [[y|]|] eqn:EL.
      + apply last_of_in in EL. assert (Z1 := lo_vars _ _ _ LO lf y a Ilf EL). destruct (Z.ltb_spec 0 y); [|lia]. rewrite sat_implies_and, !lit_pos by lia. intros V Vx.
        destruct (H a V He) as (y' & Iy & Vy); [exists x; auto|]. assert (Q := nodup_snd lf _ _ a NN EL Iy). congruence.
      + apply NO. intros y Iy. apply last_of_in in EL. assert (Q := nodup_snd lf _ _ a NN EL Iy). discriminate.
      + apply NO. intros y Iy. apply last_of_none in EL. apply EL. apply in_map_iff. now exists (Some y, a). }
  split.
  - intros H p acts l lf a Gp Gl He V Ha O. assert (Ip := proj2 (in_enum _ _ _) Gp). assert (Il := proj2 (in_enum _ _ _) Gl). destruct (omap_in _ _ _ _ Ec Il) as (c & Ecc). specialize (H _ _ Il Ecc). cbn [fst snd] in Ecc.
    apply (EF l lf Gl) in He. rewrite He in Ecc.
    apply obind_some in Ecc as (ds & Ed & Q). apply some_eq in Q. subst c. rewrite (omap_concat_sat v _ _ _ Ed) in H. destruct (omap_in _ _ _ _ Ed Ip) as (c & Ecc). specialize (H _ _ Ip Ecc). cbn [fst snd] in Ecc.
    eapply (LQ p acts l lf c); eauto.
  - intros H [l lf] c Il Ecc. apply in_enum in Il. cbn [fst snd] in Ecc. destruct (nth l effs false) eqn:EE; [|apply some_eq in Ecc; subst c; apply sat_nil]. apply (EF l lf Il) in EE.
    apply obind_some in Ecc as (ds & Ed & Q). apply some_eq in Q. subst c. rewrite (omap_concat_sat v _ _ _ Ed).
    intros [p acts] c Ip Ecc. apply in_enum in Ip. cbn [fst snd] in Ecc. apply (LQ p acts l lf c); eauto.
Qed.

Lemma order_sat v fv od : nv <= fv -> m_order leafs adj vars nv fv = Some od -> wf_graph adj /\ (satisfies v od <->
  (forall l k p, edge adj l k -> (p + 1 < m)%nat -> v (gv nv l (p + 1)) = true -> v (gv fv k p) = true) /\
  (forall l k p, edge adj l k -> (p < m)%nat -> v (gv fv l p) = true -> v (gv fv k p) = true) /\
  (forall l p, (l < n)%nat -> (p + 1 < m)%nat -> v (gv fv l (p + 1)) = true -> v (gv fv l p) = true) /\
  (forall l p, (l < n)%nat -> (p < m)%nat -> v (gv fv l p) = true -> v (gv nv l p) = false)).
Proof.
  intros LF E. unfold m_order in E. apply obind_some in E as (es & Ee & E). cbv zeta in E. apply some_eq in E. subst od.
  assert (IE : forall l k, In (l, k) (concat es) <-> edge adj l k /\ (k < n)%nat).
  { apply omap_some in Ee. intros l k. rewrite in_concat. split.
    - intros (c & Ic & I). destruct (forall2_in_r _ _ _ _ Ee Ic) as (l' & Il & Q). apply obind_some in Q as (ss & Es & Q). destruct (forallb _ ss) eqn:FB; [|discriminate]. apply some_eq in Q. subst c.
      apply in_map_iff in I as (s & Q & Is). apply pair_equal_spec in Q as [<- <-]. rewrite forallb_forall in FB. specialize (FB s Is). apply Nat.ltb_lt in FB. split; auto. exists ss. auto.
    - intros [(ss & Es & Is) Lk]. assert (Ll : (l < n)%nat) by (rewrite <- AN; apply nth_error_Some; congruence). destruct (forall2_in_l _ _ _ l Ee ltac:(apply in_seq; lia)) as (c & Ic & Q). unfold get in Q. rewrite Es in Q. cbn [obind] in Q.
      destruct (forallb _ ss); [|discriminate]. apply some_eq in Q. subst c. eexists. split; [exact Ic|]. apply in_map_iff. eauto. }
  assert (WG : wf_graph adj).
  { apply omap_some in Ee. intros l k (ss & Es & Is). assert (Ll : (l < n)%nat) by (rewrite <- AN; apply nth_error_Some; congruence). destruct (forall2_in_l _ _ _ l Ee ltac:(apply in_seq; lia)) as (c & Ic & Q). unfold get in Q. rewrite Es in Q. cbn [obind] in Q.
    destruct (forallb _ ss) eqn:FB; [|discriminate]. rewrite forallb_forall in FB. specialize (FB k Is). apply Nat.ltb_lt in FB. lia. }
  split; auto.
  assert (IE' : forall l k, In (l, k) (concat es) <-> edge adj l k). { intros l k. rewrite IE. split; [tauto|]. intros Q. split; auto. rewrite <- AN. eauto. }
  assert (EL : forall l k, edge adj l k -> (l < n)%nat /\ (k < n)%nat). { intros l k Q. split; [|rewrite <- AN; eauto]. destruct Q as (ss & Es & _). rewrite <- AN. apply nth_error_Some. congruence. }
  assert (GP : forall b l p, nv <= b -> (l < n)%nat -> (p < m)%nat -> 0 < gv b l p). { intros b l p Lb Ll Lp. assert (R := grid_rng b l p Ll Lp). lia. }
  rewrite !sat_app, !sat_flat. apply and_iff; [|apply and_iff; [|apply and_iff]].
  - split.
    + intros H l k p Q Lp. specialize (H (l, k) (proj2 (IE' l k) Q)). cbn [fst snd] in H. rewrite sat_flat in H. specialize (H (p + 1)%nat ltac:(apply in_seq; lia)). destruct (EL l k Q).
      replace (p + 1 - 1)%nat with p in H by lia. rewrite sat_implies, !lit_pos in H; auto; try (apply GP; auto; lia). assert (0 < gv nv l (p + 1)) by (apply GP; auto; lia). lia.
    + intros H [l k] Q. apply IE' in Q. cbn [fst snd]. rewrite sat_flat. intros p Ip. apply in_seq in Ip. destruct (EL l k Q). specialize (H l k (p - 1)%nat Q ltac:(lia)). replace (p - 1 + 1)%nat with p in H by lia.
      rewrite sat_implies, !lit_pos; auto; try (apply GP; auto; lia). assert (0 < gv nv l p) by (apply GP; auto; lia). lia.
  - split.
    + intros H l k p Q Lp. specialize (H (l, k) (proj2 (IE' l k) Q)). cbn [fst snd] in H. rewrite sat_flat in H. specialize (H p ltac:(apply in_seq; lia)). destruct (EL l k Q).
      rewrite sat_implies, !lit_pos in H; auto; try (apply GP; auto; lia). assert (0 < gv fv l p) by (apply GP; auto; lia). lia.
    + intros H [l k] Q. apply IE' in Q. cbn [fst snd]. rewrite sat_flat. intros p Ip. apply in_seq in Ip. destruct (EL l k Q). specialize (H l k p Q ltac:(lia)).
      rewrite sat_implies, !lit_pos; auto; try (apply GP; auto; lia). assert (0 < gv fv l p) by (apply GP; auto; lia). lia.
  - split.
    + intros H l p Ll Lp. specialize (H l ltac:(apply in_seq; lia)). rewrite sat_flat in H. specialize (H (p + 1)%nat ltac:(apply in_seq; lia)). replace (p + 1 - 1)%nat with p in H by lia.
      rewrite sat_implies, !lit_pos in H; auto; try (apply GP; auto; lia). assert (0 < gv fv l (p + 1)) by (apply GP; auto; lia). lia.
    + intros H l Il. apply in_seq in Il. rewrite sat_flat. intros p Ip. apply in_seq in Ip. specialize (H l (p - 1)%nat ltac:(lia) ltac:(lia)). replace (p - 1 + 1)%nat with p in H by lia.
      rewrite sat_implies, !lit_pos; auto; try (apply GP; auto; lia). assert (0 < gv fv l p) by (apply GP; auto; lia). lia.
  - split.
    + intros H l p Ll Lp. specialize (H l ltac:(apply in_seq; lia)). rewrite sat_flat in H. specialize (H p ltac:(apply in_seq; lia)).
      assert (0 < gv fv l p) by (apply GP; auto; lia). assert (0 < gv nv l p) by (apply GP; auto; lia). rewrite sat_implies_not, !lit_pos in H by lia. auto.
    + intros H l Il. apply in_seq in Il. rewrite sat_flat. intros p Ip. apply in_seq in Ip. specialize (H l p ltac:(lia) ltac:(lia)).
      assert (0 < gv fv l p) by (apply GP; auto; lia). assert (0 < gv nv l p) by (apply GP; auto; lia). rewrite sat_implies_not, !lit_pos by lia. auto.
Qed.

Lemma amo_ok nv' : nv + Z.of_nat (n * m) <= nv' -> encodes nv' (snd (m_amo bits leafs effs vars nv nv')) (fst (m_amo bits leafs effs vars nv nv'))
  (fun v => (forall l p q, (l < n)%nat -> (p < m)%nat -> (q < m)%nat -> v (gv nv l p) = true -> v (gv nv l q) = true -> p = q) /\
            (forall l k lf kf p, nth_error leafs l = Some lf -> nth_error leafs k = Some kf -> effect_leaf P lf -> effect_leaf P kf -> (p < m)%nat -> v (gv nv l p) = true -> v (gv nv k p) = true -> l = k)).
Proof.
  intros L. set (n0 := nv + Z.of_nat (n * m)).
  assert (LS : forall l x, (l < n)%nat -> In x (match_leaf vars nv l) -> lit_ok n0 x).
  { intros l x Ll I. unfold match_leaf in I. apply in_map_iff in I as (p & <- & Ip). apply in_seq in Ip. assert (R := grid_rng nv l p Ll ltac:(lia)). unfold lit_ok, n0. lia. }
  assert (PS : forall p x, (p < m)%nat -> In x (match_pos leafs effs vars nv p) -> lit_ok n0 x).
  { intros p x Lp I. assert (R := match_pos_rng p x Lp I). unfold lit_ok, n0. lia. }
  assert (EN : forall is, (forall x, In x is -> lit_ok n0 x) -> enc n0 [fun v => atMostOne bits v is] (fun v => (count_true v is <= 1)%nat)).
  { intros is H. apply enc_one.
    - intros v v' A Q. rewrite <- (count_agree n0 v v'); auto.
    - intros w c w' Lw E. eapply amo_encodes; eauto; [lia|]. intros x Hx. specialize (H x Hx). unfold lit_ok in *. lia. }
  assert (N0 : 0 <= n0) by (unfold n0; lia).
  assert (EA : enc n0 (map (fun l v => atMostOne bits v (match_leaf vars nv l)) (seq 0 n) ++ map (fun p v => atMostOne bits v (match_pos leafs effs vars nv p)) (seq 0 m))
    (fun v => (forall l, In l (seq 0 n) -> (count_true v (match_leaf vars nv l) <= 1)%nat) /\ (forall p, In p (seq 0 m) -> (count_true v (match_pos leafs effs vars nv p) <= 1)%nat))).
  { apply enc_app; apply enc_map; auto; intros x Hx; apply in_seq in Hx; apply EN; intros y Hy; [apply (LS x y)|apply (PS x y)]; auto; lia. }
  destruct EA as [_ EA]. specialize (EA nv' L). unfold m_amo. eapply encodes_weaken; [|exact EA]. intros v. cbn beta.
  assert (GP : forall l p, (l < n)%nat -> (p < m)%nat -> 0 < gv nv l p). { intros l p Ll Lp. assert (R := grid_rng nv l p Ll Lp). lia. }
  apply and_iff.
  - split.
    + intros H l p q Ll Lp Lq V1 V2. specialize (H l ltac:(apply in_seq; lia)). rewrite count_le_one in H.
      * assert (Q : gv nv l p = gv nv l q). { apply H; auto; unfold match_leaf; apply in_map_iff; eexists; (split; [reflexivity|apply in_seq; lia]). } now apply grid_inj in Q.
      * intros x Hx. specialize (LS l x Ll Hx). unfold match_leaf in Hx. apply in_map_iff in Hx as (r & <- & Ir). apply in_seq in Ir. apply GP; lia.
      * unfold match_leaf. apply nodup_map_inj; [|apply seq_NoDup]. intros a b Ia Ib Q. apply in_seq in Ia, Ib. apply grid_inj in Q; lia.
    + intros H l Il. apply in_seq in Il. rewrite count_le_one.
      * intros x y Hx Hy Vx Vy. unfold match_leaf in Hx, Hy. apply in_map_iff in Hx as (p & <- & Ip). apply in_map_iff in Hy as (q & <- & Iq). apply in_seq in Ip, Iq. f_equal. apply (H l); auto; lia.
      * intros x Hx. unfold match_leaf in Hx. apply in_map_iff in Hx as (r & <- & Ir). apply in_seq in Ir. apply GP; lia.
      * unfold match_leaf. apply nodup_map_inj; [|apply seq_NoDup]. intros a b Ia Ib Q. apply in_seq in Ia, Ib. apply grid_inj in Q; lia.
  - assert (ND : forall p, (p < m)%nat -> NoDup (match_pos leafs effs vars nv p)).
    { intros p Lp. unfold match_pos. apply nodup_map_inj; [|apply NoDup_filter, seq_NoDup]. intros a b Ia Ib Q. apply grid_inj in Q; lia. }
    assert (PP : forall p x, (p < m)%nat -> In x (match_pos leafs effs vars nv p) -> 0 < x). { intros p x Lp Hx. assert (R := match_pos_rng p x Lp Hx). lia. }
    split.
    + intros H l k lf kf p G G' HL HK Lp V1 V2. specialize (H p ltac:(apply in_seq; lia)). rewrite count_le_one in H; [|intros x; now apply PP|now apply ND].
      assert (Q : gv nv l p = gv nv k p). { apply H; auto; apply in_match_pos; eauto 8. } now apply grid_inj in Q.
    + intros H p Ip. apply in_seq in Ip. rewrite count_le_one; [|intros x; apply PP; lia|apply ND; lia]. intros x y Hx Hy Vx Vy.
      apply in_match_pos in Hx as (l & lf & G & HL & ->); [|lia]. apply in_match_pos in Hy as (k & kf & G' & HK & ->); [|lia]. f_equal. eapply H; eauto. lia.
Qed.

(** ** The matching formula says that the leafs can be placed. *)
Notation place := (placement P).

Definition read_pl (v : assignment) (l : nat) : option nat := if Nat.ltb l n then find (fun p => v (gv nv l p)) (seq 0 m) else None.
Lemma read_pl_some v : (forall l p q, (l < n)%nat -> (p < m)%nat -> (q < m)%nat -> v (gv nv l p) = true -> v (gv nv l q) = true -> p = q) ->
  forall l p, read_pl v l = Some p <-> (l < n)%nat /\ (p < m)%nat /\ v (gv nv l p) = true.
Proof.
  intros U l p. unfold read_pl. destruct (Nat.ltb_spec l n) as [Ll|Ll].
  - split.
    + intros E. apply find_some in E as [I V]. apply in_seq in I. split; auto. split; auto. lia.
    + intros (_ & Lp & V). destruct (find (fun p => v (gv nv l p)) (seq 0 m)) as [q|] eqn:E.
      * apply find_some in E as [I V']. apply in_seq in I. f_equal. apply (U l); auto. lia.
      * exfalso. eapply find_none in E; [|apply in_seq; split; [lia|exact Lp]]. cbn beta in E. congruence.
  - split; [discriminate|]. intros (Q & _). lia.
Qed.

Lemma matching_inv F nv' : matching_formula P bits leafs effs adj vars nv = Some (F, nv') ->
  exists ca up dn od, let nv1 := nv + Z.of_nat (n * m) in let nv2 := nv1 + Z.of_nat n in let nv3 := nv2 + Z.of_nat m in
    let nv4 := snd (m_amo bits leafs effs vars nv nv3) in
    m_caused P leafs effs vars nv (nv2 + 1) = Some ca /\ m_up leafs vars nv = Some up /\ m_down P leafs effs vars nv = Some dn /\ m_order leafs adj vars nv nv4 = Some od /\
    F = fst (m_amo bits leafs effs vars nv nv3) ++ m_active leafs vars nv (nv1 + 1) ++ ca ++ up ++ dn ++ od /\ nv' = nv4 + Z.of_nat (n * m).
Proof.
  unfold matching_formula. cbv zeta. destruct (m_amo bits leafs effs vars nv (nv + Z.of_nat (n * m) + Z.of_nat n + Z.of_nat m)) as [amo nv4]. cbn [fst snd]. intros E.
  apply obind_some in E as (ca & Eca & E). apply obind_some in E as (up & Eup & E). apply obind_some in E as (dn & Edn & E). apply obind_some in E as (od & Eod & E). apply some_eq in E. apply pair_equal_spec in E as [E1 E2].
  exists ca, up, dn, od. repeat (split; [assumption|]). assumption.
Qed.

Lemma matching_sound F nv' v : matching_formula P bits leafs effs adj vars nv = Some (F, nv') -> satisfies v F ->
  place v leafs adj vars (read_pl v) /\ forall l p, read_pl v l = Some p <-> (l < n)%nat /\ (p < m)%nat /\ v (gv nv l p) = true.
Proof.
  intros E S. apply matching_inv in E as (ca & up & dn & od & E). cbv zeta in E. destruct E as (Eca & Eup & Edn & Eod & -> & ->).
  rewrite !sat_app in S. destruct S as (S1 & S2 & S3 & S4 & S5 & S6).
  set (nv3 := nv + Z.of_nat (n * m) + Z.of_nat n + Z.of_nat m) in *.
  assert (AO := amo_ok nv3 ltac:(unfold nv3; lia)). assert (LE := e_le _ _ _ _ AO). destruct AO as [_ _ _ [AO _]]. destruct (AO v S1) as [A1 A2]. clear AO.
  rewrite active_sat in S2 by lia. destruct S2 as [B1 B2].
  rewrite (caused_sat v (nv + Z.of_nat (n * m) + Z.of_nat n + 1) ca ltac:(lia) Eca) in S3. destruct S3 as [C1 C2].
  rewrite (up_sat v up Eup) in S4. rewrite (down_sat v dn Edn) in S5.
  set (fv := snd (m_amo bits leafs effs vars nv nv3)) in *.
  destruct (order_sat v fv od ltac:(unfold nv3 in LE; lia) Eod) as [WG OS]. apply OS in S6. clear OS. destruct S6 as (O1 & O2 & O3 & O4).
  assert (R := read_pl_some v A1). split; auto. split.
  - intros l p Q. apply R in Q. tauto.
  - intros l lf G H Q. assert (Ll : (l < n)%nat) by (eapply nth_lt; eauto). apply (B1 l lf G) in H. destruct (B2 l Ll H) as (p & Lp & V). assert (Q' : read_pl v l = Some p) by (apply R; auto). congruence.
  - intros l k lf kf p G G' HL HK Q Q'. apply R in Q, Q'. destruct Q as (Ll & Lp & V), Q' as (Lk & _ & V'). eapply A2; eauto.
  - intros l k p q PR Q Q'. apply R in Q, Q'. destruct Q as (Ll & Lp & V), Q' as (Lk & Lq & V'). destruct (Nat.le_gt_cases p q) as [|LT]; auto. exfalso.
    destruct p as [|p]; [lia|].
    assert (FT : forall x y, precedes adj x y -> v (gv fv x p) = true -> v (gv fv y p) = true). { intros x y T. induction T; eauto. intros. eapply O2; eauto. lia. }
    assert (FK : v (gv fv k p) = true).
    { apply clos_trans_t1n in PR. replace (Datatypes.S p) with (p + 1)%nat in V by lia. inversion PR as [? Q|s ? Q T]; subst; [eapply O1; eauto; lia|]. apply (FT s k); [now apply clos_t1n_trans|]. eapply O1; eauto. lia. }
    assert (FQ : forall d, (d <= p)%nat -> v (gv fv k (p - d)) = true).
    { induction d as [|d IH]; intros Ld; [now rewrite Nat.sub_0_r|]. apply O3; auto; [lia|]. replace (p - Datatypes.S d + 1)%nat with (p - d)%nat by lia. apply IH. lia. }
    specialize (FQ (p - q)%nat ltac:(lia)). replace (p - (p - q))%nat with q in FQ by lia. rewrite (O4 k q Lk Lq FQ) in V'. discriminate.
  - intros l lf p acts a G Q Gp O. apply R in Q as (_ & _ & V). eapply S4; eauto.
  - intros l lf p acts a G HE Q Gp Ha O. apply R in Q as (_ & _ & V). eapply S5; eauto.
  - intros p acts a Gp Ha O. assert (Lp : (p < m)%nat) by (eapply nth_lt; eauto). destruct (C2 p Lp) as (l & lf & G & HE & V); [apply (C1 p acts Gp); eauto|].
    exists l, lf. split; auto. split; auto. apply R. split; auto. apply nth_error_Some. congruence.
Qed.

Definition activeb (v : assignment) (l : pleaf) : bool := existsb (fun x => match fst x with Some y => v y | None => false end) l.
Lemma activeb_iff v l : activeb v l = true <-> active v l.
Proof.
  unfold activeb, active, occurs. rewrite existsb_exists. split.
  - intros ([[y|] a] & I & V); cbn in V; [|discriminate]. eauto.
  - intros (a & x & I & V). exists (Some x, a). auto.
Qed.
Definition effb (a : nat) : bool := match has_effect P a with Some b => b | None => false end.
Lemma effb_iff a : effb a = true <-> effectful P a.
Proof.
  unfold effb. destruct (has_effect P a) as [e|] eqn:E; [apply (effect_some a e E)|]. split; [discriminate|]. intros H. exfalso.
  assert (L : (a < length (p_cost P))%nat). { destruct H as (f & [(l & Q & _)|(l & Q & _)]); [rewrite <- LA|rewrite <- LD]; apply nth_error_Some; congruence. }
  destruct (effect_iff a L) as (e & E' & _). congruence.
Qed.
Definition posb (v : assignment) (acts : leaf) : bool := existsb (fun x => v (fst x) && effb (snd x)) acts.
Lemma posb_iff v acts : posb v acts = true <-> exists a, effectful P a /\ happens v acts a.
Proof.
  unfold posb, happens. rewrite existsb_exists. split.
  - intros ([x a] & I & V). apply andb_true_iff in V as [V E]. apply effb_iff in E. cbn [fst snd] in *. eauto.
  - intros (a & He & x & I & V). exists (x, a). split; auto. cbn. rewrite V. now apply effb_iff.
Qed.

Lemma placement_agree v v' pl : (forall x, 1 <= x <= nv -> v x = v' x) -> place v leafs adj vars pl -> place v' leafs adj vars pl.
Proof.
  intros A [H1 H2 H3 H4 H5 H6 H7].
  assert (OC : forall l lf a, nth_error leafs l = Some lf -> (occurs v lf a <-> occurs v' lf a)).
  { intros l lf a G. split; intros (x & I & V); exists x; (split; [auto|]); assert (Z := lo_vars _ _ _ LO lf x a (nth_error_In _ _ G) I); rewrite <- V; [symmetry|]; auto. }
  assert (HA : forall p acts a, nth_error vars p = Some acts -> (happens v acts a <-> happens v' acts a)).
  { intros p acts a G. split; intros (x & I & V); exists x; (split; [auto|]); assert (Z := VR acts x a (nth_error_In _ _ G) I); rewrite <- V; [symmetry|]; apply A; lia. }
  split; auto.
  - intros l lf G (a & Ha). apply (H2 l lf G). exists a. now apply (OC l).
  - intros l lf p acts a G Q Gp O. apply (HA p); auto. eapply H5; eauto. now apply (OC l).
  - intros l lf p acts a G HE Q Gp Ha O. apply (OC l); auto. eapply H6; eauto. now apply (HA p).
  - intros p acts a Gp Ha O. eapply H7; eauto. now apply (HA p).
Qed.

Lemma matching_complete F nv' v pl : matching_formula P bits leafs effs adj vars nv = Some (F, nv') -> dag adj -> place v leafs adj vars pl ->
  exists v', (forall x, x <= nv \/ nv' < x -> v' x = v x) /\ satisfies v' F.
Proof.
  intros E DG PL. assert (PL0 := PL). apply matching_inv in E as (ca & up & dn & od & E). cbv zeta in E. destruct E as (Eca & Eup & Edn & Eod & -> & ->).
  set (nv1 := nv + Z.of_nat (n * m)) in *. set (nv2 := nv1 + Z.of_nat n) in *. set (nv3 := nv2 + Z.of_nat m) in *.
  set (w := fun x => if (nv <? x) && (x <=? nv1) then match pl (Z.to_nat (x - nv - 1) / m)%nat with Some p => Nat.eqb p (Z.to_nat (x - nv - 1) mod m) | None => false end
    else if (nv1 <? x) && (x <=? nv2) then activeb v (nth (Z.to_nat (x - nv1 - 1)) leafs [])
    else if (nv2 <? x) && (x <=? nv3) then posb v (nth (Z.to_nat (x - nv2 - 1)) vars [])
    else v x).
  assert (WV : forall x, x <= nv \/ nv3 < x -> w x = v x).
  { intros x Hx. unfold w. destruct (Z.ltb_spec nv x), (Z.leb_spec x nv1), (Z.ltb_spec nv1 x), (Z.leb_spec x nv2), (Z.ltb_spec nv2 x), (Z.leb_spec x nv3); cbn [andb]; auto; lia. }
  assert (WM : forall l p, (l < n)%nat -> (p < m)%nat -> (w (gv nv l p) = true <-> pl l = Some p)).
  { intros l p Ll Lp. assert (R := grid_rng nv l p Ll Lp). unfold w. fold nv1 in R. destruct (Z.ltb_spec nv (gv nv l p)), (Z.leb_spec (gv nv l p) nv1); cbn [andb]; try lia.
    replace (Z.to_nat (gv nv l p - nv - 1)) with (l * m + p)%nat by (unfold grid_var; lia). rewrite Nat.div_add_l by lia. rewrite Nat.div_small by lia. rewrite Nat.add_0_r.
    rewrite Nat.add_comm, Nat.mod_add by lia. rewrite Nat.mod_small by lia. destruct (pl l) as [q|]; [rewrite Nat.eqb_eq; split; congruence|split; discriminate]. }
  assert (WA : forall l lf, nth_error leafs l = Some lf -> w (nv1 + 1 + Z.of_nat l) = activeb v lf).
  { intros l lf G. assert (Ll : (l < n)%nat) by (eapply nth_lt; eauto). unfold w.
    destruct (Z.ltb_spec nv (nv1 + 1 + Z.of_nat l)), (Z.leb_spec (nv1 + 1 + Z.of_nat l) nv1), (Z.ltb_spec nv1 (nv1 + 1 + Z.of_nat l)), (Z.leb_spec (nv1 + 1 + Z.of_nat l) nv2); cbn [andb]; try lia.
    replace (Z.to_nat (nv1 + 1 + Z.of_nat l - nv1 - 1)) with l by lia. now rewrite (nth_error_nth leafs l [] G). }
  assert (WP : forall p acts, nth_error vars p = Some acts -> w (nv2 + 1 + Z.of_nat p) = posb v acts).
  { intros p acts G. assert (Lp : (p < m)%nat) by (eapply nth_lt; eauto). unfold w.
    destruct (Z.leb_spec (nv2 + 1 + Z.of_nat p) nv1), (Z.leb_spec (nv2 + 1 + Z.of_nat p) nv2), (Z.ltb_spec nv2 (nv2 + 1 + Z.of_nat p)), (Z.leb_spec (nv2 + 1 + Z.of_nat p) nv3); rewrite ?andb_false_r; cbn [andb]; try lia.
    replace (Z.to_nat (nv2 + 1 + Z.of_nat p - nv2 - 1)) with p by lia. now rewrite (nth_error_nth vars p [] G). }
  assert (AO := amo_ok nv3 ltac:(unfold nv3, nv2, nv1; lia)). assert (LE := e_le _ _ _ _ AO). assert (AV := e_vars _ _ _ _ AO). destruct AO as [_ _ _ [_ AO]]. destruct (AO w) as (w1 & A1 & S1).
  { split.
    - intros l p q Ll Lp Lq V1 V2. apply WM in V1, V2; auto. congruence.
    - intros l k lf kf p G G' HL HK Lp V1 V2. apply WM in V1, V2; auto; try (eapply nth_lt; eauto). eapply (pl_one _ _ _ _ _ _ PL); eauto. }
  clear AO. set (fv := snd (m_amo bits leafs effs vars nv nv3)) in *.
  destruct (order_sat w1 fv od ltac:(unfold nv3, nv2, nv1 in LE; lia) Eod) as [WG _].
  destruct (precedes_dec adj WG DG) as (pb & PB).
  set (forb := fun l p => existsb (fun k => pb k l && match pl k with Some q => Nat.ltb p q | None => false end) (seq 0 n)).
  assert (FI : forall l p, forb l p = true <-> exists k q, precedes adj k l /\ pl k = Some q /\ (p < q)%nat).
  { intros l p. unfold forb. rewrite existsb_exists. split.
    - intros (k & _ & H). apply andb_true_iff in H as [H1 H2]. apply PB in H1. destruct (pl k) as [q|] eqn:Q; [|discriminate]. apply Nat.ltb_lt in H2. eauto.
    - intros (k & q & H1 & H2 & H3). exists k. split; [apply in_seq; assert (R := pl_rng _ _ _ _ _ _ PL k q H2); lia|]. rewrite H2. apply andb_true_iff. split; [now apply PB|]. now apply Nat.ltb_lt. }
  set (w2 := fun x => if (fv <? x) && (x <=? fv + Z.of_nat (n * m)) then forb (Z.to_nat (x - fv - 1) / m)%nat (Z.to_nat (x - fv - 1) mod m)%nat else w1 x).
  assert (W2 : forall x, x <= fv \/ fv + Z.of_nat (n * m) < x -> w2 x = w1 x).
  { intros x Hx. unfold w2. destruct (Z.ltb_spec fv x), (Z.leb_spec x (fv + Z.of_nat (n * m))); cbn [andb]; auto; lia. }
  assert (W2F : forall l p, (l < n)%nat -> (p < m)%nat -> w2 (gv fv l p) = forb l p).
  { intros l p Ll Lp. assert (R := grid_rng fv l p Ll Lp). unfold w2. destruct (Z.ltb_spec fv (gv fv l p)), (Z.leb_spec (gv fv l p) (fv + Z.of_nat (n * m))); cbn [andb]; try lia.
    replace (Z.to_nat (gv fv l p - fv - 1)) with (l * m + p)%nat by (unfold grid_var; lia). rewrite Nat.div_add_l by lia. rewrite Nat.div_small by lia. rewrite Nat.add_0_r.
    rewrite Nat.add_comm, Nat.mod_add by lia. rewrite Nat.mod_small by lia. reflexivity. }
  assert (W3 : forall x, x <= nv3 -> w2 x = w x). { intros x Hx. rewrite W2 by lia. apply A1. lia. }
  assert (W4 : forall x, x <= nv -> w2 x = v x). { intros x Hx. rewrite W3 by (unfold nv3, nv2, nv1; lia). apply WV. now left. }
  assert (WM2 : forall l p, (l < n)%nat -> (p < m)%nat -> (w2 (gv nv l p) = true <-> pl l = Some p)).
  { intros l p Ll Lp. rewrite W3; [now apply WM|]. assert (R := grid_rng nv l p Ll Lp). unfold nv3, nv2, nv1. lia. }
  assert (PL2 := placement_agree v w2 pl (fun x Hx => eq_sym (W4 x (proj2 Hx))) PL).
  assert (LN : forall l lf, nth_error leafs l = Some lf -> (l < n)%nat) by (intros l lf G; eapply nth_lt; eauto).
  assert (LM : forall p acts, nth_error vars p = Some acts -> (p < m)%nat) by (intros p acts G; eapply nth_lt; eauto).
  assert (AG : forall lf, In lf leafs -> (active v lf <-> active w2 lf)).
  { intros lf G. split; intros (a & x & I & V); exists a, x; (split; [auto|]); assert (Z := lo_vars _ _ _ LO lf x a G I); rewrite <- V; [|symmetry]; apply W4; lia. }
  assert (HG : forall acts a, In acts vars -> (happens v acts a <-> happens w2 acts a)).
  { intros acts a G. split; intros (x & I & V); exists x; (split; [auto|]); assert (Z := VR acts x a G I); rewrite <- V; [|symmetry]; apply W4; lia. }
  exists w2. split.
  - intros x Hx. rewrite W2, A1 by lia. apply WV. unfold nv3, nv2, nv1 in *. lia.
  - rewrite !sat_app. split; [|split; [|split; [|split; [|split]]]].
    + eapply sat_agree; [exact AV| |exact S1]. intros x Hx. symmetry. apply W2. lia.
    + apply active_sat; eauto; [unfold nv1; lia|]. split.
      * intros l lf G. rewrite W3 by (assert (Q := LN l lf G); unfold nv3, nv2; lia). rewrite (WA l lf G), activeb_iff. apply AG. eapply nth_error_In; eauto.
      * intros l Ll V. destruct (nth_error leafs l) as [lf|] eqn:G; [|apply nth_error_None in G; lia]. rewrite W3 in V by (unfold nv3, nv2; lia). rewrite (WA l lf G) in V. apply activeb_iff in V.
        assert (Q := pl_all _ _ _ _ _ _ PL l lf G V). destruct (pl l) as [p|] eqn:QP; [|congruence]. assert (R := pl_rng _ _ _ _ _ _ PL l p QP). exists p. split; [tauto|]. now apply WM2.
    + apply (caused_sat w2 (nv2 + 1) ca); auto; [unfold nv2, nv1; lia|]. split.
      * intros p acts G. rewrite W3 by (assert (Q := LM p acts G); unfold nv3; lia). rewrite (WP p acts G), posb_iff.
        split; intros (a & Ha & H); exists a; (split; [auto|]); apply (HG acts a (nth_error_In _ _ G)); auto.
      * intros p Lp V. destruct (nth_error vars p) as [acts|] eqn:G; [|apply nth_error_None in G; lia]. rewrite W3 in V by (unfold nv3; lia). rewrite (WP p acts G) in V. apply posb_iff in V as (a & Ha & H).
        destruct (pl_caused _ _ _ _ _ _ PL p acts a G Ha H) as (l & lf & Gl & HE & Q). exists l, lf. split; auto. split; auto. apply WM2; eauto.
    + apply (up_sat w2 up); auto. intros p acts l lf a Gp Gl V O. eapply (pl_up _ _ _ _ _ _ PL2); eauto. apply WM2; eauto.
    + apply (down_sat w2 dn); auto. intros p acts l lf a Gp Gl HE V Ha O. eapply (pl_down _ _ _ _ _ _ PL2); eauto. apply WM2; eauto.
    + assert (EL : forall l k, edge adj l k -> (l < n)%nat /\ (k < n)%nat). { intros l k Q. split; [|rewrite <- AN; eauto]. destruct Q as (ss & Es & _). rewrite <- AN. apply nth_error_Some. congruence. }
      apply (order_sat w2 fv od); auto; [unfold nv3, nv2, nv1 in LE; lia|]. repeat apply conj.
      * intros l k p Q Lp V. destruct (EL l k Q). apply WM2 in V; auto. rewrite W2F by (auto; lia). apply FI. exists l, (p + 1)%nat. split; [now apply t_step|]. split; auto. lia.
      * intros l k p Q Lp V. destruct (EL l k Q). rewrite W2F in * by auto. apply FI in V as (j & q & J1 & J2 & J3). apply FI. exists j, q. split; auto. eapply t_trans; [exact J1|]. now apply t_step.
      * intros l p Ll Lp V. rewrite W2F in * by (auto; lia). apply FI in V as (j & q & J1 & J2 & J3). apply FI. exists j, q. split; auto. split; auto. lia.
      * intros l p Ll Lp V. rewrite W2F in V by auto. apply FI in V as (j & q & J1 & J2 & J3). apply not_true_is_false. intros V. apply WM2 in V; auto. assert (Q := pl_ord _ _ _ _ _ _ PL j l q p J1 J2 V). lia.
Qed.

(** the formula is defined *)
Lemma matching_defined : wf_graph adj -> (forall acts l x a, In acts vars -> In l leafs -> In (Some x, a) l -> In a (map snd acts)) ->
  exists F nv', matching_formula P bits leafs effs adj vars nv = Some (F, nv').
Proof.
  intros WG AC. unfold matching_formula. cbv zeta. destruct (m_amo bits leafs effs vars nv (nv + Z.of_nat (n * m) + Z.of_nat n + Z.of_nat m)) as [amo nv4].
  assert (OB : forall (A B C : Type) (f : A -> option B) (l : list A) (k : list B -> C), (forall a, In a l -> exists b, f a = Some b) -> exists r, obind (omap f l) (fun cs => Some (k cs)) = Some r).
  { intros A B C f l k H. destruct (omap_ok f l H) as (r & ->). cbn. eauto. }
  assert (D1 : exists ca, m_caused P leafs effs vars nv (nv + Z.of_nat (n * m) + Z.of_nat n + 1) = Some ca).
  { unfold m_caused. apply OB. intros [p acts] I. apply in_enum in I. cbn [fst snd].
    assert (Q : exists vs, effect_vars P acts = Some vs); [|destruct Q as (vs & ->); cbn; eauto]. unfold effect_vars. apply OB. intros [x a] I'. cbn [fst snd].
    destruct (effect_iff a (proj2 (VR acts x a (nth_error_In _ _ I) I'))) as (e & -> & _). cbn. eauto. }
  assert (D2 : exists up, m_up leafs vars nv = Some up).
  { unfold m_up. apply OB. intros [p acts] I. apply in_enum in I. cbn [fst snd]. apply OB. intros [l lf] I'. apply in_enum in I'. cbn [fst snd]. unfold m_up_leaf. apply OB.
    intros [[y|] a] Iy; cbn [fst snd]; [|eauto]. destruct (last_of acts a) as [z|] eqn:EL; [cbn; eauto|]. apply last_of_none in EL. destruct EL. eapply AC; eauto using nth_error_In. }
  assert (D3 : exists dn, m_down P leafs effs vars nv = Some dn).
  { unfold m_down. apply OB. intros [l lf] I. apply in_enum in I. cbn [fst snd]. destruct (nth l effs false); [|eauto]. apply OB. intros [p acts] I'. apply in_enum in I'. cbn [fst snd]. unfold m_down_pos. apply OB.
    intros [x a] Ix. cbn [fst snd]. destruct (effect_iff a (proj2 (VR acts x a (nth_error_In _ _ I') Ix))) as (e & -> & _). cbn [obind]. eauto. }
  assert (D4 : exists od, m_order leafs adj vars nv nv4 = Some od).
  { unfold m_order. cbv zeta. apply OB.
    intros l I. apply in_seq in I. unfold get. destruct (nth_error adj l) as [ss|] eqn:G; [|apply nth_error_None in G; lia]. cbn [obind].
    replace (forallb (fun s => Nat.ltb s n) ss) with true; [eauto|]. symmetry. apply forallb_forall. intros s Is. apply Nat.ltb_lt. rewrite <- AN. apply (WG l s). exists ss. auto. }
  destruct D1 as (ca & ->), D2 as (up & ->), D3 as (dn & ->), D4 as (od & ->). cbn [obind]. eauto.
Qed.
Lemma matching_le F nv' : matching_formula P bits leafs effs adj vars nv = Some (F, nv') -> nv <= nv'.
Proof.
  intros E. apply matching_inv in E as (ca & up & dn & od & _ & _ & _ & _ & _ & ->).
  assert (Q := e_le _ _ _ _ (amo_ok (nv + Z.of_nat (n * m) + Z.of_nat n + Z.of_nat m) ltac:(lia))). lia.
Qed.
End Matching.
