(** Proofs about symbolic variables and transition relations. *)
From Verif Require Import Base Htn_problem Htn_spec Sas_spec Sas_proof Bdd_model Bdd_spec.

(** ** Numbers and layout *)

Lemma value_lt r idx : value r idx < 2 ^ length idx.
Proof. induction idx as [|v l IH]; cbn [value length Nat.pow]; [lia|]. destruct (r v); lia. Qed.
Lemma value_ext r r' idx : (forall x, In x idx -> r x = r' x) -> value r idx = value r' idx.
Proof. induction idx as [|v l IH]; cbn [value]; intros H; [reflexivity|]. rewrite (H v (or_introl eq_refl)), IH; [reflexivity|]. intros. apply H. now right. Qed.
Lemma value_bits r r' idx : value r idx = value r' idx -> forall x, In x idx -> r x = r' x.
Proof.
  induction idx as [|v l IH]; cbn [value]; intros H x []; [subst x|apply IH; [|assumption]].
  - destruct (r v), (r' v); try reflexivity; lia.
  - destruct (r v), (r' v); lia.
Qed.
Lemma value_map r f idx : value r (map f idx) = value (fun x => r (f x)) idx.
Proof. induction idx as [|v l IH]; cbn [value map]; [reflexivity|]. now rewrite IH. Qed.

Lemma gen_bdd_val idx : forall d r, d < 2 ^ length idx -> (gen_bdd idx d r = true <-> value r idx = d).
Proof.
  induction idx as [|v l IH]; intros d r H; cbn [gen_bdd value length Nat.pow] in *.
  - split; [lia|reflexivity].
  - unfold conj. rewrite andb_true_iff, IH by (apply Nat.div_lt_upper_bound; lia).
    pose proof (Nat.div2_odd d) as E. rewrite Nat.div2_div in E.
    unfold neg, bvar. destruct (Nat.odd d); cbn [Nat.b2n] in E; destruct (r v); cbn [negb]; intuition (try discriminate; lia).
Qed.

Lemma indices_nth V : forall n i v, nth_error V i = Some v -> exists m, nth i (indices n V) [] = map (fun j => m + 3 * j) (seq 0 (var_len v)) /\ n <= m /\ (m - n) mod 3 = 0.
Proof.
  induction V as [|w V IH]; intros n [|i] v H; cbn in H; try discriminate.
  - injection H as ->. exists n. cbn [indices nth]. split; [reflexivity|]. split; [lia|]. now replace (n - n) with 0 by lia.
  - destruct (IH (n + 3 * var_len w) i v H) as (m & E & L & M). exists m. cbn [indices nth]. split; [exact E|]. split; [lia|].
    replace (m - n) with ((m - (n + 3 * var_len w)) + var_len w * 3) by lia. now rewrite Nat.mod_add.
Qed.
Lemma indices_len V : forall n, length (indices n V) = length V.
Proof. induction V as [|w V IH]; intros n; cbn; [reflexivity|]. now rewrite IH. Qed.
Lemma indices_ge V : forall n i x, In x (nth i (indices n V) []) -> n <= x.
Proof.
  induction V as [|w V IH]; intros n i x H; cbn in H; [now destruct i|]. destruct i.
  - apply in_map_iff in H as (j & <- & _). lia.
  - apply IH in H. lia.
Qed.
Lemma pre_index_out V i : length V <= i -> pre_index V i = [].
Proof. intros H. unfold pre_index. apply nth_overflow. now rewrite indices_len. Qed.
Lemma pre_index_mod V i x : In x (pre_index V i) -> x mod 3 = 0.
Proof.
  unfold pre_index. intros H. destruct (nth_error V i) as [v|] eqn:E.
  - destruct (indices_nth V 0 i v E) as (m & E1 & _ & M). rewrite E1 in H. apply in_map_iff in H as (j & <- & _).
    rewrite Nat.sub_0_r in M. rewrite Nat.mul_comm, Nat.mod_add by lia. exact M.
  - apply nth_error_None in E. fold (pre_index V i) in H. now rewrite pre_index_out in H.
Qed.
Lemma indices_inj V : forall n i i' x, In x (nth i (indices n V) []) -> In x (nth i' (indices n V) []) -> i = i'.
Proof.
  induction V as [|w V IH]; intros n i i' x H H'; cbn in H, H'; [now destruct i|]. destruct i, i'; [reflexivity| | |].
  - apply indices_ge in H'. apply in_map_iff in H as (j & <- & J). apply in_seq in J. lia.
  - apply indices_ge in H. apply in_map_iff in H' as (j & <- & J). apply in_seq in J. lia.
  - f_equal. eapply IH; eassumption.
Qed.
Lemma pre_index_inj V i i' x : In x (pre_index V i) -> In x (pre_index V i') -> i = i'.
Proof. apply indices_inj. Qed.
Lemma pre_index_len V i v : nth_error V i = Some v -> length (pre_index V i) = var_len v.
Proof. intros E. unfold pre_index. destruct (indices_nth V 0 i v E) as (m & -> & _). now rewrite map_length, seq_length. Qed.
Lemma dom_fits v : dom_size v <= 2 ^ var_len v.
Proof. unfold var_len. destruct (Nat.le_gt_cases (dom_size v) 1); [|apply Nat.log2_up_spec; lia]. pose proof (Nat.pow_nonzero 2 (Nat.log2_up (dom_size v))). lia. Qed.

(** ** Values of facts *)

Lemma fact_dom V i d b v : fact_of V i d b -> nth_error V i = Some v -> d < dom_size v.
Proof. intros (f & l & E & F & L) E'. rewrite E in E'. injection E' as <-. unfold dom_size, is_strips. cbn [fst snd]. destruct (f =? l) eqn:Q; [apply Nat.eqb_eq in Q; lia|lia]. Qed.
Lemma pre_bdd_val V i d b f r : fact_of V i d b -> pre_bdd V i d = Some f -> (f r = true <-> value r (pre_index V i) = d).
Proof.
  intros F H. unfold pre_bdd in H. apply obind_some in H as (v & E & H). destruct (d <? dom_size v) eqn:Q; [|discriminate]. injection H as <-.
  apply gen_bdd_val. rewrite (pre_index_len V i v E). apply Nat.ltb_lt in Q. pose proof (dom_fits v). lia.
Qed.
Lemma eff_bdd_val V i d b f r : fact_of V i d b -> eff_bdd V i d = Some f -> (f r = true <-> value r (eff_index V i) = d).
Proof.
  intros F H. unfold eff_bdd in H. apply obind_some in H as (v & E & H). destruct (d <? dom_size v) eqn:Q; [|discriminate]. injection H as <-.
  apply gen_bdd_val. unfold eff_index. rewrite map_length, (pre_index_len V i v E). apply Nat.ltb_lt in Q. pose proof (dom_fits v). lia.
Qed.
Lemma pre_bdd_some V i d b : fact_of V i d b -> exists f, pre_bdd V i d = Some f.
Proof. intros F. pose proof F as (f & l & E & _). unfold pre_bdd, get. rewrite E. cbn [obind]. pose proof (fact_dom V i d b _ F E) as D. apply Nat.ltb_lt in D. rewrite D. eauto. Qed.
Lemma eff_bdd_some V i d b : fact_of V i d b -> exists f, eff_bdd V i d = Some f.
Proof. intros F. pose proof F as (f & l & E & _). unfold eff_bdd, get. rewrite E. cbn [obind]. pose proof (fact_dom V i d b _ F E) as D. apply Nat.ltb_lt in D. rewrite D. eauto. Qed.

Lemma var_of_fact V : forall k n i d b, (exists m, intervals n V m) -> fact_of V i d b -> var_of k V b = Some (k + i, d).
Proof.
  induction V as [|w V IH]; intros k n i d b (m & I) F.
  - destruct F as (f & l & E & _). now destruct i.
  - destruct I as (I1 & I2 & I3). cbn [var_of]. destruct i.
    + apply fact_of_0 in F as (F1 & F2).
      assert (E : var_of (S k) V b = None).
      { clear -I3 F2. assert (H : forall k n, intervals n V m -> b < n -> var_of k V b = None).
        { clear. induction V as [|w V IH]; intros k n I L; cbn [var_of]; [reflexivity|]. destruct I as (I1 & I2 & I3). rewrite (IH (S k) (S (snd w)) I3) by lia.
          replace (fst w <=? b) with false by (symmetry; apply Nat.leb_gt; lia). reflexivity. }
        apply (H _ _ I3). lia. }
      rewrite E. replace (fst w <=? b) with true by (symmetry; apply Nat.leb_le; lia). replace (b <=? snd w) with true by (symmetry; apply Nat.leb_le; lia).
      cbn. f_equal. f_equal; lia.
    + apply (proj1 (fact_of_cons w V i d b)) in F. rewrite (IH (S k) (S (snd w)) i d b (ex_intro _ m I3) F). f_equal. f_equal. lia.
Qed.

Lemma intervals_nth V : forall b n i v, intervals b V n -> nth_error V i = Some v -> fst v <= snd v.
Proof.
  induction V as [|w W IH]; intros b n i v H E; [now destruct i|]. destruct H as (I1 & I2 & I3).
  destruct i; cbn [nth_error] in E; [injection E as <-; lia|]. exact (IH _ _ _ _ I3 E).
Qed.

Section Vars.
  Variable V : list (nat * nat).
  Variable n : nat.
  Hypothesis INT : intervals 0 V n.

  Lemma vof i d b : fact_of V i d b -> var_of 0 V b = Some (i, d).
  Proof. intros F. apply (var_of_fact V 0 0 i d b (ex_intro _ n INT) F). Qed.
  Lemma fact_ex b : b < n -> exists i d, fact_of V i d b.
  Proof. intros L. apply (fact_of_exists V 0 n b INT). lia. Qed.
  Lemma shown_fact r i d b : fact_of V i d b -> (shown V r b <-> value r (pre_index V i) = d).
  Proof.
    intros F. split.
    - intros (i' & d' & F' & E). destruct (fact_of_inj V 0 n i d b i' d' INT F F') as (-> & ->). exact E.
    - intros E. now exists i, d.
  Qed.
  Lemma shown_n r b : shown V r b -> b < n.
  Proof. intros (i & d & F & _). pose proof (fact_of_range V 0 n i d b INT F). lia. Qed.

  (** *** Partial states *)
  Lemma partial_fold bits : (forall b, In b bits -> b < n) -> forall t0,
    exists t, ofold (fun res b => x <- var_of 0 V b ;; f <- pre_bdd V (fst x) (snd x) ;; Some (conj res f)) bits t0 = Some t /\
      forall r, t r = true <-> t0 r = true /\ forall b, In b bits -> shown V r b.
  Proof.
    induction bits as [|b bits IH]; intros R t0; cbn [ofold].
    - exists t0. split; [reflexivity|]. intros r. split; [intros H; split; [exact H|intros b []]|tauto].
    - destruct (fact_ex b (R b (or_introl eq_refl))) as (i & d & F). rewrite (vof _ _ _ F). cbn [obind fst snd].
      destruct (pre_bdd_some V i d b F) as (f & E). rewrite E. cbn [obind].
      destruct (IH (fun b' H => R b' (or_intror H)) (conj t0 f)) as (t & E1 & E2). exists t. split; [exact E1|].
      intros r. rewrite E2. unfold conj. rewrite andb_true_iff, (pre_bdd_val V i d b f r F E), <- (shown_fact r i d b F).
      split; [intros ((A & B) & C); split; [exact A|]; intros b' [<-|H]; auto|].
      intros (A & B). split; [split; [exact A|apply B; now left]|]. intros b' H. apply B. now right.
  Qed.
  Lemma partial_ok bits : (forall b, In b bits -> b < n) -> exists t, partial_bdd V bits = Some t /\ forall r, t r = true <-> forall b, In b bits -> shown V r b.
  Proof. intros R. destruct (partial_fold bits R one) as (t & E & H). exists t. split; [exact E|]. intros r. rewrite H. unfold one. tauto. Qed.

  (** *** States *)
  Lemma value_single r i : single V i -> value r (pre_index V i) = 0 \/ value r (pre_index V i) = 1.
  Proof.
    intros (f & E). pose proof (value_lt r (pre_index V i)) as L. rewrite (pre_index_len V i _ E) in L.
    assert (Q : var_len (f, f) = 1). { unfold var_len, dom_size, is_strips. cbn [fst snd]. rewrite Nat.eqb_refl. reflexivity. }
    rewrite Q in L. cbn in L. lia.
  Qed.
  Lemma pre_one i : i < length V -> exists f, pre_bdd V i 1 = Some f /\ forall r, f r = true <-> value r (pre_index V i) = 1.
  Proof.
    intros L. destruct (nth_error V i) as [v|] eqn:E; [|apply nth_error_None in E; lia]. unfold pre_bdd, get. rewrite E. cbn [obind].
    assert (D : 1 < dom_size v).
    { unfold dom_size, is_strips. destruct (fst v =? snd v) eqn:Q; [lia|]. apply Nat.eqb_neq in Q.
      pose proof (intervals_nth V 0 n i v INT E). lia. }
    apply Nat.ltb_lt in D. rewrite D. exists (gen_bdd (pre_index V i) 1). split; [reflexivity|]. intros r. apply gen_bdd_val.
    rewrite (pre_index_len V i v E). pose proof (dom_fits v). apply Nat.ltb_lt in D. lia.
  Qed.
  Lemma fold_missing xs l : (forall i, In i l -> i < length V) -> forall t0, exists t,
    ofold (fun res i => if memb i xs then Some res else f <- pre_bdd V i 1 ;; Some (conj res f)) l t0 = Some t /\
    forall r, t r = true <-> t0 r = true /\ forall i, In i l -> ~ In i xs -> value r (pre_index V i) = 1.
  Proof.
    induction l as [|i l IH]; intros R t0; cbn [ofold].
    - exists t0. split; [reflexivity|]. intros r. split; [intros H; split; [exact H|intros i []]|tauto].
    - destruct (memb i xs) eqn:M.
      + cbn [obind]. destruct (IH (fun j H => R j (or_intror H)) t0) as (t & E1 & E2). exists t. split; [exact E1|]. intros r. rewrite E2. apply memb_In in M.
        split; intros (A & B); (split; [exact A|]). * intros j [<-|H] N; [contradiction|auto]. * intros j H N. apply B; [now right|exact N].
      + destruct (pre_one i (R i (or_introl eq_refl))) as (f & E & F). rewrite E. cbn [obind]. apply memb_false in M.
        destruct (IH (fun j H => R j (or_intror H)) (conj t0 f)) as (t & E1 & E2). exists t. split; [exact E1|]. intros r. rewrite E2. unfold conj. rewrite andb_true_iff, F.
        split; [intros ((A & A') & B); split; [exact A|]; intros j [<-|H] N; auto|]. intros (A & B). split; [split; [exact A|apply B; [now left|exact M]]|].
        intros j H N. apply B; [now right|exact N].
  Qed.
  Lemma omap_vars bits : (forall b, In b bits -> b < n) -> exists xs, omap (fun b => x <- var_of 0 V b ;; Some (fst x)) bits = Some xs /\
    forall i, In i xs <-> exists b, In b bits /\ of_var V i b.
  Proof.
    induction bits as [|b bits IH]; intros R; cbn [omap].
    - exists []. split; [reflexivity|]. intros i. split; [intros []|intros (b & [] & _)].
    - destruct (fact_ex b (R b (or_introl eq_refl))) as (i & d & F). rewrite (vof _ _ _ F). cbn [obind fst].
      destruct (IH (fun b' H => R b' (or_intror H))) as (xs & -> & H). cbn [obind]. exists (i :: xs). split; [reflexivity|].
      intros j. split.
      + intros [<-|J]; [exists b; split; [now left|now exists d]|]. apply H in J as (b' & A & B). exists b'. split; [now right|exact B].
      + intros (b' & [<-|A] & d' & B); [|right; apply H; exists b'; split; [exact A|now exists d']].
        destruct (fact_of_inj V 0 n i d b j d' INT F B) as (-> & _). now left.
  Qed.
  Theorem state_ok bits : (forall b, In b bits -> b < n) -> one_value V (fun b => In b bits) ->
    exists t, state_bdd V bits = Some t /\ forall r, t r = true <-> same_state (shown V r) (fun b => In b bits).
  Proof.
    intros R ONE. unfold state_bdd. destruct (partial_ok bits R) as (t0 & -> & T0). cbn [obind]. destruct (omap_vars bits R) as (xs & -> & XS). cbn [obind].
    destruct (fold_missing xs (seq 0 (length V)) (fun i H => proj2 (proj1 (in_seq _ _ _) H)) t0) as (t & -> & T). exists t. split; [reflexivity|].
    intros r. rewrite T, T0. split.
    - intros (A & B) b. split; [|apply A]. intros S0. destruct S0 as (i & d & F & E).
      destruct (in_dec Nat.eq_dec i xs) as [J|J].
      + apply XS in J as (b' & B1 & d' & F'). pose proof (A b' B1) as S'. apply (shown_fact r i d' b' F') in S'. rewrite E in S'. subst d'. rewrite <- (fact_of_fun V i d b b' F F') in B1. exact B1.
      + pose proof (fact_of_lt V i d b F) as L. rewrite (B i) in E; [|apply in_seq; lia|exact J]. subst d. exfalso.
        destruct (single_dec V i) as [SI|SI]; [pose proof (single_fact V i 1 b SI F); lia|].
        destruct (ONE i L SI) as (c & C1 & C2). apply J, XS. exists c. split; [now apply (C2 c C1)|exact C1].
    - intros H. split; [intros b B; now apply H|]. intros i I N. apply in_seq in I as (_ & I).
      destruct (single_dec V i) as [SI|SI].
      + destruct (value_single r i SI) as [E|E]; [|exact E]. exfalso. destruct SI as (f & E').
        assert (F : fact_of V i 0 f) by (exists f, f; repeat split; [exact E'|lia|lia]).
        apply N, XS. exists f. split; [apply H; now apply (shown_fact r i 0 f F)|now exists 0].
      + exfalso. destruct (ONE i I SI) as (c & C1 & C2). apply N, XS. exists c. split; [now apply (C2 c C1)|exact C1].
  Qed.
End Vars.
