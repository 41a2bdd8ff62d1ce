(** Proofs about transition relations: image and preimage are exact. *)
From Verif Require Import Base Htn_problem Htn_spec Sas_spec Sas_proof Bdd_model Bdd_spec Bdd_proof Bdd_trans.

Section Image.
  Variable V : list (nat * nat).
  Variable P : problem.
  Hypothesis INT : intervals 0 V (p_nfacts P).
  Variable a : nat.
  Variables prec add del : list nat.
  Hypothesis GP : get (p_prec P) a = Some prec.
  Hypothesis GA : get (p_add P) a = Some add.
  Hypothesis GD : get (p_del P) a = Some del.
  Hypothesis RNG : forall b, In b prec \/ In b add \/ In b del -> b < p_nfacts P.
  Variable t : trel.
  Variable ks : list nat.
  Variable C : nat -> nat -> Prop.
  Hypothesis TR : trel_ok V prec add del t ks C.

  Lemma precs_iff b : precs P a b <-> In b prec.
  Proof. unfold precs, get in *. split; [intros (l & E & H); congruence|intros H; eauto]. Qed.
  Lemma adds_iff b : adds P a b <-> In b add.
  Proof. unfold adds, get in *. split; [intros (l & E & H); congruence|intros H; eauto]. Qed.
  Lemma dels_iff b : dels P a b <-> In b del.
  Proof. unfold dels, get in *. split; [intros (l & E & H); congruence|intros H; eauto]. Qed.

  Definition stepv (r r' : nat -> bool) : Prop :=
    (forall b, In b prec -> shown V r b) /\ (forall i, In i ks -> C i (value r' (pre_index V i))) /\
    (forall i, ~ In i ks -> value r' (pre_index V i) = value r (pre_index V i)).

  Lemma eff_len i : length (eff_index V i) = length (pre_index V i).
  Proof. apply map_length. Qed.

  Lemma stepv_iff r r' : single_effects P V -> one_value V (shown V r) -> (applicable P (shown V r) a -> one_value V (result P (shown V r) a)) ->
    (stepv r r' <-> applicable P (shown V r) a /\ same_state (shown V r') (result P (shown V r) a)).
  Proof.
    intros SE ONE NEXT. pose proof (shown_fact V _ INT) as SF. split.
    - intros (A & B & D). assert (APP : applicable P (shown V r) a) by (intros f F; apply precs_iff in F; auto). split; [exact APP|]. specialize (NEXT APP).
      assert (FACT : forall i d b, fact_of V i d b -> (shown V r' b <-> result P (shown V r) a b)).
      { intros i d b F. rewrite (SF r' i d b F). pose proof (fact_of_lt V i d b F) as L.
        destruct (in_dec Nat.eq_dec i ks) as [I|I].
        - specialize (B i I). pose proof (value_lt r' (pre_index V i)) as VL. rewrite <- eff_len in VL.
          destruct (to_eff _ _ _ _ _ _ _ TR i I) as [((SI & b1 & D1 & d1 & F1) & CI)|(ND & b1 & d1 & A1 & F1 & CI)]; apply (CI _ VL) in B.
          + assert (d = 0) by (apply (single_fact V i d b SI F)). assert (d1 = 0) by (apply (single_fact V i d1 b1 SI F1)). subst d d1. rewrite (fact_of_fun V i 0 b1 b F1 F) in D1.
            split; [contradiction|]. intros [Q|(_ & Q)]; [|exfalso; now apply Q, dels_iff]. exfalso. apply (SE a i b SI); [now exists 0|exact Q|now apply dels_iff].
          + rewrite B. destruct (single_dec V i) as [SI|SI].
            * assert (Z : d = 0) by (apply (single_fact V i d b SI F)). assert (Z1 : d1 = 0) by (apply (single_fact V i d1 b1 SI F1)). rewrite Z in F |- *. rewrite Z1 in F1 |- *. rewrite (fact_of_fun V i 0 b1 b F1 F) in A1.
              split; [intros _; left; now apply adds_iff|reflexivity].
            * destruct (NEXT i L SI) as (c & C1 & C2). assert (b1 = c) by (apply (C2 b1); [now exists d1|left; now apply adds_iff]). subst c.
              rewrite (C2 b) by (now exists d). split; [intros ->; apply (fact_of_fun V i d b b1 F F1)|intros ->; apply (fact_of_same V i d1 d b1 F1 F)].
        - rewrite (D i I), <- (SF r i d b F).
          assert (NA : forall c, of_var V i c -> ~ adds P a c) by (intros c O Q; apply I, (to_keys _ _ _ _ _ _ _ TR); left; exists c; split; [now apply adds_iff|exact O]).
          destruct (single_dec V i) as [SI|SI].
          + split; [intros H; right; split; [exact H|]; intros Q; apply I, (to_keys _ _ _ _ _ _ _ TR); right; split; [exact SI|]; exists b; split; [now apply dels_iff|now exists d]|].
            intros [Q|(Q & _)]; [exfalso; revert Q; apply NA; now exists d|exact Q].
          + destruct (NEXT i L SI) as (c & C1 & C2). destruct (ONE i L SI) as (c0 & C3 & C4). rewrite (C2 b) by (now exists d). rewrite (C4 b) by (now exists d).
            assert (Q : c = c0); [|now rewrite Q]. destruct (proj2 (C2 c C1) eq_refl) as [Q|(Q & _)]; [exfalso; exact (NA c C1 Q)|]. now apply (C4 c C1). }
      intros b. split; intros H.
      + pose proof (shown_n V _ INT r' b H) as L. destruct (fact_ex V _ INT b L) as (i & d & F). now apply (FACT i d b F).
      + assert (L : b < p_nfacts P) by (destruct H as [H|(H & _)]; [apply RNG; right; left; now apply adds_iff|apply (shown_n V _ INT r b H)]).
        destruct (fact_ex V _ INT b L) as (i & d & F). now apply (FACT i d b F).
    - intros (APP & SAME). specialize (NEXT APP). split; [intros b B; apply APP; now apply precs_iff|]. split.
      + intros i I. pose proof (value_lt r' (pre_index V i)) as VL. rewrite <- eff_len in VL.
        destruct (to_eff _ _ _ _ _ _ _ TR i I) as [((SI & b1 & D1 & d1 & F1) & CI)|(ND & b1 & d1 & A1 & F1 & CI)]; apply (CI _ VL).
        * intros E. assert (d1 = 0) by (apply (single_fact V i d1 b1 SI F1)). subst d1. apply (SF r' i 0 b1 F1) in E. apply SAME in E.
          destruct E as [Q|(_ & Q)]; [|now apply Q, dels_iff]. apply (SE a i b1 SI); [now exists 0|exact Q|now apply dels_iff].
        * apply (SF r' i d1 b1 F1), SAME. left. now apply adds_iff.
      + intros i I. destruct (Nat.lt_ge_cases i (length V)) as [L|L]; [|now rewrite pre_index_out].
        assert (NA : forall c, of_var V i c -> ~ adds P a c) by (intros c O Q; apply I, (to_keys _ _ _ _ _ _ _ TR); left; exists c; split; [now apply adds_iff|exact O]).
        destruct (single_dec V i) as [SI|SI].
        * pose proof SI as (f & E). assert (F : fact_of V i 0 f) by (exists f, f; repeat split; [exact E|lia|lia]).
          assert (Q : value r' (pre_index V i) = 0 <-> value r (pre_index V i) = 0).
          { rewrite <- (SF r' i 0 f F), <- (SF r i 0 f F), (SAME f). split; [intros [Q|(Q & _)]; [exfalso; revert Q; apply NA; now exists 0|exact Q]|].
            intros H. right. split; [exact H|]. intros Q. apply I, (to_keys _ _ _ _ _ _ _ TR). right. split; [exact SI|]. exists f. split; [now apply dels_iff|now exists 0]. }
          destruct (value_single V r i SI), (value_single V r' i SI); lia.
        * destruct (NEXT i L SI) as (c & (d & F) & C2). pose proof (proj2 (C2 c (ex_intro _ d F)) eq_refl) as H. pose proof (proj2 (SAME c) H) as H'.
          apply (SF r' i d c F) in H'. rewrite H'. symmetry. apply (SF r i d c F). destruct H as [Q|(Q & _)]; [exfalso; revert Q; apply NA; now exists d|exact Q].
  Qed.

  (** *** The BDD operations *)
  Lemma S_mod x : In x (t_s t) -> x mod 3 = 0.
  Proof. rewrite (to_s _ _ _ _ _ _ _ TR). intros H. apply in_flat_map in H as (i & _ & H). now apply pre_index_mod in H. Qed.
  Lemma S_pre i x : In x (pre_index V i) -> (In x (t_s t) <-> In i ks).
  Proof.
    intros H. rewrite (to_s _ _ _ _ _ _ _ TR), in_flat_map. split; [intros (j & J & X); now rewrite (pre_index_inj V i j x H X)|intros I; eauto].
  Qed.
  Lemma mod_plus x k : x mod 3 = 0 -> k < 3 -> (x + k) mod 3 = k.
  Proof. intros H L. rewrite <- Nat.add_mod_idemp_l by lia. rewrite H. apply Nat.mod_small. lia. Qed.
  Lemma sw_in x : In x (t_s t) -> sw (t_s t) (t_sp t) x = x + 1.
  Proof. rewrite (to_sp _ _ _ _ _ _ _ TR). apply sw_pre. intros y. apply S_mod. Qed.
  Lemma sw_in1 x : In x (t_s t) -> sw (t_s t) (t_sp t) (x + 1) = x.
  Proof. rewrite (to_sp _ _ _ _ _ _ _ TR). apply sw_eff. intros y. apply S_mod. Qed.
  Lemma sw_pre_out i x : In x (pre_index V i) -> ~ In i ks -> sw (t_s t) (t_sp t) x = x.
  Proof.
    intros H N. rewrite (to_sp _ _ _ _ _ _ _ TR). apply sw_other; [now rewrite (S_pre i x H)|].
    intros y Y E. pose proof (S_mod y Y) as M. pose proof (mod_plus y 1 M ltac:(lia)) as M1. rewrite <- E, (pre_index_mod V i x H) in M1. discriminate.
  Qed.
  Lemma aux_mod i x : In x (aux_index V i) -> x mod 3 = 2.
  Proof. intros H. apply in_map_iff in H as (y & <- & Y). apply mod_plus; [now apply pre_index_mod in Y|lia]. Qed.
  Lemma aux_S i x : In x (aux_index V i) -> ~ In x (t_s t).
  Proof. intros H K. apply aux_mod in H. rewrite (S_mod x K) in H. discriminate. Qed.
  Lemma aux_Sp i x : In x (aux_index V i) -> ~ In x (t_sp t).
  Proof. intros H K. apply aux_mod in H. rewrite (to_sp _ _ _ _ _ _ _ TR) in K. apply in_map_iff in K as (y & <- & Y). rewrite (mod_plus y 1 (S_mod y Y)) in H by lia. discriminate. Qed.
  Lemma sw_aux i x : In x (aux_index V i) -> sw (t_s t) (t_sp t) x = x.
  Proof.
    intros H. rewrite (to_sp _ _ _ _ _ _ _ TR). apply sw_other; [now apply (aux_S i)|].
    intros y Y E. apply (aux_Sp i x H). rewrite (to_sp _ _ _ _ _ _ _ TR). apply in_map_iff. exists y. split; [now symmetry|exact Y].
  Qed.
  Lemma pre_Sp i x : In x (pre_index V i) -> ~ In x (t_sp t).
  Proof. intros H K. apply pre_index_mod in H. rewrite (to_sp _ _ _ _ _ _ _ TR) in K. apply in_map_iff in K as (y & <- & Y). rewrite (mod_plus y 1 (S_mod y Y)) in H by lia. discriminate. Qed.
  Lemma plus_S x : In x (t_s t) -> ~ In (x + 1) (t_s t).
  Proof. intros H K. apply S_mod in K. rewrite (mod_plus x 1 (S_mod x H)) in K by lia. discriminate. Qed.

  Lemma shown_ext r r' : (forall i x, In x (pre_index V i) -> r x = r' x) -> forall b, shown V r b <-> shown V r' b.
  Proof.
    intros H b. unfold shown. split; intros (i & d & F & E); exists i, d; (split; [exact F|]); rewrite <- E; apply value_ext; intros x X; [symmetry|]; now apply (H i).
  Qed.
  Lemma t_proper : proper (t_bdd t).
  Proof.
    intros r r' E. apply Bool.eq_true_iff_eq. rewrite !(to_bdd _ _ _ _ _ _ _ TR).
    assert (Q : forall idx, value r idx = value r' idx) by (intros idx; apply value_ext; auto).
    assert (SH : forall b, shown V r b <-> shown V r' b) by (apply shown_ext; auto).
    split; intros (A & B); (split; [intros b K; apply SH; auto|intros i I; specialize (B i I); now rewrite ?Q in *]).
  Qed.
  Lemma over_proper B : over_pre_aux V B -> proper B.
  Proof. intros H r r' E. apply H. auto. Qed.
  Lemma swap_proper xs ys B : proper B -> proper (swap xs ys B).
  Proof. intros H r r' E. unfold swap. apply H. auto. Qed.
  Lemma conj_proper f g : proper f -> proper g -> proper (conj f g).
  Proof. intros F G r r' E. unfold conj. now rewrite (F r r' E), (G r r' E). Qed.

  Lemma image_iff B r' : over_pre_aux V B -> (image t B r' = true <-> exists r, B r = true /\ same_aux V r r' /\ stepv r r').
  Proof.
    intros OV. unfold image, swap, and_abstract. rewrite exq_iff by (apply conj_proper; [apply t_proper|now apply over_proper]). unfold conj. split.
    - intros (r & E & F). apply andb_true_iff in F as (T & BR). exists r. split; [exact BR|]. split.
      + intros i x X. rewrite E by (now apply (aux_S i)). now rewrite (sw_aux i).
      + apply (to_bdd _ _ _ _ _ _ _ TR) in T as (A & D). split; [exact A|]. split.
        * intros i I. specialize (D i I). unfold eff_index in D. rewrite value_map in D. erewrite value_ext; [exact D|]. intros x X. cbn beta.
          pose proof (proj2 (S_pre i x X) I) as S1. rewrite E by (now apply plus_S). now rewrite sw_in1.
        * intros i I. apply value_ext. intros x X. rewrite E by (now rewrite (S_pre i x X)). now rewrite (sw_pre_out i).
    - intros (r & BR & AUX & A & D & K). set (r1 := fun v => if memb v (t_s t) then r v else r' (sw (t_s t) (t_sp t) v)).
      assert (IN : forall v, In v (t_s t) -> r1 v = r v) by (intros v M; unfold r1; apply memb_In in M; now rewrite M).
      assert (OUT : forall v, ~ In v (t_s t) -> r1 v = r' (sw (t_s t) (t_sp t) v)) by (intros v M; unfold r1; apply memb_false in M; now rewrite M).
      assert (PRE : forall i x, In x (pre_index V i) -> r1 x = r x).
      { intros i x X. destruct (in_dec Nat.eq_dec i ks) as [I|I]; [apply IN; now apply (S_pre i x X)|].
        rewrite OUT by (now rewrite (S_pre i x X)). rewrite (sw_pre_out i x X I). exact (value_bits r' r (pre_index V i) (K i I) x X). }
      exists r1. split; [exact OUT|]. apply andb_true_iff. split.
      + apply (to_bdd _ _ _ _ _ _ _ TR). split; [intros b M; apply (shown_ext r1 r PRE); auto|].
        intros i I. unfold eff_index. rewrite value_map. erewrite value_ext; [exact (D i I)|]. intros x X. cbn beta.
        pose proof (proj2 (S_pre i x X) I) as S1. rewrite OUT by (now apply plus_S). now rewrite sw_in1.
      + rewrite <- BR. apply OV. intros i x [X|X]; [now apply (PRE i)|]. rewrite OUT by (now apply (aux_S i)). rewrite (sw_aux i x X). symmetry. now apply (AUX i).
  Qed.

  Lemma preimage_iff B r : over_pre_aux V B -> (preimage t B r = true <-> exists r', B r' = true /\ same_aux V r r' /\ stepv r r').
  Proof.
    intros OV. unfold preimage, and_abstract. rewrite exq_iff by (apply conj_proper; [apply t_proper|apply swap_proper; now apply over_proper]). unfold conj, swap. split.
    - intros (r1 & E & F). apply andb_true_iff in F as (T & BR). exists (fun v => r1 (sw (t_s t) (t_sp t) v)). split; [exact BR|]. split.
      + intros i x X. cbn beta. rewrite (sw_aux i x X). symmetry. apply E. now apply (aux_Sp i).
      + assert (PRE : forall i x, In x (pre_index V i) -> r1 x = r x) by (intros i x X; apply E; now apply (pre_Sp i)).
        apply (to_bdd _ _ _ _ _ _ _ TR) in T as (A & D). split; [intros b M; apply (shown_ext r1 r PRE); auto|]. split.
        * intros i I. specialize (D i I). unfold eff_index in D. rewrite value_map in D. erewrite value_ext; [exact D|]. intros x X. cbn beta.
          now rewrite (sw_in x (proj2 (S_pre i x X) I)).
        * intros i I. apply value_ext. intros x X. rewrite (sw_pre_out i x X I). now apply (PRE i).
    - intros (r' & BR & AUX & A & D & K). set (r1 := fun v => if memb v (t_sp t) then r' (v - 1) else r v).
      assert (IN : forall x, In x (t_s t) -> r1 (x + 1) = r' x).
      { intros x X. unfold r1. assert (M : In (x + 1) (t_sp t)) by (rewrite (to_sp _ _ _ _ _ _ _ TR); now apply (in_map (fun x => x + 1))).
        apply memb_In in M. rewrite M. f_equal. lia. }
      assert (OUT : forall v, ~ In v (t_sp t) -> r1 v = r v) by (intros v M; unfold r1; apply memb_false in M; now rewrite M).
      assert (PRE : forall i x, In x (pre_index V i) -> r1 x = r x) by (intros i x X; apply OUT; now apply (pre_Sp i)).
      exists r1. split; [exact OUT|]. apply andb_true_iff. split.
      + apply (to_bdd _ _ _ _ _ _ _ TR). split; [intros b M; apply (shown_ext r1 r PRE); auto|].
        intros i I. unfold eff_index. rewrite value_map. erewrite value_ext; [exact (D i I)|]. intros x X. cbn beta. apply IN. now apply (S_pre i x X).
      + rewrite <- BR. apply OV. intros i x [X|X].
        * destruct (in_dec Nat.eq_dec i ks) as [I|I].
          -- rewrite (sw_in x (proj2 (S_pre i x X) I)). apply IN. now apply (S_pre i x X).
          -- rewrite (sw_pre_out i x X I), (PRE i x X). symmetry. exact (value_bits r' r (pre_index V i) (K i I) x X).
        * rewrite (sw_aux i x X), OUT by (now apply (aux_Sp i)). now apply (AUX i).
  Qed.

  Lemma image_over B : over_pre_aux V B -> over_pre_aux V (image t B).
  Proof.
    intros OV. assert (H : forall r r', (forall i x, In x (pre_index V i) \/ In x (aux_index V i) -> r x = r' x) -> image t B r = true -> image t B r' = true).
    { intros r r' E. rewrite !(image_iff B _ OV). assert (Q : forall i, value r (pre_index V i) = value r' (pre_index V i)) by (intros i; apply value_ext; intros x X; apply (E i); now left).
      intros (r0 & B0 & AUX & A & D & K). exists r0. split; [exact B0|]. split; [intros i x X; rewrite (AUX i x X); apply (E i x (or_intror X))|].
      split; [exact A|]. split; intros i I; rewrite <- Q; auto. }
    intros r r' E. apply Bool.eq_true_iff_eq. split; apply H; [exact E|]. intros i x X. symmetry. now apply (E i).
  Qed.
  Lemma preimage_over B : over_pre_aux V B -> over_pre_aux V (preimage t B).
  Proof.
    intros OV. assert (H : forall r r', (forall i x, In x (pre_index V i) \/ In x (aux_index V i) -> r x = r' x) -> preimage t B r = true -> preimage t B r' = true).
    { intros r r' E. rewrite !(preimage_iff B _ OV). assert (SH : forall b, shown V r b <-> shown V r' b) by (apply shown_ext; intros i x X; apply (E i); now left).
      assert (Q : forall i, value r (pre_index V i) = value r' (pre_index V i)) by (intros i; apply value_ext; intros x X; apply (E i); now left).
      intros (r0 & B0 & AUX & A & D & K). exists r0. split; [exact B0|]. split; [intros i x X; rewrite <- (AUX i x X); symmetry; apply (E i x (or_intror X))|].
      split; [intros b M; apply SH; auto|]. split; [exact D|]. intros i I. rewrite <- Q; auto. }
    intros r r' E. apply Bool.eq_true_iff_eq. split; apply H; [exact E|]. intros i x X. symmetry. now apply (E i).
  Qed.
End Image.
