(** The meaning of the mutex clauses. *)
From Coq Require Import ZArith Lia Permutation.
From Verif Require Import Base Htn_problem Htn_spec Sat_model Sat_spec Sat_proof Sf_model Sf_spec Sf_proof Inv_model Inv_spec Inv_rint Inv_close Mx_model Mx_spec.
Local Open Scope Z_scope.

(** A list of emitters encodes a condition on the variables 1, ..., n0. *)
Definition enc (n0 : Z) (fs : list (Z -> list clause * Z)) (B : assignment -> Prop) : Prop :=
  (forall v v', agree n0 v v' -> B v -> B v') /\ forall nv, n0 <= nv -> encodes nv (snd (emit_all fs nv)) (fst (emit_all fs nv)) B.

Section Enc.
  Variable n0 : Z.
  Hypothesis N0 : 0 <= n0.
  Lemma enc_nil (B : assignment -> Prop) : (forall v, B v) -> enc n0 [] B.
  Proof. intros H. split; auto. intros nv L. cbn. apply encodes_nil; auto. lia. Qed.
  Lemma enc_weaken fs B B' : (forall v, B v <-> B' v) -> enc n0 fs B -> enc n0 fs B'.
  Proof. intros Q [D E]. split; [intros v v' A H; apply Q; eapply D; eauto; now apply Q|]. intros nv L. eapply encodes_weaken; eauto. Qed.
  Lemma enc_cons f fs B D : enc n0 [f] B -> enc n0 fs D -> enc n0 (f :: fs) (fun v => B v /\ D v).
  Proof.
    intros [D1 E1] [D2 E2]. split; [intros v v' A [H1 H2]; split; eauto|]. intros nv L. specialize (E1 nv L). cbn [emit_all] in *. destruct (f nv) as [c nv1] eqn:Ef. cbn [fst snd] in E1. rewrite app_nil_r in E1.
    assert (L1 : n0 <= nv1) by (assert (Z := e_le _ _ _ _ E1); lia). specialize (E2 nv1 L1). destruct (emit_all fs nv1) as [d nv2]. cbn [fst snd] in *. eapply encodes_app; eauto. intros v v' A. apply D2. intros x Hx. apply A. lia.
  Qed.
  Lemma enc_one f (B : assignment -> Prop) : (forall v v', agree n0 v v' -> B v -> B v') -> (forall nv c nv', n0 <= nv -> f nv = (c, nv') -> encodes nv nv' c B) -> enc n0 [f] B.
  Proof. intros D E. split; auto. intros nv L. cbn [emit_all]. specialize (E nv). destruct (f nv) as [c nv']. cbn [fst snd]. rewrite app_nil_r. auto. Qed.
  Lemma emit_app fs gs nv : emit_all (fs ++ gs) nv = (fst (emit_all fs nv) ++ fst (emit_all gs (snd (emit_all fs nv))), snd (emit_all gs (snd (emit_all fs nv)))).
  Proof.
    revert nv. induction fs as [|f fs IH]; intros nv; cbn [app emit_all]; [cbn [fst snd]; now destruct (emit_all gs nv)|]. destruct (f nv) as [c nv1]. rewrite (IH nv1). destruct (emit_all fs nv1) as [d nv2]. cbn [fst snd]. destruct (emit_all gs nv2) as [e nv3]. cbn [fst snd]. now rewrite app_assoc.
  Qed.
  Lemma enc_app fs gs B D : enc n0 fs B -> enc n0 gs D -> enc n0 (fs ++ gs) (fun v => B v /\ D v).
  Proof.
    intros [D1 E1] [D2 E2]. split; [intros v v' A [H1 H2]; split; eauto|]. intros nv L. rewrite emit_app. cbn [fst snd]. specialize (E1 nv L). assert (L1 := e_le _ _ _ _ E1). eapply encodes_app; [exact E1|apply E2; lia|]. intros v v' A. apply D2. intros x Hx. apply A. lia.
  Qed.
  Lemma enc_flat {A} (f : A -> list (Z -> list clause * Z)) (l : list A) (B : A -> assignment -> Prop) : (forall x, In x l -> enc n0 (f x) (B x)) -> enc n0 (flat_map f l) (fun v => forall x, In x l -> B x v).
  Proof.
    induction l as [|x l IH]; intros H; cbn [flat_map]; [apply enc_nil; intros v x []|]. eapply enc_weaken; [|apply enc_app; [apply H; now left|apply IH; intros y Hy; apply H; now right]].
    intros v. split; [intros [H1 H2] y [<-|Hy]; auto|]. intros K. split; [apply K; now left|intros y Hy; apply K; now right].
  Qed.
  Lemma enc_plain c (B : assignment -> Prop) : vars_le n0 c -> (forall v, satisfies v c <-> B v) -> enc n0 [fun nv => (c, nv)] B.
  Proof.
    intros V Q. apply enc_one; [intros v v' A H; apply Q; eapply sat_agree; eauto; now apply Q|]. intros nv c' nv' L E. apply pair_equal_spec in E as [<- <-]. apply encodes_plain; auto; [|lia]. eapply vars_mono; [|exact V]. lia.
  Qed.

  (** ** One time *)
  Variables (n : nat) (base : Z).
  Hypothesis B1 : 1 <= base.
  Hypothesis BN : base + Z.of_nat n - 1 <= n0.
  Notation st v := (rd v base).
  Lemma var_lit v f : lit_true v (base + Z.of_nat f) = true <-> st v f.
  Proof. unfold rd. rewrite Sat_proof.lit_pos by lia. reflexivity. Qed.
  Lemma var_ok f : (f < n)%nat -> lit_ok n0 (base + Z.of_nat f).
  Proof. intros L. unfold lit_ok. lia. Qed.
  Lemma mx_lit_true v l : lit_true v (mx_lit base l) = true <-> lit_holds (st v) l.
  Proof.
    unfold mx_lit. destruct (Z.ltb_spec l 0) as [L|L].
    - rewrite Sat_proof.lit_neg by lia. rewrite negb_true_iff. rewrite Sat_proof.lit_pos by lia. unfold lit_holds, rd. replace (base + Z.of_nat (Z.to_nat (- l - 1))) with (base + (- l - 1)) by lia. split.
      + intros E. split; [intros _; congruence|intros; lia].
      + intros [H _]. specialize (H L). now destruct (v (base + (- l - 1))).
    - rewrite Sat_proof.lit_pos by lia. unfold lit_holds, rd. replace (base + Z.of_nat (Z.to_nat l)) with (base + l) by lia. split; [intros E; split; [intros; lia|auto]|intros [_ H]; auto].
  Qed.
  Lemma mx_lit_ok l : lit_in n l -> lit_ok n0 (mx_lit base l).
  Proof. unfold lit_in, lit_ok, mx_lit. intros H. destruct (Z.ltb_spec l 0); lia. Qed.
  Lemma amo_state v l : (count_true v (mx_vars base l) <= 1)%nat <-> at_most_one (st v) l.
  Proof.
    rewrite count_one. unfold Sat_proof.at_most_one, at_most_one, mx_vars. split.
    - intros H i j f g Hf Hg Sf Sg. apply (H i j (base + Z.of_nat f) (base + Z.of_nat g)); try (rewrite nth_error_map; rewrite ?Hf, ?Hg; reflexivity); now apply var_lit.
    - intros H i j x y Hx Hy Tx Ty. rewrite nth_error_map in Hx, Hy. destruct (nth_error l i) as [f|] eqn:Ef; [|discriminate]. destruct (nth_error l j) as [g|] eqn:Eg; [|discriminate]. cbn in Hx, Hy. apply some_eq in Hx, Hy. subst x y. apply (H i j f g); auto; now apply var_lit.
  Qed.
  Lemma amo_enc bits l : bits_ok bits -> (forall f, In f l -> (f < n)%nat) -> enc n0 [mx_amo bits base l] (fun v => at_most_one (st v) l).
  Proof.
    intros BO H. assert (OK : forall x, In x (mx_vars base l) -> lit_ok n0 x). { intros x Hx. apply in_map_iff in Hx as (f & <- & Hf). apply var_ok. auto. }
    apply enc_one.
    - intros v v' A. rewrite <- !amo_state. now rewrite (count_agree n0 v v' _ OK A).
    - intros nv c nv' L E. eapply encodes_weaken; [intros v; apply amo_state|]. apply (amo_encodes bits nv _ c nv' BO); [lia| |exact E]. intros x Hx. specialize (OK x Hx). unfold lit_ok in *. lia.
  Qed.
  Lemma alo_enc l : (forall f, In f l -> (f < n)%nat) -> enc n0 [mx_alo base l] (fun v => at_least_one (st v) l).
  Proof.
    intros H. apply enc_plain.
    - unfold atLeastOne. apply vars_cons. split; [|apply vars_nil]. intros x Hx. apply in_map_iff in Hx as (f & <- & Hf). apply var_ok. auto.
    - intros v. unfold atLeastOne. rewrite sat_one. unfold at_least_one, mx_vars. split.
      + intros (x & Hx & Tx). apply in_map_iff in Hx as (f & <- & Hf). exists f. split; auto. now apply var_lit.
      + intros (f & Hf & Sf). exists (base + Z.of_nat f). split; [apply in_map_iff; eauto|now apply var_lit].
  Qed.
  Lemma lits_enc l : (forall x, In x l -> lit_in n x) -> enc n0 [fun nv => (atLeastOne (map (mx_lit base) l), nv)] (fun v => exists x, In x l /\ lit_holds (st v) x).
  Proof.
    intros H. apply enc_plain.
    - unfold atLeastOne. apply vars_cons. split; [|apply vars_nil]. intros x Hx. apply in_map_iff in Hx as (f & <- & Hf). apply mx_lit_ok. auto.
    - intros v. unfold atLeastOne. rewrite sat_one. split.
      + intros (x & Hx & Tx). apply in_map_iff in Hx as (f & <- & Hf). exists f. split; auto. now apply mx_lit_true.
      + intros (f & Hf & Sf). exists (mx_lit base f). split; [apply in_map_iff; eauto|now apply mx_lit_true].
  Qed.
  Lemma pair_enc a b : lit_in n a -> lit_in n b -> enc n0 [fun nv => (atLeastOne [mx_lit base a; mx_lit base b], nv)] (fun v => clause2_holds (st v) (a, b)).
  Proof.
    intros Ra Rb. eapply enc_weaken; [|apply (lits_enc [a; b])]; [|intros x [<-|[<-|[]]]; auto]. intros v. unfold clause2_holds. cbn [fst snd]. split; [intros (x & [<-|[<-|[]]] & H); auto|]. intros [H|H]; [exists a|exists b]; cbn; auto.
  Qed.

  Variables (bits : nat -> nat) (order : list Z -> list Z) (X : parsed).
  Hypothesis BO : bits_ok bits.
  Hypothesis ORD : forall l, Permutation (order l) l.
  Hypothesis IO : input_ok n (x_sas X) (x_strict X) (x_mutex X) (x_inv X).

  Lemma binary_enc tab i l : bi_ok n tab -> nth_error tab i = Some l ->
    enc n0 (mx_binary order n base (i, l)) (fun v => forall b, In b l -> ~ (lfact b < lfact (Z.of_nat i - Z.of_nat n))%nat -> clause2_holds (st v) (Z.of_nat i - Z.of_nat n, b)).
  Proof.
    intros O E. unfold mx_binary. cbn [fst snd]. set (a := Z.of_nat i - Z.of_nat n). assert (Ra : lit_in n a). { assert (L : (i < length tab)%nat) by (apply nth_error_Some; congruence). rewrite (bo_len _ _ O) in L. unfold lit_in, a. lia. }
    eapply enc_weaken; [|apply (enc_flat _ (order l) (fun b v => ~ (lfact b < lfact a)%nat -> clause2_holds (st v) (a, b)))].
    - intros v. split; intros H b Hb; apply H; [eapply Permutation_in; [symmetry; apply ORD|auto]|eapply Permutation_in; [apply ORD|auto]].
    - intros b Hb. apply (Permutation_in _ (ORD l)) in Hb. destruct (Nat.ltb_spec (lfact b) (lfact a)) as [L|L]; [apply enc_nil; intros v H; contradiction|]. eapply enc_weaken; [|apply pair_enc; [exact Ra|apply (bo_in _ _ O l b); auto; eapply nth_error_In; eauto]]. intros v. split; [auto|intros H; apply H; lia].
  Qed.
  Lemma table_sym tab (s : state) : bi_ok n tab -> (forall i l, nth_error tab i = Some l -> forall b, In b l -> ~ (lfact b < lfact (Z.of_nat i - Z.of_nat n))%nat -> clause2_holds s (Z.of_nat i - Z.of_nat n, b)) <-> pairs_hold n tab s.
  Proof.
    intros O. split; [|intros H i l E b Hb _; eapply H; eauto]. intros H i l b E Hb. set (a := Z.of_nat i - Z.of_nat n). destruct (Nat.lt_ge_cases (lfact b) (lfact a)) as [L|L]; [|apply (H i l); auto; fold a; lia].
    assert (Li : (i < length tab)%nat) by (apply nth_error_Some; congruence). rewrite (bo_len _ _ O) in Li. assert (K : known n tab b a). { apply (bo_sym _ _ O). exists l. split; auto. unfold at_lit, a. destruct (Z.ltb_spec (Z.of_nat i - Z.of_nat n + Z.of_nat n) 0); [lia|]. now replace (Z.to_nat (Z.of_nat i - Z.of_nat n + Z.of_nat n)) with i by lia. }
    destruct K as (t & Et & Ht). unfold at_lit in Et. destruct (Z.ltb_spec (b + Z.of_nat n) 0); [discriminate|]. assert (Eb : Z.of_nat (Z.to_nat (b + Z.of_nat n)) - Z.of_nat n = b) by lia. specialize (H _ t Et a Ht). rewrite Eb in H. specialize (H ltac:(lia)). unfold clause2_holds in *. cbn [fst snd] in *. tauto.
  Qed.
  Lemma combine_enum (bi al : list (list Z)) : length bi = length al -> forall x y, In (x, y) (combine (enum_from 0 bi) (enum_from 0 al)) <-> exists i l m, x = (i, l) /\ y = (i, m) /\ nth_error bi i = Some l /\ nth_error al i = Some m.
  Proof.
    enough (G : forall (al bi : list (list Z)) k, length bi = length al -> forall x y, In (x, y) (combine (enum_from k bi) (enum_from k al)) <-> exists i l m, x = ((k + i)%nat, l) /\ y = ((k + i)%nat, m) /\ nth_error bi i = Some l /\ nth_error al i = Some m) by (intros L; apply (G al bi 0%nat L)).
    clear. intros al. induction al as [|a al IH]; intros [|b bi] k L x y; try discriminate L; cbn [enum_from combine In].
    - split; [intros []|intros ([|i] & l & m & _ & _ & E & _); discriminate].
    - rewrite (IH bi (S k)) by (cbn in L; lia). split.
      + intros [E|(i & l & m & -> & -> & E1 & E2)]; [apply pair_equal_spec in E as [<- <-]; exists 0%nat, b, a; rewrite Nat.add_0_r; auto|]. exists (S i), l, m. rewrite <- Nat.add_succ_comm. auto.
      + intros ([|i] & l & m & -> & -> & E1 & E2); cbn in E1, E2; [left; apply some_eq in E1, E2; subst; now rewrite Nat.add_0_r|]. right. exists i, l, m. rewrite <- Nat.add_succ_comm. auto.
  Qed.
  Lemma time_enc bi al : bi_ok n bi -> bi_ok n al ->
    enc n0 (mx_time bits order n X bi al base) (fun v => groups_hold (x_sas X) (x_strict X) (x_mutex X) (x_inv X) (st v) /\ pairs_hold n bi (st v) /\ pairs_hold n al (st v)).
  Proof.
    intros O1 O2. unfold mx_time. eapply enc_weaken; cycle 1.
    - apply enc_app; [|apply enc_app; [|apply enc_app; [|apply enc_app]]].
      + apply (enc_flat _ (x_sas X) (fun x v => fst x <> snd x -> at_most_one (st v) (sas_facts x) /\ at_least_one (st v) (sas_facts x))). intros [a b] Hx. unfold mx_sas. cbn [fst snd]. assert (L := io_sas _ _ _ _ _ IO a b Hx). destruct (Nat.eqb_spec a b); [apply enc_nil; intros v N; contradiction|].
        assert (FB : forall f, In f (sas_facts (a, b)) -> (f < n)%nat). { intros f Hf. unfold sas_facts in Hf. cbn [fst snd] in Hf. apply in_seq in Hf. lia. }
        eapply enc_weaken; [|apply enc_cons; [apply amo_enc; auto|apply alo_enc; auto]]. intros v. tauto.
      + apply (enc_flat _ (x_strict X) (fun l v => length l <> 2%nat -> at_most_one (st v) l /\ at_least_one (st v) l)). intros l Hl. unfold mx_strict. destruct (Nat.eqb_spec (length l) 2); [apply enc_nil; intros v N; contradiction|].
        assert (FB : forall f, In f l -> (f < n)%nat) by (intros f; apply (io_strict _ _ _ _ _ IO l f Hl)). eapply enc_weaken; [|apply enc_cons; [apply amo_enc; auto|apply alo_enc; auto]]. intros v. tauto.
      + apply (enc_flat _ (x_mutex X) (fun l v => length l <> 2%nat -> at_most_one (st v) l)). intros l Hl. unfold mx_mutex. destruct (Nat.eqb_spec (length l) 2); [apply enc_nil; intros v N; contradiction|]. eapply enc_weaken; [|apply amo_enc; [auto|intros f; apply (io_mutex _ _ _ _ _ IO l f Hl)]]. intros v. tauto.
      + apply (enc_flat _ (x_inv X) (fun l v => length l <> 2%nat -> exists x, In x l /\ lit_holds (st v) x)). intros l Hl. unfold mx_inv. destruct (Nat.eqb_spec (length l) 2); [apply enc_nil; intros v N; contradiction|]. eapply enc_weaken; [|apply lits_enc; intros x; apply (io_inv _ _ _ _ _ IO l x Hl)]. intros v. tauto.
      + apply (enc_flat _ _ (fun x v => (forall b, In b (snd (fst x)) -> ~ (lfact b < lfact (Z.of_nat (fst (fst x)) - Z.of_nat n))%nat -> clause2_holds (st v) (Z.of_nat (fst (fst x)) - Z.of_nat n, b)) /\
                                         (forall b, In b (snd (snd x)) -> ~ (lfact b < lfact (Z.of_nat (fst (snd x)) - Z.of_nat n))%nat -> clause2_holds (st v) (Z.of_nat (fst (snd x)) - Z.of_nat n, b)))).
        intros [x y] Hx. apply combine_enum in Hx as (i & l & m & -> & -> & E1 & E2); [|rewrite (bo_len _ _ O1), (bo_len _ _ O2); reflexivity]. cbn [fst snd]. apply enc_app; [apply (binary_enc bi i l O1 E1)|apply (binary_enc al i m O2 E2)].
    - intros v. rewrite <- !table_sym by auto. split.
      + intros (H1 & H2 & H3 & H4 & H5). split; [|split].
        * constructor; auto. intros a b Hx N. apply (H1 (a, b) Hx N).
        * intros i l E b Hb Nb. assert (Li : (i < length al)%nat). { rewrite (bo_len _ _ O2), <- (bo_len _ _ O1). apply nth_error_Some. congruence. } apply get_some in Li as (m & Em). apply (proj1 (H5 ((i, l), (i, m)) ltac:(apply combine_enum; [rewrite (bo_len _ _ O1), (bo_len _ _ O2); reflexivity|]; exists i, l, m; auto)) b); auto.
        * intros i l E b Hb Nb. assert (Li : (i < length bi)%nat). { rewrite (bo_len _ _ O1), <- (bo_len _ _ O2). apply nth_error_Some. congruence. } apply get_some in Li as (m & Em). apply (proj2 (H5 ((i, m), (i, l)) ltac:(apply combine_enum; [rewrite (bo_len _ _ O1), (bo_len _ _ O2); reflexivity|]; exists i, m, l; auto)) b); auto.
      + intros ([G1 G2 G3 G4] & H5 & H6). split; [intros [a b] Hx N; apply (G1 a b Hx N)|]. split; auto. split; auto. split; auto. intros [x y] Hx. apply combine_enum in Hx as (i & l & m & -> & -> & E1 & E2); [|rewrite (bo_len _ _ O1), (bo_len _ _ O2); reflexivity]. cbn [fst snd]. split; [apply (H5 i l E1)|apply (H6 i m E2)].
  Qed.
End Enc.

(** The mutex clauses for [times] times. *)
Theorem mutex_encodes P bits order X bi al nv0 times nv c nv' :
  bits_ok bits -> (forall l, Permutation (order l) l) -> input_ok (p_nfacts P) (x_sas X) (x_strict X) (x_mutex X) (x_inv X) -> bi_ok (p_nfacts P) bi -> bi_ok (p_nfacts P) al ->
  0 <= nv0 -> sf_base P nv0 (S times) - 1 <= nv -> mutex_formula P bits order X bi al nv0 times nv = (c, nv') ->
  encodes nv nv' c (fun v => forall t, (t < times)%nat -> let s := rd v (sf_base P nv0 t) in groups_hold (x_sas X) (x_strict X) (x_mutex X) (x_inv X) s /\ pairs_hold (p_nfacts P) bi s /\ pairs_hold (p_nfacts P) al s).
Proof.
  intros BO ORD IO O1 O2 N0 L E. unfold mutex_formula in E. set (n0 := sf_base P nv0 (S times) - 1) in *. assert (B0 := sf_base_pos P nv0 (S times)). assert (NN : 0 <= n0) by (unfold n0; lia).
  assert (G := enc_flat n0 NN (fun t => mx_time bits order (p_nfacts P) X bi al (sf_base P nv0 t)) (seq 0 times) (fun t v => groups_hold (x_sas X) (x_strict X) (x_mutex X) (x_inv X) (rd v (sf_base P nv0 t)) /\ pairs_hold (p_nfacts P) bi (rd v (sf_base P nv0 t)) /\ pairs_hold (p_nfacts P) al (rd v (sf_base P nv0 t)))).
  destruct G as [_ G].
  - intros t Ht. apply in_seq in Ht. assert (Bt := sf_base_pos P nv0 t). assert (M := base_mono P nv0 (S t) (S times) ltac:(lia)). rewrite base_S' in M. apply time_enc; auto; [lia|unfold n0; lia].
  - specialize (G nv L). rewrite E in G. cbn [fst snd] in G. eapply encodes_weaken; [|exact G]. intros v. split; [intros H t Ht; apply H, in_seq; lia|intros H t Ht; apply H; apply in_seq in Ht; lia].
Qed.
