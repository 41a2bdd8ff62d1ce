(** Rintanen's algorithm: the inferred literals hold, what is kept is preserved by the action, and the loop reaches a fixed point. *)
From Coq Require Import ZArith Lia Bool.
From Verif Require Import Base Htn_problem Htn_spec Inv_model Inv_spec.
Local Open Scope Z_scope.

(** ** Literals *)
Lemma lfact_mklit f b : lfact (mklit f b) = f.
Proof. unfold lfact, mklit. destruct b; destruct (Z.ltb_spec (- Z.of_nat f - 1) 0); destruct (Z.ltb_spec (Z.of_nat f) 0); lia. Qed.
Lemma lit_mklit s f : lit_holds s (mklit f true) <-> ~ s f.
Proof.
  unfold lit_holds, mklit. replace (Z.to_nat (- (- Z.of_nat f - 1) - 1)) with f by lia. split.
  - intros [A _]. apply A. lia.
  - intros A. split; [tauto|lia].
Qed.
Lemma lit_mklit_pos s f : lit_holds s (mklit f false) <-> s f.
Proof.
  unfold lit_holds, mklit. replace (Z.to_nat (Z.of_nat f)) with f by lia. split.
  - intros [_ A]. apply A. lia.
  - intros A. split; [lia|tauto].
Qed.
Lemma lit_cases l : l = mklit (lfact l) true /\ (l <? 0) = true \/ l = mklit (lfact l) false /\ (l <? 0) = false.
Proof. unfold lfact, mklit. destruct (Z.ltb_spec l 0); [left|right]; split; auto; lia. Qed.
Lemma mklit_inj f g b c : mklit f b = mklit g c -> f = g /\ b = c.
Proof. unfold mklit. destruct b, c; intros; split; auto; try lia; exfalso; lia. Qed.
Lemma lit_neg s l : lit_holds s l -> lit_holds s (- l - 1) -> False.
Proof. unfold lit_holds. intros [A B] [C D]. destruct (Z.ltb_spec l 0). - apply A; auto. apply D. lia. - apply C; [lia|]. replace (- (- l - 1) - 1) with l by lia. apply B. lia. Qed.
Lemma lit_in_fact n l : lit_in n l <-> (lfact l < n)%nat.
Proof. unfold lit_in, lfact. destruct (Z.ltb_spec l 0); lia. Qed.
Lemma mklit_ltb f b : (mklit f b <? 0) = b.
Proof. unfold mklit. destruct b; [apply Z.ltb_lt|apply Z.ltb_ge]; lia. Qed.

(** ** The tables *)
Lemma enum_from_get {A} (l : list A) : forall i k x, nth_error (enum_from i l) k = Some x <-> exists y, nth_error l k = Some y /\ x = ((i + k)%nat, y).
Proof.
  induction l; intros i k x; cbn [enum_from].
  - destruct k; cbn; split; try discriminate; intros [y [E _]]; discriminate.
  - destruct k; cbn [nth_error].
    + split. * intros E. exists a. split; auto. rewrite Nat.add_0_r. congruence. * intros [y [E ->]]. rewrite Nat.add_0_r. congruence.
    + rewrite IHl. split; intros [y [E ->]]; exists y; split; auto; f_equal; lia.
Qed.
Lemma enum_from_in {A} (l : list A) k x : In (k, x) (enum_from 0 l) <-> nth_error l k = Some x.
Proof.
  split.
  - intros H. apply In_nth_error in H. destruct H as [i E]. apply enum_from_get in E. destruct E as [y [E F]]. inversion F; subst. exact E.
  - intros H. apply nth_error_In with (n := k). apply enum_from_get. exists x. split; auto.
Qed.
Lemma enum_from_length {A} (l : list A) : forall i, length (enum_from i l) = length l.
Proof. induction l; intros; cbn; auto. Qed.

Definition entered (pos neg : list (list nat)) (j : nat) (l : Z) : Prop := exists t, get (if l <? 0 then neg else pos) (lfact l) = Some t /\ In j t.
Definition bounded (n : nat) (N : nat) (t : list (list nat)) : Prop := length t = n /\ forall f l j, get t f = Some l -> In j l -> (j < N)%nat.

Lemma enter_ok n N i l pos neg : (lfact l < n)%nat -> (i < N)%nat -> bounded n N pos -> bounded n N neg ->
  exists pos' neg', enter i l (pos, neg) = Some (pos', neg') /\ bounded n N pos' /\ bounded n N neg' /\
    entered pos' neg' i l /\ forall j x, entered pos neg j x -> entered pos' neg' j x.
Proof.
  intros L I [A1 A2] [B1 B2]. unfold enter. destruct (l <? 0) eqn:S.
  - destruct (get_some neg (lfact l) ltac:(lia)) as [x Ex]. rewrite Ex. cbn [obind].
    destruct (set_some neg (lfact l) (x ++ [i]) ltac:(lia)) as [neg' En]. rewrite En. cbn [obind]. exists pos, neg'. split; auto. split; [split; auto|]. split; [|split].
    + split. * rewrite (set_length _ _ _ _ En). auto.
      * intros f t j Et Hj. destruct (Nat.eq_dec (lfact l) f) as [<-|Nf].
        -- rewrite (get_set_eq _ _ _ _ En) in Et. assert (t = x ++ [i]) by congruence. subst t. apply in_app_iff in Hj. destruct Hj as [Hj|[<-|[]]]; auto. apply (B2 _ _ _ Ex Hj).
        -- rewrite (get_set_neq _ _ _ _ _ En Nf) in Et. eauto.
    + exists (x ++ [i]). rewrite S. split. * apply (get_set_eq _ _ _ _ En). * apply in_app_iff. right. now left.
    + intros j y [t [Et Hj]]. unfold entered. destruct (y <? 0) eqn:Sy; [|exists t; split; auto].
      destruct (Nat.eq_dec (lfact l) (lfact y)) as [E|Nf].
      * rewrite <- E in *. exists (x ++ [i]). split. -- apply (get_set_eq _ _ _ _ En). -- rewrite Ex in Et. apply in_app_iff. left. congruence.
      * exists t. split; auto. rewrite (get_set_neq _ _ _ _ _ En Nf). exact Et.
  - destruct (get_some pos (lfact l) ltac:(lia)) as [x Ex]. rewrite Ex. cbn [obind].
    destruct (set_some pos (lfact l) (x ++ [i]) ltac:(lia)) as [pos' En]. rewrite En. cbn [obind]. exists pos', neg. split; auto. split; [|split; [split; auto|split]].
    + split. * rewrite (set_length _ _ _ _ En). auto.
      * intros f t j Et Hj. destruct (Nat.eq_dec (lfact l) f) as [<-|Nf].
        -- rewrite (get_set_eq _ _ _ _ En) in Et. assert (t = x ++ [i]) by congruence. subst t. apply in_app_iff in Hj. destruct Hj as [Hj|[<-|[]]]; auto. apply (A2 _ _ _ Ex Hj).
        -- rewrite (get_set_neq _ _ _ _ _ En Nf) in Et. eauto.
    + exists (x ++ [i]). rewrite S. split. * apply (get_set_eq _ _ _ _ En). * apply in_app_iff. right. now left.
    + intros j y [t [Et Hj]]. unfold entered. destruct (y <? 0) eqn:Sy; [exists t; split; auto|].
      destruct (Nat.eq_dec (lfact l) (lfact y)) as [E|Nf].
      * rewrite <- E in *. exists (x ++ [i]). split. -- apply (get_set_eq _ _ _ _ En). -- rewrite Ex in Et. apply in_app_iff. left. congruence.
      * exists t. split; auto. rewrite (get_set_neq _ _ _ _ _ En Nf). exact Et.
Qed.

Lemma enter_all n N : forall l pos neg,
  (forall i a b, In (i, (a, b)) l -> (i < N)%nat /\ (lfact a < n)%nat /\ (lfact b < n)%nat) -> bounded n N pos -> bounded n N neg ->
  exists pos' neg', ofold (fun st '(i, (a, b)) => st1 <- enter i a st ;; enter i b st1) l (pos, neg) = Some (pos', neg') /\ bounded n N pos' /\ bounded n N neg' /\
    (forall i a b, In (i, (a, b)) l -> entered pos' neg' i a /\ entered pos' neg' i b) /\ forall j x, entered pos neg j x -> entered pos' neg' j x.
Proof.
  induction l as [|[i [a b]] r IH]; intros pos neg H B1 B2; cbn [ofold].
  - exists pos, neg. split; auto. split; auto. split; auto. split; auto. intros ? ? ? [].
  - destruct (H i a b (or_introl eq_refl)) as [Hi [Ha Hb]].
    destruct (enter_ok n N i a pos neg Ha Hi B1 B2) as [p1 [n1 [E1 [C1 [C2 [C3 C4]]]]]]. rewrite E1. cbn [obind].
    destruct (enter_ok n N i b p1 n1 Hb Hi C1 C2) as [p2 [n2 [E2 [D1 [D2 [D3 D4]]]]]]. rewrite E2. cbn [obind].
    destruct (IH p2 n2 (fun i' a' b' Hx => H i' a' b' (or_intror Hx)) D1 D2) as [p3 [n3 [E3 [F1 [F2 [F3 F4]]]]]].
    exists p3, n3. split; [exact E3|]. split; auto. split; auto. split; auto.
    intros i' a' b' [Ex|Hx]; [|eauto]. inversion Ex; subst. split; apply F4; auto.
Qed.

Lemma repeat_bounded n N : bounded n N (repeat [] n).
Proof.
  split. - apply repeat_length.
  - intros f l j E Hj. apply nth_error_In, repeat_spec in E. subst l. destruct Hj.
Qed.

(** Clauses over two different facts in range *)
Definition fine (n : nat) (v : list (Z * Z)) : Prop := forall a b, In (a, b) v -> (lfact a < n)%nat /\ (lfact b < n)%nat /\ lfact a <> lfact b.

Record rint_ok (n : nat) (R : rint) : Prop := {
  ro_fine : fine n (r_v R);
  ro_del : length (r_del R) = length (r_v R);
  ro_pos : bounded n (length (r_v R)) (r_pos R);
  ro_neg : bounded n (length (r_v R)) (r_neg R);
  ro_in : forall j a b, get (r_v R) j = Some (a, b) -> entered (r_pos R) (r_neg R) j a /\ entered (r_pos R) (r_neg R) j b }.

Definition live (R : rint) (c : Z * Z) : Prop := exists j, get (r_v R) j = Some c /\ get (r_del R) j = Some false.
Definition models (V : Z * Z -> Prop) (s : state) : Prop := forall c, V c -> clause2_holds s c.

Lemma make_rint_ok n v : fine n v -> exists R, make_rint n v = Some R /\ rint_ok n R /\ r_v R = v /\ (forall c, live R c <-> In c v).
Proof.
  intros F. unfold make_rint, tables.
  destruct (enter_all n (length v) (enum_from 0 v) (repeat [] n) (repeat [] n)) as [pos [neg [E [B1 [B2 [B3 _]]]]]].
  - intros i a b H. apply enum_from_in in H. split. + apply nth_error_Some. congruence. + apply nth_error_In in H. destruct (F a b H) as [X [Y _]]. auto.
  - apply repeat_bounded.
  - apply repeat_bounded.
  - rewrite E. cbn [obind]. eexists. split; [reflexivity|]. split; [|split].
    + split; cbn; auto. * apply repeat_length. * intros j a b G. apply B3. apply enum_from_in. exact G.
    + reflexivity.
    + intros c. unfold live; cbn. split.
      * intros [j [G _]]. eapply nth_error_In; eauto.
      * intros H. apply In_nth_error in H. destruct H as [j G]. exists j. split; auto. apply nth_error_repeat. apply nth_error_Some. congruence.
Qed.

Lemma keep_live R c : length (r_del R) = length (r_v R) -> In c (keep R) <-> live R c.
Proof.
  intros L. unfold keep, live. rewrite in_flat_map. split.
  - intros [[x d] [H Hc]]. destruct d; [destruct Hc|]. destruct Hc as [<-|[]]. apply In_nth_error in H. destruct H as [j E]. exists j.
    assert (E1 : nth_error (map fst (combine (r_v R) (r_del R))) j = Some x) by (rewrite nth_error_map, E; reflexivity).
    assert (E2 : nth_error (map snd (combine (r_v R) (r_del R))) j = Some false) by (rewrite nth_error_map, E; reflexivity).
    unfold get. clear E. revert E1 E2. generalize (r_v R) (r_del R) j L. clear. induction l; intros [|b m] j L; cbn in *; try discriminate; destruct j; cbn; intros; try discriminate; auto.
  - intros [j [E1 E2]]. exists (c, false). split; [|now left]. unfold get in *. revert E1 E2. generalize (r_v R) (r_del R) j L. clear. induction l; intros [|b m] j L; cbn in *; try discriminate; destruct j; cbn; intros E1 E2; try discriminate.
    + left. congruence.
    + right. eapply IHl; eauto.
Qed.
Lemma keep_fine n R : fine n (r_v R) -> fine n (keep R).
Proof. intros F a b H. apply F. unfold keep in H. apply in_flat_map in H. destruct H as [[x d] [H Hc]]. apply in_combine_l in H. destruct d; [destruct Hc|]. destruct Hc as [<-|[]]. exact H. Qed.
Lemma reduce_ok P R : rint_ok (p_nfacts P) R -> exists R', rint_reduce P R = Some R' /\ rint_ok (p_nfacts P) R' /\ r_v R' = keep R /\ (forall c, live R' c <-> live R c).
Proof.
  intros O. destruct (make_rint_ok (p_nfacts P) (keep R) (keep_fine _ _ (ro_fine _ _ O))) as [R' [E [O' [V L]]]]. exists R'. split; [exact E|]. split; auto. split; auto.
  intros c. rewrite L. apply keep_live. apply (ro_del _ _ O).
Qed.

(** ** The initial candidates *)
Lemma initial_in P a b : In (a, b) (initial_candidates P) ->
  (lfact a < lfact b < p_nfacts P)%nat /\ clause2_holds (initial_state P) (a, b).
Proof.
  unfold initial_candidates. intros H. apply in_flat_map in H. destruct H as [p1 [H1 H]]. apply in_flat_map in H. destruct H as [p2 [H2 H]].
  apply in_flat_map in H. destruct H as [b1 [_ H]]. apply in_flat_map in H. destruct H as [b2 [_ H]].
  apply in_seq in H1. apply in_seq in H2.
  destruct (Bool.eqb b1 (memb p1 (p_s0 P)) && Bool.eqb b2 (memb p2 (p_s0 P))) eqn:E; [destruct H|]. destruct H as [H|[]]. inversion H; subst a b; clear H.
  rewrite !lfact_mklit. split; [lia|]. unfold clause2_holds; cbn [fst snd].
  assert (K : forall p b, Bool.eqb b (memb p (p_s0 P)) = false -> lit_holds (initial_state P) (mklit p b)).
  { intros p b E1. destruct b.
    - apply lit_mklit. unfold initial_state. intros X. apply memb_In in X. rewrite X in E1. discriminate.
    - apply lit_mklit_pos. unfold initial_state. apply memb_In. destruct (memb p (p_s0 P)); auto. }
  apply andb_false_iff in E. destruct E; [left|right]; apply K; auto.
Qed.
Lemma initial_fine P : fine (p_nfacts P) (initial_candidates P).
Proof. intros a b H. apply initial_in in H. lia. Qed.

(** ** Inference of preconditions *)
Definition sound_for (s : state) (pp np : list bool) : Prop := (forall f, get pp f = Some true -> s f) /\ (forall f, get np f = Some true -> ~ s f).

Lemma infer_ok (M : Prop) n s pp np l : (M -> sound_for s pp np) -> length pp = n -> length np = n -> (lfact l < n)%nat ->
  exists pp' np' c, infer pp np l = Some (pp', np', c) /\ length pp' = n /\ length np' = n /\ (M -> lit_holds s l -> c = false /\ sound_for s pp' np').
Proof.
  intros S L1 L2 L. unfold infer. destruct (lit_cases l) as [[El Sl]|[El Sl]]; rewrite Sl.
  - destruct (set_some np (lfact l) true ltac:(lia)) as [np' En]. rewrite En. cbn [obind]. destruct (get_some pp (lfact l) ltac:(lia)) as [b Eb]. rewrite Eb. cbn [obind].
    exists pp, np', b. split; auto. split; auto. split; [rewrite (set_length _ _ _ _ En); auto|]. intros m H. destruct (S m) as [S1 S2]. rewrite El in H. apply lit_mklit in H. split.
    + destruct b; auto. exfalso. apply H. auto.
    + split; auto. intros f E. destruct (Nat.eq_dec (lfact l) f) as [<-|Nf]; auto. rewrite (get_set_neq _ _ _ _ _ En Nf) in E. auto.
  - destruct (set_some pp (lfact l) true ltac:(lia)) as [pp' En]. rewrite En. cbn [obind]. destruct (get_some np (lfact l) ltac:(lia)) as [b Eb]. rewrite Eb. cbn [obind].
    exists pp', np, b. split; auto. split; [rewrite (set_length _ _ _ _ En); auto|]. split; auto. intros m H. destruct (S m) as [S1 S2]. rewrite El in H. apply lit_mklit_pos in H. split.
    + destruct b; auto. exfalso. apply (S2 _ Eb H).
    + split; auto. intros f E. destruct (Nat.eq_dec (lfact l) f) as [<-|Nf]; auto. rewrite (get_set_neq _ _ _ _ _ En Nf) in E. auto.
Qed.

Section Rint.
Variable P : problem.
Let n := p_nfacts P.
Hypothesis WF : wf_problem P.

Section State.
Variable s : state.
Variable R : rint.
Hypothesis OK : rint_ok n R.

(** If the state satisfies what is not deleted and the precondition holds then no contradiction is found. [M] tells whether this is known. *)
Lemma infer_all_ok (M : Prop) pre : (M -> models (live R) s /\ s pre) -> forall js pp np, (forall j, In j js -> (j < length (r_v R))%nat) ->
  (M -> sound_for s pp np) -> length pp = n -> length np = n ->
  exists pp' np' c, infer_all R pre js pp np = Some (pp', np', c) /\ length pp' = n /\ length np' = n /\ (M -> c = false /\ sound_for s pp' np').
Proof.
  intros HM. induction js as [|j r IH]; intros pp np B S L1 L2; cbn [infer_all].
  - exists pp, np, false. repeat (split; auto).
  - assert (Bj : (j < length (r_v R))%nat) by (apply B; now left).
    assert (Br : forall j', In j' r -> (j' < length (r_v R))%nat) by (intros; apply B; now right).
    destruct (get_some (r_del R) j) as [d Ed]; [rewrite (ro_del _ _ OK); auto|]. rewrite Ed. cbn [obind]. destruct d; [apply IH; auto|].
    destruct (get_some (r_v R) j Bj) as [[a b] Ev]. rewrite Ev. cbn [obind].
    assert (In (a, b) (r_v R)) as Hab by (eapply nth_error_In; eauto). destruct (ro_fine _ _ OK a b Hab) as [La [Lb _]].
    assert (HC : M -> clause2_holds s (a, b)) by (intros m; apply (proj1 (HM m)); exists j; auto).
    assert (step : forall x y pp np, (M -> sound_for s pp np) -> length pp = n -> length np = n -> (lfact y < n)%nat -> (M -> lit_holds s x \/ lit_holds s y) ->
       exists pp' np' c, (if (x <? 0) && (Z.of_nat pre =? - x - 1) then infer pp np y else Some (pp, np, false)) = Some (pp', np', c) /\ length pp' = n /\ length np' = n /\ (M -> c = false /\ sound_for s pp' np')).
    { clear pp np S L1 L2. intros x y pp np S L1 L2 Ly Hxy. destruct ((x <? 0) && (Z.of_nat pre =? - x - 1)) eqn:E; [|exists pp, np, false; repeat (split; auto)].
      apply andb_true_iff in E. destruct E as [E1 E2]. apply Z.ltb_lt in E1. apply Z.eqb_eq in E2.
      assert (D : M -> lit_holds s y). { intros m. destruct (Hxy m) as [Hx|]; auto. exfalso. destruct Hx as [Hx _]. apply (Hx E1). rewrite <- E2, Nat2Z.id. apply (proj2 (HM m)). }
      destruct (infer_ok M n s pp np y S L1 L2 Ly) as [pp' [np' [c [E3 [X1 [X2 X3]]]]]]. exists pp', np', c. repeat (split; auto). }
    destruct (step a b pp np S L1 L2 Lb HC) as [pp1 [np1 [c1 [E1 [X1 [X2 X3]]]]]]. rewrite E1. cbn [obind].
    destruct c1. { exists pp1, np1, true. split; [reflexivity|split; [assumption|split; [assumption|]]]. intros m. destruct (X3 m). discriminate. }
    destruct (step b a pp1 np1 (fun m => proj2 (X3 m)) X1 X2 La (fun m => match HC m with or_introl z => or_intror z | or_intror z => or_introl z end)) as [pp2 [np2 [c2 [E2 [Y1 [Y2 Y3]]]]]]. rewrite E2. cbn [obind].
    destruct c2. { exists pp2, np2, true. split; [reflexivity|split; [assumption|split; [assumption|]]]. intros m. destruct (Y3 m). discriminate. }
    apply IH; auto. intros m. apply (Y3 m).
Qed.

Lemma infer_precs_ok (M : Prop) : forall pres pp np, (M -> models (live R) s /\ forall f, In f pres -> s f) -> (forall f, In f pres -> (f < n)%nat) ->
  (M -> sound_for s pp np) -> length pp = n -> length np = n ->
  exists pp' np' c, infer_precs R pres pp np = Some (pp', np', c) /\ length pp' = n /\ length np' = n /\ (M -> c = false /\ sound_for s pp' np').
Proof.
  induction pres as [|pre r IH]; intros pp np HM B S L1 L2; cbn [infer_precs].
  - exists pp, np, false. repeat (split; auto).
  - assert (Bp : (pre < n)%nat) by (apply B; now left).
    destruct (set_some pp pre true ltac:(lia)) as [pp1 E1]. rewrite E1. cbn [obind].
    destruct (ro_neg _ _ OK) as [Ln Bn]. destruct (get_some (r_neg R) pre ltac:(lia)) as [js Ej]. rewrite Ej. cbn [obind].
    assert (S1 : M -> sound_for s pp1 np).
    { intros m. destruct (S m) as [A1 A2]. split; auto. intros f E. destruct (Nat.eq_dec pre f) as [<-|Nf]. - apply (HM m). now left. - rewrite (get_set_neq _ _ _ _ _ E1 Nf) in E. auto. }
    destruct (infer_all_ok M pre (fun m => conj (proj1 (HM m)) (proj2 (HM m) pre (or_introl eq_refl))) js pp1 np (fun j Hj => Bn _ _ _ Ej Hj) S1) as [pp2 [np2 [c [E2 [Y1 [Y2 Y3]]]]]];
      [rewrite (set_length _ _ _ _ E1); auto|auto|]. rewrite E2. cbn [obind].
    destruct c. { exists pp2, np2, true. split; [reflexivity|split; [assumption|split; [assumption|]]]. intros m. destruct (Y3 m). discriminate. }
    apply IH; auto. + intros m. split; [apply (HM m)|]. intros f Hf. apply (HM m). now right. + intros f Hf. apply B. now right. + intros m. apply (Y3 m).
Qed.
End State.

Lemma applicable_ok (M : Prop) s R a : rint_ok n R -> (a < length (p_prec P))%nat -> (M -> models (live R) s /\ applicable P s a) ->
  exists o, rint_applicable P a R = Some o /\ (M -> o <> None) /\
    forall pp np, o = Some (pp, np) -> length pp = n /\ length np = n /\ (M -> sound_for s pp np).
Proof.
  intros O La HM. unfold rint_applicable. destruct (get_some (p_prec P) a La) as [pres Ep]. rewrite Ep. cbn [obind].
  destruct (infer_precs_ok s R O M pres (repeat false n) (repeat false n)) as [pp [np [c [E [L1 [L2 S]]]]]].
  - intros m. split; [apply (HM m)|]. intros f Hf. apply (HM m). exists pres. auto.
  - intros f Hf. eapply (wf_facts _ WF); [left; eapply nth_error_In; exact Ep|exact Hf].
  - intros _. split; intros f E; exfalso; apply nth_error_In, repeat_spec in E; discriminate.
  - apply repeat_length.
  - apply repeat_length.
  - unfold n in E. rewrite E. cbn [obind]. eexists. split; [reflexivity|]. split.
    + intros m. destruct (S m) as [-> _]. discriminate.
    + intros pp' np' Eq. destruct c; [discriminate|]. inversion Eq; subst. split; auto. split; auto. intros m. apply (S m).
Qed.

(** ** Effects *)
(** [dl'] marks more than [dl] *)
Definition more (dl dl' : list bool) : Prop := length dl' = length dl /\ forall j, get dl j = Some true -> get dl' j = Some true.
Lemma more_refl dl : more dl dl. Proof. split; auto. Qed.
Lemma more_trans a b c : more a b -> more b c -> more a c. Proof. intros [A1 A2] [B1 B2]. split; [congruence|auto]. Qed.
Definition ndead (dl : list bool) : nat := length (filter (fun b => b) dl).

Lemma set_more dl j dl' : set dl j true = Some dl' -> more dl dl'.
Proof. intros E. split. - apply (set_length _ _ _ _ E). - intros k H. destruct (Nat.eq_dec j k) as [<-|Nf]. + apply (get_set_eq _ _ _ _ E). + rewrite (get_set_neq _ _ _ _ _ E Nf). auto. Qed.
Lemma set_ndead : forall dl j dl', get dl j = Some false -> set dl j true = Some dl' -> ndead dl' = S (ndead dl).
Proof.
  unfold ndead. induction dl; intros [|j] dl' G E; cbn in G, E; try discriminate.
  - inversion G; inversion E; subst. reflexivity.
  - destruct (set dl j true) as [l|] eqn:El; [|discriminate]. cbn in E. inversion E; subst. cbn [filter]. specialize (IHdl j l G El). destruct a; cbn [length]; lia.
Qed.

Section Effect.
Variables (add del : list nat) (pp np : list bool) (v : list (Z * Z)).
Hypothesis FV : fine n v.
Hypothesis LP : length pp = n.
Hypothesis LN : length np = n.

Lemma ensures_ok l : (lfact l < n)%nat -> exists b, ensures add del pp np l = Some b.
Proof. intros L. unfold ensures. destruct (get_some pp (lfact l) ltac:(lia)) as [x E]. rewrite E. cbn [obind]. destruct (get_some np (lfact l) ltac:(lia)) as [y F]. rewrite F. cbn [obind]. eauto. Qed.

(** What is checked for the clause number [j] and an effect on the fact [c] *)
Definition secured (c j : nat) : Prop := forall a b, get v j = Some (a, b) -> ensures add del pp np (if Nat.eqb (lfact a) c then b else a) = Some true.

Lemma violate_ok c : forall js dl rm, (forall j, In j js -> (j < length v)%nat) -> length dl = length v ->
  exists dl' rm', violate add del pp np v c js dl rm = Some (dl', rm') /\ more dl dl' /\
    (forall j, In j js -> get dl' j = Some false -> secured c j) /\
    (rm' = rm /\ dl' = dl \/ rm' = true /\ (ndead dl < ndead dl')%nat).
Proof.
  induction js as [|j r IH]; intros dl rm B L; cbn [violate].
  - exists dl, rm. split; auto. split; [apply more_refl|]. split; auto. intros j [].
  - assert (Bj : (j < length v)%nat) by (apply B; now left).
    assert (Br : forall j', In j' r -> (j' < length v)%nat) by (intros; apply B; now right).
    destruct (get_some dl j ltac:(lia)) as [d Ed]. rewrite Ed. cbn [obind]. destruct d.
    { destruct (IH dl rm Br L) as [dl' [rm' [E [M [Q K]]]]]. exists dl', rm'. split; auto. split; auto. split; auto. intros k [<-|Hk] G; auto. rewrite (proj2 M _ Ed) in G. discriminate. }
    destruct (get_some v j Bj) as [[a b] Ev]. rewrite Ev. cbn [obind].
    assert (In (a, b) v) as Hab by (eapply nth_error_In; eauto). destruct (FV a b Hab) as [La [Lb _]].
    assert (exists e, (if Nat.eqb (lfact a) c then ensures add del pp np b else ensures add del pp np a) = Some e) as [e Ee] by (destruct (Nat.eqb (lfact a) c); apply ensures_ok; auto).
    rewrite Ee. cbn [obind]. destruct e.
    + destruct (IH dl rm Br L) as [dl' [rm' [E [M [Q K]]]]]. exists dl', rm'. split; auto. split; auto. split; auto. intros k [<-|Hk] G; auto.
      intros a' b' Ev'. rewrite Ev in Ev'. inversion Ev'; subst. destruct (Nat.eqb (lfact a') c); auto.
    + destruct (set_some dl j true ltac:(lia)) as [dl1 E1]. rewrite E1. cbn [obind]. pose proof (set_more _ _ _ E1) as M1. pose proof (set_ndead _ _ _ Ed E1) as N1.
      destruct (IH dl1 true Br) as [dl' [rm' [E [M [Q K]]]]]; [destruct M1; lia|]. exists dl', rm'. split; auto. split; [eapply more_trans; eauto|]. split.
      * intros k [<-|Hk] G; auto. rewrite (proj2 M _ (get_set_eq _ _ _ _ E1)) in G. discriminate.
      * right. destruct K as [[-> ->]|[-> K]]; split; auto; lia.
Qed.

Lemma violate_effects_ok tab : bounded n (length v) tab -> forall effs dl rm, (forall c, In c effs -> (c < n)%nat) -> length dl = length v ->
  exists dl' rm', violate_effects add del pp np v tab effs (dl, rm) = Some (dl', rm') /\ more dl dl' /\
    (forall c t j, In c effs -> get tab c = Some t -> In j t -> get dl' j = Some false -> secured c j) /\
    (rm' = rm /\ dl' = dl \/ rm' = true /\ (ndead dl < ndead dl')%nat).
Proof.
  intros [BL BT]. unfold violate_effects. induction effs as [|c r IH]; intros dl rm B L; cbn [ofold].
  - exists dl, rm. split; auto. split; [apply more_refl|]. split; auto. intros ? ? ? [].
  - assert (Bc : (c < n)%nat) by (apply B; now left). destruct (get_some tab c ltac:(lia)) as [js Ej]. rewrite Ej. cbn [obind].
    destruct (violate_ok c js dl rm (fun j Hj => BT _ _ _ Ej Hj) L) as [dl1 [rm1 [E1 [M1 [Q1 K1]]]]]. rewrite E1. cbn [obind].
    destruct (IH dl1 rm1) as [dl2 [rm2 [E2 [M2 [Q2 K2]]]]]; [intros x Hx; apply B; now right|destruct M1; lia|]. exists dl2, rm2. split; [exact E2|]. split; [eapply more_trans; eauto|]. split.
    + intros c' t j [<-|Hc] Et Hj G; [|eapply Q2; eauto]. apply Q1; [congruence|]. destruct (get dl1 j) as [d|] eqn:Ed.
      * destruct d; auto. rewrite (proj2 M2 _ Ed) in G. discriminate.
      * exfalso. apply nth_error_None in Ed. assert (nth_error dl2 j <> None) as X by (unfold get in G; congruence). apply nth_error_Some in X. destruct M2. lia.
    + destruct K1 as [[-> ->]|[-> K1]]; destruct K2 as [[-> ->]|[-> K2]]; [left; auto|right; split; auto; lia|right; split; auto; lia|right; split; auto; lia].
Qed.
End Effect.

(** The state after the action satisfies what is not deleted. *)
Definition progress (R R' : rint) (removed : bool) : Prop :=
  rint_ok n R' /\ r_v R' = r_v R /\ more (r_del R) (r_del R') /\ (removed = false /\ r_del R' = r_del R \/ removed = true /\ (ndead (r_del R) < ndead (r_del R'))%nat).

Lemma effect_ok a pp np R : rint_ok n R -> (a < length (p_prec P))%nat -> length pp = n -> length np = n ->
  exists R' removed, rint_effect P a pp np R = Some (R', removed) /\ progress R R' removed /\
    forall s, (forall f, adds P a f -> ~ dels P a f) -> sound_for s pp np -> models (live R') s -> models (live R') (result P s a).
Proof.
  intros O La L1 L2. unfold rint_effect.
  assert (LA : (a < length (p_add P))%nat) by (rewrite (wf_add _ WF), <- (wf_prec _ WF); auto).
  assert (LD : (a < length (p_del P))%nat) by (rewrite (wf_del _ WF), <- (wf_prec _ WF); auto).
  destruct (get_some (p_add P) a LA) as [add Ea]. destruct (get_some (p_del P) a LD) as [del Ed]. rewrite Ea, Ed. cbn [obind].
  assert (BA : forall f, In f add -> (f < n)%nat) by (intros f Hf; eapply (wf_facts _ WF); [right; left; eapply nth_error_In; exact Ea|exact Hf]).
  assert (BD : forall f, In f del -> (f < n)%nat) by (intros f Hf; eapply (wf_facts _ WF); [right; right; eapply nth_error_In; exact Ed|exact Hf]).
  destruct (violate_effects_ok add del pp np (r_v R) (ro_fine _ _ O) L1 L2 (r_pos R) (ro_pos _ _ O) del (r_del R) false BD (ro_del _ _ O)) as [d1 [r1 [E1 [M1 [Q1 K1]]]]]. rewrite E1. cbn [obind].
  destruct (violate_effects_ok add del pp np (r_v R) (ro_fine _ _ O) L1 L2 (r_neg R) (ro_neg _ _ O) add d1 r1 BA) as [d2 [r2 [E2 [M2 [Q2 K2]]]]]; [destruct M1; rewrite (ro_del _ _ O) in *; lia|]. rewrite E2. cbn [obind].
  eexists. eexists. split; [reflexivity|]. split.
  - split; [|split; [|split]]; cbn [r_v r_del r_pos r_neg].
    + destruct O as [O1 O2 O3 O4 O5]. split; cbn; auto. destruct M1, M2; lia.
    + reflexivity.
    + eapply more_trans; eauto.
    + destruct K1 as [[-> ->]|[-> K1]]; destruct K2 as [[-> ->]|[-> K2]]; [left; auto|right; split; auto; lia|right; split; auto; lia|right; split; auto; lia].
  - intros s NC [S1 S2] Hs [x y] Hc. pose proof (Hs _ Hc) as Hxy. destruct Hc as [j [Ev Edl]]; cbn in Ev, Edl.
    destruct (ro_in _ _ O j x y Ev) as [Ix Iy]. assert (In (x, y) (r_v R)) as Hin by (eapply nth_error_In; eauto). destruct (ro_fine _ _ O x y Hin) as [Lx [Ly Nxy]].
    assert (RA : forall f, In f add -> result P s a f) by (intros f Hf; left; exists add; auto).
    assert (RD : forall f, In f del -> ~ result P s a f). { intros f Hf [X|[_ X]]; [apply (NC f X)|apply X]; exists del; auto. }
    assert (RS : forall f, ~ In f del -> s f -> result P s a f). { intros f Hf X. right. split; auto. intros [l [El Hl]]. assert (l = del) by (unfold get in Ed; congruence). subst. auto. }
    assert (RN : forall f, ~ In f add -> ~ s f -> ~ result P s a f). { intros f Hf X [[l [El Hl]]|[Y _]]; auto. assert (l = add) by (unfold get in Ea; congruence). subst. auto. }
    assert (EN : forall l, ensures add del pp np l = Some true -> lit_holds (result P s a) l).
    { intros l E. unfold ensures in E. destruct (get pp (lfact l)) as [p|] eqn:Gp; [|discriminate]. destruct (get np (lfact l)) as [q|] eqn:Gq; [|discriminate]. cbn [obind] in E.
      assert (E' : (if l <? 0 then (q && negb (memb (lfact l) add)) || memb (lfact l) del else (p && negb (memb (lfact l) del)) || memb (lfact l) add) = true) by congruence. clear E.
      destruct (lit_cases l) as [[El Sl]|[El Sl]]; rewrite Sl in E'; rewrite El.
      - apply lit_mklit. apply orb_true_iff in E'. destruct E' as [E'|E'].
        + apply andb_true_iff in E'. destruct E' as [-> E']. apply negb_true_iff in E'. apply memb_false in E'. apply RN; auto.
        + apply memb_In in E'. apply RD; auto.
      - apply lit_mklit_pos. apply orb_true_iff in E'. destruct E' as [E'|E'].
        + apply andb_true_iff in E'. destruct E' as [-> E']. apply negb_true_iff in E'. apply memb_false in E'. apply RS; auto.
        + apply memb_In in E'. apply RA; auto. }
    assert (Ed1 : get d1 j = Some false).
    { destruct (get d1 j) as [d|] eqn:X. - destruct d; auto. rewrite (proj2 M2 _ X) in Edl. discriminate.
      - exfalso. apply nth_error_None in X. assert (nth_error d2 j <> None) as Y by (unfold get in Edl; congruence). apply nth_error_Some in Y. destruct M2. lia. }
    (* a literal of the clause that held either still holds or the other one is secured *)
    assert (K : forall z, lit_holds s z -> entered (r_pos R) (r_neg R) j z -> lit_holds (result P s a) z \/ secured add del pp np (r_v R) (lfact z) j).
    { intros z Hz [t [Et Hj]]. destruct (lit_cases z) as [[El Sl]|[El Sl]]; rewrite Sl in Et.
      - rewrite El in Hz. apply lit_mklit in Hz. destruct (in_dec Nat.eq_dec (lfact z) add) as [H|H].
        + right. eapply Q2; eauto.
        + left. rewrite El. apply lit_mklit. apply RN; auto.
      - rewrite El in Hz. apply lit_mklit_pos in Hz. destruct (in_dec Nat.eq_dec (lfact z) del) as [H|H].
        + right. eapply Q1; eauto.
        + left. rewrite El. apply lit_mklit_pos. apply RS; auto. }
    unfold clause2_holds in *; cbn [fst snd] in *. destruct Hxy as [Hx|Hy].
    + destruct (K x Hx Ix) as [|Sx]; [now left|]. right. specialize (Sx x y Ev). rewrite Nat.eqb_refl in Sx. apply EN. exact Sx.
    + destruct (K y Hy Iy) as [|Sy]; [now right|]. left. specialize (Sy x y Ev). destruct (Nat.eqb_spec (lfact x) (lfact y)); [contradiction|]. apply EN. exact Sy.
Qed.

Lemma progress_live R R' rm c : progress R R' rm -> live R' c -> live R c.
Proof.
  intros [_ [V [M _]]] [j [E D]]. rewrite V in E. exists j. split; auto. destruct (get (r_del R) j) as [d|] eqn:X.
  - destruct d; auto. rewrite (proj2 M _ X) in D. discriminate.
  - exfalso. apply nth_error_None in X. assert (nth_error (r_del R') j <> None) as Y by (unfold get in D; congruence). apply nth_error_Some in Y. destruct M. lia.
Qed.
Lemma progress_refl R : rint_ok n R -> progress R R false.
Proof. intros O. split; auto. split; auto. split; [apply more_refl|]. left. auto. Qed.
Lemma progress_trans R1 R2 R3 a b : progress R1 R2 a -> progress R2 R3 b -> progress R1 R3 (a || b).
Proof.
  intros [A1 [A2 [A3 A4]]] [B1 [B2 [B3 B4]]]. split; auto. split; [congruence|]. split; [eapply more_trans; eauto|].
  destruct A4 as [[-> E]|[-> E]]; destruct B4 as [[-> F]|[-> F]]; cbn [orb].
  - left. split; auto. congruence.
  - right. split; auto. rewrite <- E. exact F.
  - right. split; auto. rewrite F. exact E.
  - right. split; auto. lia.
Qed.

(** ** The rounds *)
Definition stable (V : Z * Z -> Prop) (t : nat) : Prop := (forall f, adds P t f -> ~ dels P t f) -> forall s, models V s -> applicable P s t -> models V (result P s t).
Lemma stable_ext V W t : (forall c, V c <-> W c) -> stable V t -> stable W t.
Proof. intros E H NC s M A c Hc. apply (H NC s); auto. - intros d Hd. apply M. now apply E. - now apply E. Qed.

Let N := length (p_prec P).

Lemma actions_ok : forall k t R nc last, (t + k = N)%nat -> rint_ok n R ->
  (nc = false -> (forall t', (t' < t)%nat -> stable (live R) t') /\ (forall l, last = Some l -> forall t', (l < t' < N)%nat -> stable (live R) t')) ->
  (nc = true -> exists l, last = Some l /\ forall t', (l < t' < t)%nat -> stable (live R) t') ->
  exists R' nc' last' rm, rint_actions P (seq t k) R nc last = Some (R', nc', last') /\ progress R R' rm /\ nc' = nc || rm /\
    (nc' = false -> forall t', (t' < N)%nat -> stable (live R') t') /\
    (nc' = true -> exists l, last' = Some l /\ forall t', (l < t' < N)%nat -> stable (live R') t').
Proof.
  induction k as [|k IH]; intros t R nc last Et O H0 H1; cbn [seq rint_actions].
  - exists R, nc, last, false. split; auto. split; [apply progress_refl; auto|]. split; [now rewrite orb_false_r|]. replace t with N in * by lia. split; auto. intros E. apply (H0 E).
  - destruct (negb nc && match last with Some l => Nat.ltb l t | None => false end) eqn:B.
    { apply andb_true_iff in B. destruct B as [B1 B2]. apply negb_true_iff in B1. subst nc. destruct last as [l|]; [|discriminate]. apply Nat.ltb_lt in B2.
      exists R, false, (Some l), false. split; auto. split; [apply progress_refl; auto|]. split; auto. split; [|discriminate]. intros _ t' Ht.
      destruct (H0 eq_refl) as [X Y]. destruct (Nat.lt_ge_cases t' t); auto. apply (Y l eq_refl). lia. }
    assert (Lt : (t < length (p_prec P))%nat) by (unfold N in Et; lia).
    destruct (applicable_ok False (fun _ => False) R t O Lt (fun f => match f with end)) as [o [Eo _]]. rewrite Eo. cbn [obind].
    assert (SA : forall s, models (live R) s -> applicable P s t -> exists pp np, o = Some (pp, np) /\ length pp = n /\ length np = n /\ sound_for s pp np).
    { intros s Ms As. destruct (applicable_ok True s R t O Lt (fun _ => conj Ms As)) as [o' [Eo' [X Y]]]. assert (o' = o) by congruence. subst o'.
      destruct o as [[pp np]|]; [|exfalso; apply (X I); reflexivity]. exists pp, np. destruct (Y pp np eq_refl) as [Z1 [Z2 Z3]]. auto. }
    destruct o as [[pp np]|].
    + assert (LL : length pp = n /\ length np = n).
      { destruct (applicable_ok False (fun _ => False) R t O Lt (fun f => match f with end)) as [o' [Eo' [_ Y]]]. assert (o' = Some (pp, np)) by congruence. subst o'. destruct (Y pp np eq_refl) as [? [? _]]. auto. }
      destruct LL as [LP LN]. destruct (effect_ok t pp np R O Lt LP LN) as [R1 [rm1 [E1 [PR SE]]]]. rewrite E1. cbn [obind]. destruct PR as [O1 PR']. assert (PR : progress R R1 rm1) by (split; auto). destruct rm1.
      * destruct (IH (S t) R1 true (Some t) ltac:(lia) O1) as [R' [nc' [last' [rm [E2 [P2 [En [G0 G1]]]]]]]]; [discriminate| |].
        { intros _. exists t. split; auto. intros t' Ht. lia. }
        exists R', nc', last', (true || rm). split; [exact E2|]. split; [eapply progress_trans; eauto|]. split; [rewrite En; now rewrite orb_true_r|]. auto.
      * assert (LV : forall c, live R1 c <-> live R c). { intros c. destruct PR' as [V [_ [[_ D]|[D _]]]]; [|discriminate]. unfold live. rewrite V, D. tauto. }
        assert (ST : stable (live R) t).
        { apply (stable_ext (live R1)); auto. intros NC s Ms As. destruct (SA s) as [pp' [np' [Eq [_ [_ Sd]]]]]; auto. { intros c Hc. apply Ms. now apply LV. } inversion Eq; subst. apply SE; auto. }
        destruct (IH (S t) R1 nc last ltac:(lia) O1) as [R' [nc' [last' [rm [E2 [P2 [En [G0 G1]]]]]]]].
        { intros ->. destruct (H0 eq_refl) as [X Y]. split.
          - intros t' Ht. apply (stable_ext (live R)); [intros c; symmetry; apply LV|]. destruct (Nat.eq_dec t' t) as [->|]; auto. apply X. lia.
          - intros l El t' Ht. apply (stable_ext (live R)); [intros c; symmetry; apply LV|]. eapply Y; eauto. }
        { intros ->. destruct (H1 eq_refl) as [l [El Y]]. exists l. split; auto. intros t' Ht. apply (stable_ext (live R)); [intros c; symmetry; apply LV|]. destruct (Nat.eq_dec t' t) as [->|]; auto. apply Y. lia. }
        exists R', nc', last', rm. split; [exact E2|]. split; [apply (progress_trans R R1 R' false rm); auto|]. auto.
    + assert (ST : stable (live R) t). { intros NC s Ms As. destruct (SA s Ms As) as [? [? [? _]]]. discriminate. }
      apply IH; auto; [lia| |].
      * intros E. destruct (H0 E) as [X Y]. split; auto. intros t' Ht. destruct (Nat.eq_dec t' t) as [->|]; auto. apply X. lia.
      * intros E. destruct (H1 E) as [l [El Y]]. exists l. split; auto. intros t' Ht. destruct (Nat.eq_dec t' t) as [->|]; auto. apply Y. lia.
Qed.

Lemma keep_length R : length (r_del R) = length (r_v R) -> (length (keep R) + ndead (r_del R) = length (r_v R))%nat.
Proof.
  unfold keep, ndead. generalize (r_v R) (r_del R). induction l; intros [|b m] L; cbn in *; try discriminate; auto. rewrite app_length. injection L as L. specialize (IHl m L). destruct b; cbn; lia.
Qed.

(** The initial call has [first] and no deleted clause. *)
Lemma rounds_ok : forall fuel first R last, rint_ok n R -> (first = true -> ndead (r_del R) = 0%nat) -> (length (keep R) < fuel)%nat ->
  (forall l, last = Some l -> forall t', (l < t' < N)%nat -> stable (live R) t') ->
  exists v, rint_rounds P fuel first R last = Some v /\ (forall c, In c v -> live R c) /\ forall t, (t < N)%nat -> stable (fun c => In c v) t.
Proof.
  induction fuel as [|fuel IH]; intros first R last O HF L H; [lia|]. cbn [rint_rounds].
  assert (X : exists R1, (if first then Some R else rint_reduce P R) = Some R1 /\ rint_ok n R1 /\ length (keep R1) = length (keep R) /\ ndead (r_del R1) = 0%nat /\ forall c, live R1 c <-> live R c).
  { destruct first. - exists R. split; auto. split; auto. split; auto. split; auto. tauto.
    - destruct (reduce_ok P R O) as [R1 [E [O1 [V LV]]]]. exists R1. split; auto. split; auto.
      assert (ndead (r_del R1) = 0%nat). { unfold rint_reduce, make_rint in E. destruct (tables (p_nfacts P) (keep R)) as [[po ne]|]; [|discriminate]. cbn [obind] in E. inversion E; subst. cbn. unfold ndead. generalize (length (keep R)). clear. induction n; cbn; auto. }
      split; auto. pose proof (keep_length R1 (ro_del _ _ O1)). rewrite V in H1. lia. }
  destruct X as [R1 [E1 [O1 [L1 [D1 LV]]]]]. rewrite E1. cbn [obind].
  destruct (actions_ok N 0%nat R1 false last eq_refl O1) as [R2 [nc [last' [rm [E2 [P2 [En [G0 G1]]]]]]]].
  - intros _. split; [intros t' Ht; lia|]. intros l El t' Ht. apply (stable_ext (live R)); [intros c; symmetry; apply LV|]. eauto.
  - discriminate.
  - unfold N in E2. rewrite E2. cbn [obind]. cbn [orb] in En. destruct P2 as [O2 [V2 [M2 K2]]]. assert (P2 : progress R1 R2 rm) by (split; auto). destruct nc.
    + subst rm. destruct K2 as [[? _]|[_ K2]]; [discriminate|]. destruct (G1 eq_refl) as [l [El Y]].
      destruct (IH false R2 last' O2) as [v [Ev [A B]]]; [discriminate| | |].
      * pose proof (keep_length R1 (ro_del _ _ O1)). pose proof (keep_length R2 (ro_del _ _ O2)). rewrite V2 in H1. lia.
      * intros l' El' t' Ht. apply Y. rewrite El in El'. inversion El'; subst. auto.
      * exists v. split; auto. split; auto. intros c Hc. apply LV. eapply progress_live; eauto.
    + subst rm. destruct K2 as [[_ K2]|[K2 _]]; [|discriminate].
      assert (LR : forall c, live R2 c <-> In c (r_v R2)).
      { intros c. unfold live. split. - intros [j [E _]]. eapply nth_error_In; eauto.
        - intros Hc. apply In_nth_error in Hc. destruct Hc as [j E]. exists j. split; auto. destruct (get_some (r_del R2) j) as [d Ed]. + rewrite (ro_del _ _ O2). apply nth_error_Some. congruence.
          + destruct d; auto. exfalso. rewrite K2 in Ed. unfold ndead in D1. apply length_zero_iff_nil in D1. assert (In true (filter (fun b => b) (r_del R1))) as X by (apply filter_In; split; auto; eapply nth_error_In; eauto). rewrite D1 in X. destruct X. }
      exists (r_v R2). split; auto. split.
      * intros c Hc. apply LV. eapply progress_live; eauto. apply LR. auto.
      * intros t Ht. apply (stable_ext (live R2)); auto.
Qed.

Theorem rintanen_ok : exists v, rintanen P = Some v /\ fine n v /\ forall plan, executable P (initial_state P) plan -> (forall a f, In a plan -> adds P a f -> ~ dels P a f) -> forall c, In c v -> clause2_holds (after P (initial_state P) plan) c.
Proof.
  unfold rintanen, rint_initial. destruct (make_rint_ok n (initial_candidates P) (initial_fine P)) as [R [E [O [V LV]]]]. unfold n in E. rewrite E. cbn [obind].
  assert (D : ndead (r_del R) = 0%nat). { unfold make_rint in E. destruct (tables (p_nfacts P) (initial_candidates P)) as [[po ne]|]; [|discriminate]. cbn [obind] in E. inversion E; subst. cbn. unfold ndead. generalize (length (initial_candidates P)). clear. induction n; cbn; auto. }
  destruct (rounds_ok (S (length (initial_candidates P))) true R None O (fun _ => D)) as [v [Ev [A B]]].
  - pose proof (keep_length R (ro_del _ _ O)). rewrite V in H. lia.
  - discriminate.
  - exists v. split; auto. split.
    + intros a b Hc. apply A, LV in Hc. apply (initial_fine P). exact Hc.
    + intros plan X NC.
      assert (K : forall plan s0, models (fun c => In c v) s0 -> executable P s0 plan -> (forall a f, In a plan -> adds P a f -> ~ dels P a f) -> models (fun c => In c v) (after P s0 plan)).
      { clear plan X NC. induction plan as [|a r IH]; intros s0 M X NC; cbn in *; auto. destruct X as [X1 X2]. apply IH; [|exact X2|intros a' f H; apply (NC a' f); now right].
        destruct (Nat.lt_ge_cases a N) as [H|H]; [apply (B a H); auto|]. intros c Hc. specialize (M c Hc).
        assert (EQ : forall f, result P s0 a f <-> s0 f).
        { intros f. assert (NA : ~ adds P a f). { intros [l [El _]]. assert (nth_error (p_add P) a <> None) as Y by congruence. apply nth_error_Some in Y. rewrite (wf_add _ WF), <- (wf_prec _ WF) in Y. fold N in Y. lia. }
          assert (ND : ~ dels P a f). { intros [l [El _]]. assert (nth_error (p_del P) a <> None) as Y by congruence. apply nth_error_Some in Y. rewrite (wf_del _ WF), <- (wf_prec _ WF) in Y. fold N in Y. lia. }
          unfold result. tauto. }
        unfold clause2_holds, lit_holds in *. rewrite !EQ. exact M. }
      intros c Hc. specialize (K plan (initial_state P)). assert (M : models (fun c => In c v) (initial_state P)). { intros [x y] Hx. apply A, LV in Hx. apply (initial_in P x y Hx). }
      exact (K M X NC c Hc).
Qed.
Corollary rintanen_reach : no_conflict P -> exists v, rintanen P = Some v /\ fine n v /\ forall s, reachable P s -> forall c, In c v -> clause2_holds s c.
Proof.
  intros NC. destruct rintanen_ok as [v [E [F H]]]. exists v. split; auto. split; auto. intros s [plan [X Es]] c Hc. specialize (H plan X (fun a f _ => NC a f) c Hc). unfold clause2_holds, lit_holds in *. rewrite !Es. exact H.
Qed.
End Rint.
