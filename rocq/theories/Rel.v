(** Facts about finite relations, used in several proof files. *)
From Coq Require Import List Arith Lia Relations Operators_Properties.
Import ListNotations.

Lemma fin_wf (R : nat -> nat -> Prop) N :
  (forall a b, R a b -> a < N) ->
  (forall a b c, R a b -> R b c -> R a c) -> (forall a, ~ R a a) -> well_founded R.
Proof.
  intros B T I.
  assert (C : forall n a vis, length vis + n = N -> NoDup vis -> (forall v, In v vis -> v < N) ->
                         (forall v, In v vis -> R a v) -> a < N -> Acc R a).
  { induction n as [|n IH]; intros a vis HL HN HB HR Ha.
    - exfalso. assert (NoDup (a :: vis)).
      { constructor; auto. intros H. apply (I a). auto. }
      assert (length (a :: vis) <= length (seq 0 N)).
      { apply NoDup_incl_length; auto. intros v [->|Hv]; apply in_seq; [lia|]. specialize (HB v Hv). lia. }
      rewrite seq_length in H0. simpl in H0. lia.
    - constructor. intros b Hb. apply (IH b (a :: vis)).
      + simpl. lia.
      + constructor; auto. intros H. apply (I a). auto.
      + intros v [->|Hv]; auto.
      + intros v [->|Hv]; eauto.
      + eauto. }
  intros a. constructor. intros b Hb. apply (C N b []); auto.
  - constructor.
  - intros v [].
  - intros v [].
  - eauto.
Qed.

Section Clos.
  Variable A : Type.
  Variable R : A -> A -> Prop.
  Notation tc := (clos_trans A R).
  Notation rtc := (clos_refl_trans A R).

  Lemma tc_rtc x y : tc x y -> rtc x y.
  Proof. induction 1; [now apply rt_step|eapply rt_trans; eauto]. Qed.

  Lemma rtc_cases x y : rtc x y <-> x = y \/ tc x y.
  Proof.
    split.
    - induction 1 as [x y H|x|x y z H1 [->|IH1] H2 [->|IH2]]; auto.
      + right. now apply t_step.
      + right. eapply t_trans; eauto.
    - intros [->|H]; [apply rt_refl|now apply tc_rtc].
  Qed.

  Lemma rtc_tc x y z : rtc x y -> tc y z -> tc x z.
  Proof. intros H1 H2. apply rtc_cases in H1 as [->|H1]; auto. eapply t_trans; eauto. Qed.
  Lemma tc_rtc_tc x y z : tc x y -> rtc y z -> tc x z.
  Proof. intros H1 H2. apply rtc_cases in H2 as [->|H2]; auto. eapply t_trans; eauto. Qed.

  Lemma tc_first x y : tc x y <-> exists z, R x z /\ rtc z y.
  Proof.
    split.
    - induction 1 as [x y H|x y z H1 (u & U1 & U2) H2 IH2].
      + exists y. split; auto. apply rt_refl.
      + exists u. split; auto. eapply rt_trans; eauto. now apply tc_rtc.
    - intros (z & H1 & H2). apply rtc_cases in H2 as [->|H2]; [now apply t_step|].
      eapply t_trans; [apply t_step; eauto|eauto].
  Qed.

  Lemma tc_last x y : tc x y <-> exists z, rtc x z /\ R z y.
  Proof.
    split.
    - induction 1 as [x y H|x y z H1 IH1 H2 (u & U1 & U2)].
      + exists x. split; auto. apply rt_refl.
      + exists u. split; auto. eapply rt_trans; eauto. now apply tc_rtc.
    - intros (z & H1 & H2). apply rtc_cases in H1 as [->|H1]; [now apply t_step|].
      eapply t_trans; [eauto|apply t_step; eauto].
  Qed.

  Lemma rtc_ind_l (Q : A -> Prop) (y : A) :
    Q y -> (forall x z, R x z -> rtc z y -> Q z -> Q x) -> forall x, rtc x y -> Q x.
  Proof.
    intros H0 HS x H. apply clos_rt_rt1n in H. induction H; auto.
    eapply HS; eauto. now apply clos_rt1n_rt.
  Qed.

  Lemma rtc_inv_l (Q : A -> Prop) x y :
    (forall a b, Q a -> R a b -> Q b) -> Q x -> rtc x y -> Q y.
  Proof. intros HS H0 H. induction H; eauto. Qed.
End Clos.

Lemma tc_mono A (R R' : A -> A -> Prop) : (forall x y, R x y -> R' x y) ->
  forall x y, clos_trans A R x y -> clos_trans A R' x y.
Proof. intros H x y T. induction T; [apply t_step; auto|eapply t_trans; eauto]. Qed.
Lemma rtc_mono A (R R' : A -> A -> Prop) : (forall x y, R x y -> R' x y) ->
  forall x y, clos_refl_trans A R x y -> clos_refl_trans A R' x y.
Proof. intros H x y T. induction T; [apply rt_step; auto|apply rt_refl|eapply rt_trans; eauto]. Qed.

(** In a finite acyclic relation every element lies above a minimal and below a maximal one. *)
Lemma acyclic_min (R : nat -> nat -> Prop) (dec : forall b, (exists a, R a b) \/ ~ exists a, R a b) N :
  (forall a b, R a b -> a < N) -> (forall a, ~ clos_trans nat R a a) ->
  forall b, exists a, clos_refl_trans nat R a b /\ ~ exists c, R c a.
Proof.
  intros B I b.
  assert (W : well_founded (clos_trans nat R)).
  { apply (fin_wf _ N); auto.
    - intros a c H. apply tc_first in H as (z & H & _). eauto.
    - intros x y z. apply t_trans. }
  induction b as [b IH] using (well_founded_induction W).
  destruct (dec b) as [(a & Ha)|H].
  - destruct (IH a) as (a0 & H1 & H2); [now apply t_step|].
    exists a0. split; auto. eapply rt_trans; eauto. now apply rt_step.
  - exists b. split; auto. apply rt_refl.
Qed.

Lemma clos_trans_flip A (R : A -> A -> Prop) x y :
  clos_trans A (fun a b => R b a) x y <-> clos_trans A R y x.
Proof.
  split; intros H; induction H; try (apply t_step; assumption); eapply t_trans; eauto.
Qed.
Lemma clos_rt_flip A (R : A -> A -> Prop) x y :
  clos_refl_trans A (fun a b => R b a) x y <-> clos_refl_trans A R y x.
Proof.
  split; intros H; induction H; try (apply rt_step; assumption); try apply rt_refl; eapply rt_trans; eauto.
Qed.

Lemma acyclic_max (R : nat -> nat -> Prop) (dec : forall a, (exists b, R a b) \/ ~ exists b, R a b) N :
  (forall a b, R a b -> b < N) -> (forall a, ~ clos_trans nat R a a) ->
  forall a, exists b, clos_refl_trans nat R a b /\ ~ exists c, R b c.
Proof.
  intros B I a.
  destruct (acyclic_min (fun x y => R y x) dec N) with (b := a) as (b & H1 & H2).
  - intros x y H. eauto.
  - intros x H. apply clos_trans_flip in H. eapply I; eauto.
  - exists b. split; auto. now apply clos_rt_flip in H1.
Qed.
