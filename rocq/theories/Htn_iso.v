(** Isomorphic networks have the same solutions. *)
From Coq Require Import Relations.
From Verif Require Import Base Htn_problem Htn_spec Htn_sem.

(** A one-to-one correspondence between the tasks of two networks that preserves names and order. *)
Record iso (f : tid -> tid -> Prop) (a b : tnet) : Prop := {
  iso_dom : forall x y, f x y -> t_in a x /\ t_in b y;
  iso_tot : forall x, t_in a x -> exists y, f x y;
  iso_surj : forall y, t_in b y -> exists x, f x y;
  iso_fun : forall x y y', f x y -> f x y' -> y = y';
  iso_inj : forall x x' y, f x y -> f x' y -> x = x';
  iso_lab : forall x y, f x y -> t_lab b y = t_lab a x;
  iso_ord : forall x y x' y', f x y -> f x' y' -> (t_ord a x x' <-> t_ord b y y') }.

(** Same state and isomorphic remaining network. *)
Definition same_node (s : state) (a : tnet) (s' : state) (b : tnet) : Prop :=
  (forall f, s f <-> s' f) /\ exists f, iso f a b.

Lemma iso_dec P f a b x y m a' :
  wf_tn a -> wf_tn b -> iso f a b -> f x y -> decomposes P a x m a' ->
  exists b' f', decomposes P b y m b' /\ iso f' a' b'.
Proof.
  intros Wa Wb I Fxy D.
  destruct (iso_dom _ _ _ I x y Fxy) as [Hx Hy].
  assert (D' : decomposes P b y m (decF b y m)).
  { apply decF_decomposes; auto; [apply D|]. rewrite (iso_lab _ _ _ I x y) by auto. apply D. }
  set (f' := fun u v => (f u v /\ u <> x) \/ exists j, j < length (m_subs m) /\ u = x ++ [j] /\ v = y ++ [j]).
  assert (CA : forall j v, f (x ++ [j]) v -> False).
  { intros j v H. apply (child_not_in a x j Wa Hx). apply (iso_dom _ _ _ I _ _ H). }
  assert (CB : forall j u, f u (y ++ [j]) -> False).
  { intros j u H. apply (child_not_in b y j Wb Hy). apply (iso_dom _ _ _ I _ _ H). }
  assert (NY : forall u v, f u v -> u <> x -> v <> y).
  { intros u v H N ->. apply N. eapply (iso_inj _ _ _ I); eauto. }
  exists (decF b y m), f'. split; auto. split.
  - intros u v [[H N]|(j & Hj & -> & ->)].
    + destruct (iso_dom _ _ _ I _ _ H). split.
      * apply (d_in' _ _ _ _ _ D). auto.
      * apply (d_in' _ _ _ _ _ D'). left. split; eauto.
    + split; [apply (d_in' _ _ _ _ _ D)|apply (d_in' _ _ _ _ _ D')]; eauto.
  - intros u Hu. apply (d_in' _ _ _ _ _ D) in Hu as [[Hu N]|(j & Hj & ->)].
    + destruct (iso_tot _ _ _ I u Hu) as (v & Hv). exists v. left. auto.
    + exists (y ++ [j]). right. eauto.
  - intros v Hv. apply (d_in' _ _ _ _ _ D') in Hv as [[Hv N]|(j & Hj & ->)].
    + destruct (iso_surj _ _ _ I v Hv) as (u & Hu). exists u. left. split; auto. intros ->. apply N.
      eapply (iso_fun _ _ _ I); eauto.
    + exists (x ++ [j]). right. eauto.
  - intros u v v' [[H N]|(j & Hj & -> & ->)] [[H' N']|(j' & Hj' & E & ->)].
    + eapply (iso_fun _ _ _ I); eauto.
    + subst. exfalso; eauto.
    + exfalso; eauto.
    + apply app_single_inj in E. now subst.
  - intros u u' v [[H N]|(j & Hj & -> & ->)] [[H' N']|(j' & Hj' & -> & E)].
    + eapply (iso_inj _ _ _ I); eauto.
    + subst. exfalso; eauto.
    + exfalso; eauto.
    + apply app_single_inj in E. now subst.
  - intros u v [[H N]|(j & Hj & -> & ->)].
    + destruct (iso_dom _ _ _ I _ _ H).
      rewrite (d_lab_old _ _ _ _ _ D'), (d_lab_old _ _ _ _ _ D); eauto. now apply (iso_lab _ _ _ I).
    + destruct (nth_error (m_subs m) j) as [t|] eqn:E; [|apply nth_error_None in E; lia].
      now rewrite (d_lab_new _ _ _ _ _ D' j t E), (d_lab_new _ _ _ _ _ D j t E).
  - intros u v u' v' H H'. rewrite (d_ord _ _ _ _ _ D), (d_ord _ _ _ _ _ D').
    destruct H as [[H N]|(j & Hj & -> & ->)]; destruct H' as [[H' N']|(j' & Hj' & -> & ->)].
    + destruct (iso_dom _ _ _ I _ _ H), (iso_dom _ _ _ I _ _ H'). split.
      * intros [HH|[HH|[HH|HH]]]; tidy; try (exfalso; eapply CA; eassumption).
        left. repeat split; eauto. now apply (iso_ord _ _ _ I _ _ _ _ H H').
      * intros [HH|[HH|[HH|HH]]]; tidy; try (exfalso; eapply CB; eassumption).
        left. repeat split; auto. now apply (iso_ord _ _ _ I _ _ _ _ H H').
    + destruct (iso_dom _ _ _ I _ _ H). split.
      * intros [HH|[HH|[HH|HH]]]; tidy; try (exfalso; eapply CA; eassumption); try (exfalso; eapply (child_not_in a x); eassumption).
        right; right; right. eexists. repeat split; eauto. now apply (iso_ord _ _ _ I _ _ _ _ H Fxy).
      * intros [HH|[HH|[HH|HH]]]; tidy; try (exfalso; eapply CB; eassumption); try (exfalso; eapply (child_not_in b y); eassumption).
        right; right; right. eexists. repeat split; eauto. now apply (iso_ord _ _ _ I _ _ _ _ H Fxy).
    + destruct (iso_dom _ _ _ I _ _ H'). split.
      * intros [HH|[HH|[HH|HH]]]; tidy; try (exfalso; eapply CA; eassumption); try (exfalso; eapply (child_not_in a x); eassumption).
        right; right; left. eexists. repeat split; eauto. now apply (iso_ord _ _ _ I _ _ _ _ Fxy H').
      * intros [HH|[HH|[HH|HH]]]; tidy; try (exfalso; eapply CB; eassumption); try (exfalso; eapply (child_not_in b y); eassumption).
        right; right; left. eexists. repeat split; eauto. now apply (iso_ord _ _ _ I _ _ _ _ Fxy H').
    + split.
      * intros [HH|[HH|[HH|HH]]]; tidy; try (exfalso; eapply (child_not_in a x); eassumption).
        right; left. do 2 eexists. repeat split; eauto.
      * intros [HH|[HH|[HH|HH]]]; tidy; try (exfalso; eapply (child_not_in b y); eassumption).
        right; left. do 2 eexists. repeat split; eauto.
Qed.

Lemma iso_refn P n f a b a' :
  acyclic_methods P -> wf_tn a -> wf_tn b -> iso f a b -> refn P n a a' ->
  exists b' f', refn P n b b' /\ iso f' a' b'.
Proof.
  intros A Wa Wb I R. revert b f Wb I. induction R as [a|n a x m a1 a2 D R IH]; intros b f Wb I.
  - exists b, f. split; auto. constructor.
  - destruct (iso_tot _ _ _ I x (d_in _ _ _ _ _ D)) as (y & Fxy).
    destruct (iso_dec P f a b x y m a1 Wa Wb I Fxy D) as (b1 & f1 & D1 & I1).
    destruct (IH (decomposes_wf _ _ _ _ _ Wa (A m (d_method _ _ _ _ _ D)) D) b1 f1
                 (decomposes_wf _ _ _ _ _ Wb (A m (d_method _ _ _ _ _ D)) D1) I1) as (b2 & f2 & R2 & I2).
    exists b2, f2. split; auto. econstructor; eauto.
Qed.

Lemma iso_list f a b L : iso f a b -> (forall x, In x L -> t_in a x) -> exists L', Forall2 f L L'.
Proof.
  intros I. induction L as [|x L IH]; intros H; [exists []; constructor|].
  destruct (iso_tot _ _ _ I x) as (y & Hy); [apply H; simpl; auto|].
  destruct IH as (L' & HL); [intros; apply H; simpl; auto|]. exists (y :: L'). now constructor.
Qed.

Lemma Forall2_in_l {A B} (R : A -> B -> Prop) l l' x : Forall2 R l l' -> In x l -> exists y, In y l' /\ R x y.
Proof.
  induction 1; intros []; subst; [exists y; simpl; auto|]. destruct IHForall2 as (z & ? & ?); auto. exists z; simpl; auto.
Qed.
Lemma Forall2_in_r {A B} (R : A -> B -> Prop) l l' y : Forall2 R l l' -> In y l' -> exists x, In x l /\ R x y.
Proof.
  induction 1; intros []; subst; [exists x; simpl; auto|]. destruct IHForall2 as (z & ? & ?); auto. exists z; simpl; auto.
Qed.

Lemma iso_lin f a b L L' : iso f a b -> Forall2 f L L' -> lin a L -> lin b L'.
Proof.
  intros I F (N & J & O). split; [|split].
  - clear J O. induction F as [|x y L L' H F IH]; [constructor|]. inversion N; subst. constructor; auto.
    intros Hy. destruct (Forall2_in_r _ _ _ _ F Hy) as (x' & Hx' & H').
    rewrite (iso_inj _ _ _ I _ _ _ H H') in *. contradiction.
  - intros y. split.
    + intros Hy. destruct (Forall2_in_r _ _ _ _ F Hy) as (x' & Hx' & H'). apply (iso_dom _ _ _ I _ _ H').
    + intros Hy. destruct (iso_surj _ _ _ I y Hy) as (x & H). assert (Hx : In x L) by (apply J, (iso_dom _ _ _ I _ _ H)).
      destruct (Forall2_in_l _ _ _ _ F Hx) as (y' & Hy' & H'). rewrite (iso_fun _ _ _ I _ _ _ H H'). exact Hy'.
  - clear J N. induction F as [|x y L L' H F IH]; [constructor|]. inversion O as [|? ? O1 O2]; subst. constructor; auto.
    rewrite Forall_forall in *. intros z Hz. destruct (Forall2_in_r _ _ _ _ F Hz) as (x' & Hx' & H').
    rewrite <- (iso_ord _ _ _ I _ _ _ _ H' H). auto.
Qed.

Lemma iso_map f a b L L' : iso f a b -> Forall2 f L L' -> map (t_lab a) L = map (t_lab b) L'.
Proof. intros I F. induction F as [|x y L L' H F IH]; simpl; auto. rewrite (iso_lab _ _ _ I _ _ H). congruence. Qed.

Lemma solvesk_iso P s s' a b k plan :
  acyclic_methods P -> wf_tn a -> wf_tn b -> same_node s a s' b -> solvesk P s a k plan -> solvesk P s' b k plan.
Proof.
  intros A Wa Wb (Es & f & I) H.
  apply (solvesk_ext P s s' a a k plan Es (teq_refl a)) in H.
  destruct H as (d & a' & L & R & Hp & HL & -> & He & Hg & ->).
  destruct (iso_refn P d f a b a' A Wa Wb I R) as (b' & f' & R' & I').
  destruct (iso_list f' a' b' L I') as (L' & F); [intros x Hx; now apply HL|].
  assert (M := iso_map _ _ _ _ _ I' F).
  exists d, b', L'. split; auto. split; [|split; [|split; [|split; [|split]]]]; auto.
  - intros y Hy. destruct (iso_surj _ _ _ I' y Hy) as (x & H). rewrite (iso_lab _ _ _ I' _ _ H). apply Hp.
    apply (iso_dom _ _ _ I' _ _ H).
  - now apply (iso_lin f' a' b' L).
Qed.
