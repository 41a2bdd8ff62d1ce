(** Facts about the HTN semantics of [Htn_spec]: decompositions of different tasks commute, hence progression (decomposing
    or executing ready tasks one at a time) is sound and complete. *)
From Coq Require Import List Arith Lia Relations Permutation Bool.
Import ListNotations.
From Verif Require Import Htn_problem Htn_spec.

Definition tid_eq_dec : forall x y : tid, {x = y} + {x <> y} := list_eq_dec Nat.eq_dec.

(** ** Well-formed networks *)
Definition prefix (x y : tid) : Prop := exists z, y = x ++ z.

Record wf_tn (tn : tnet) : Prop := {
  wt_trans : forall x y z, t_ord tn x y -> t_ord tn y z -> t_ord tn x z;
  wt_irr : forall x, ~ t_ord tn x x;
  wt_dom : forall x y, t_ord tn x y -> t_in tn x /\ t_in tn y;
  wt_anti : forall x y, t_in tn x -> t_in tn y -> prefix x y -> x = y }.

(** ** Equivalent networks *)
Record teq (a b : tnet) : Prop := {
  teq_in : forall x, t_in a x <-> t_in b x;
  teq_lab : forall x, t_in a x -> t_lab a x = t_lab b x;
  teq_ord : forall x y, t_ord a x y <-> t_ord b x y }.

Lemma teq_refl a : teq a a.
Proof. split; intros; tauto. Qed.
Lemma teq_sym a b : teq a b -> teq b a.
Proof.
  intros [I L O]. split; intros.
  - symmetry; apply I.
  - symmetry; apply L, I; assumption.
  - symmetry; apply O.
Qed.
Lemma teq_trans a b c : teq a b -> teq b c -> teq a c.
Proof.
  intros [I L O] [I' L' O']. split; intros.
  - rewrite I; apply I'.
  - rewrite L by assumption. apply L', I; assumption.
  - rewrite O; apply O'.
Qed.

Lemma teq_wf a b : teq a b -> wf_tn a -> wf_tn b.
Proof.
  intros [I L O] [T Ir D A]. split.
  - intros x y z. rewrite <- !O. apply T.
  - intros x. rewrite <- O. apply Ir.
  - intros x y. rewrite <- O, <- !I. apply D.
  - intros x y. rewrite <- !I. apply A.
Qed.

Lemma decomposes_teq_l P a b x m c : teq a b -> decomposes P a x m c -> decomposes P b x m c.
Proof.
  intros [I L O] [M Dx Dl Di Do Dn Dr]. split; auto.
  - now apply I.
  - rewrite <- L; auto.
  - intros y. rewrite Di, I. tauto.
  - intros y Hy N. rewrite Do by (try apply I; assumption). apply L. now apply I.
  - intros y z. rewrite Dr. setoid_rewrite I. setoid_rewrite O. tauto.
Qed.

Lemma decomposes_teq_r P a x m b c : teq b c -> decomposes P a x m b -> decomposes P a x m c.
Proof.
  intros [I L O] [M Dx Dl Di Do Dn Dr]. split; auto.
  - intros y. now rewrite <- I, Di.
  - intros y Hy N. rewrite <- L; auto. apply Di. auto.
  - intros j t E. rewrite <- L; auto. apply Di. right. exists j. split; auto.
    apply nth_error_Some. congruence.
  - intros y z. now rewrite <- O, Dr.
Qed.

(** ** Decomposition as a function *)
Definition child_of (x y : tid) : option nat :=
  match rev y with
  | [] => None
  | j :: r => if tid_eq_dec (rev r) x then Some j else None
  end.

Lemma child_of_spec x y j : child_of x y = Some j <-> y = x ++ [j].
Proof.
  unfold child_of. split.
  - destruct (rev y) as [|k r] eqn:E; [discriminate|].
    destruct (tid_eq_dec (rev r) x); [|discriminate].
    intros [= ->]. rewrite <- (rev_involutive y), E. simpl. now subst.
  - intros ->. rewrite rev_app_distr. simpl. rewrite rev_involutive.
    destruct (tid_eq_dec x x); congruence.
Qed.

Lemma app_single_inj (x : tid) j k : x ++ [j] = x ++ [k] -> j = k.
Proof. intros H. apply app_inv_head in H. congruence. Qed.

Lemma app_single_neq (x : tid) j : x ++ [j] <> x.
Proof. intros H. apply (f_equal (@length nat)) in H. rewrite app_length in H. simpl in H. lia. Qed.

Lemma app_single_inj2 (x y : tid) j k : x ++ [j] = y ++ [k] -> x = y /\ j = k.
Proof. intros H. apply app_inj_tail in H. exact H. Qed.

Definition decF (tn : tnet) (x : tid) (m : method) : tnet :=
  {| t_in := fun y => (t_in tn y /\ y <> x) \/ (exists j, j < length (m_subs m) /\ y = x ++ [j]);
     t_lab := fun y => match child_of x y with
                       | Some j => nth j (m_subs m) 0
                       | None => t_lab tn y end;
     t_ord := fun y z =>
       (t_in tn y /\ t_in tn z /\ y <> x /\ z <> x /\ t_ord tn y z)
    \/ (exists j k, j < length (m_subs m) /\ k < length (m_subs m) /\
                    y = x ++ [j] /\ z = x ++ [k] /\ m_lt m j k)
    \/ (exists j, j < length (m_subs m) /\ y = x ++ [j] /\ t_in tn z /\ z <> x /\ t_ord tn x z)
    \/ (exists k, k < length (m_subs m) /\ z = x ++ [k] /\ t_in tn y /\ y <> x /\ t_ord tn y x) |}.

Lemma decF_decomposes P tn x m :
  wf_tn tn -> In m (p_methods P) -> t_in tn x -> t_lab tn x = m_task m -> decomposes P tn x m (decF tn x m).
Proof.
  intros W Hm Hx Hl. split; auto.
  - intros y. simpl. tauto.
  - intros y Hy N. simpl. destruct (child_of x y) as [j|] eqn:E; auto.
    apply child_of_spec in E. exfalso. apply N. symmetry. apply (wt_anti _ W); auto.
    exists [j]. exact E.
  - intros j t E. simpl. replace (child_of x (x ++ [j])) with (Some j).
    + apply nth_error_nth with (d := 0) in E. exact E.
    + symmetry. now apply child_of_spec.
  - intros y z. simpl. tauto.
Qed.

Lemma decomposes_fun P tn x m a b : decomposes P tn x m a -> decomposes P tn x m b -> teq a b.
Proof.
  intros A B. split.
  - intros y. rewrite (d_in' _ _ _ _ _ A), (d_in' _ _ _ _ _ B). tauto.
  - intros y Hy. apply (d_in' _ _ _ _ _ A) in Hy as [[Hy N]|(j & Hj & ->)].
    + rewrite (d_lab_old _ _ _ _ _ A), (d_lab_old _ _ _ _ _ B); auto.
    + destruct (nth_error (m_subs m) j) eqn:E.
      * rewrite (d_lab_new _ _ _ _ _ A j n E), (d_lab_new _ _ _ _ _ B j n E). reflexivity.
      * apply nth_error_None in E. lia.
  - intros y z. rewrite (d_ord _ _ _ _ _ A), (d_ord _ _ _ _ _ B). tauto.
Qed.

Lemma m_lt_trans m i j k : m_lt m i j -> m_lt m j k -> m_lt m i k.
Proof. apply t_trans. Qed.

Ltac tidy :=
  repeat match goal with
  | H : exists _, _ |- _ => destruct H
  | H : _ /\ _ |- _ => destruct H
  | H : ?x ++ [_] = ?x ++ [_] |- _ => apply app_single_inj in H
  | H : ?x ++ [_] = ?y ++ [_] |- _ => apply app_single_inj2 in H; destruct H
  | H : ?x ++ [_] = ?x |- _ => exfalso; exact (app_single_neq _ _ H)
  | H : ?x = ?x ++ [_] |- _ => exfalso; exact (app_single_neq _ _ (eq_sym H))
  | H : ?a <> ?a |- _ => exfalso; exact (H eq_refl)
  | _ => progress subst
  end.

(** In a well-formed network a child of a member is not a member. *)
Lemma child_not_in tn x j : wf_tn tn -> t_in tn x -> ~ t_in tn (x ++ [j]).
Proof.
  intros W Hx Hc. apply (app_single_neq x j). symmetry. apply (wt_anti _ W); auto. now exists [j].
Qed.

Lemma prefix_snoc (x y : tid) k : prefix x (y ++ [k]) -> prefix x y \/ x = y ++ [k].
Proof.
  intros [z E]. destruct z as [|a z] using rev_ind.
  - rewrite app_nil_r in E. auto.
  - rewrite app_assoc in E. apply app_inj_tail in E as [-> ->]. left. now exists z.
Qed.

Lemma decomposes_wf P tn x m tn' :
  wf_tn tn -> (forall j, ~ m_lt m j j) -> decomposes P tn x m tn' -> wf_tn tn'.
Proof.
  intros W Hacy D.
  assert (NC : forall j, ~ t_in tn (x ++ [j])) by (intro; apply child_not_in; auto; apply D).
  assert (Hx := d_in _ _ _ _ _ D).
  split.
  - intros a b c H1 H2. rewrite (d_ord _ _ _ _ _ D) in *.
    destruct H1 as [H1|[H1|[H1|H1]]], H2 as [H2|[H2|[H2|H2]]]; tidy;
      try solve [exfalso; eapply NC; eauto].
    + left. repeat split; auto. eapply (wt_trans _ W); eauto.
    + right; right; right. eexists. repeat split; eauto. eapply (wt_trans _ W); eauto.
    + right; left. do 2 eexists. repeat split; eauto. eapply m_lt_trans; eauto.
    + right; right; left. eexists. repeat split; eauto.
    + right; right; left. eexists. repeat split; eauto. eapply (wt_trans _ W); eauto.
    + exfalso. eapply (wt_irr _ W). eapply (wt_trans _ W); eauto.
    + right; right; right. eexists. repeat split; eauto.
    + left. repeat split; auto. eapply (wt_trans _ W); eauto.
  - intros a H. rewrite (d_ord _ _ _ _ _ D) in H. destruct H as [H|[H|[H|H]]]; tidy.
    + eapply (wt_irr _ W); eauto.
    + eapply Hacy; eauto.
    + eapply NC; eauto.
    + eapply NC; eauto.
  - intros a b H. rewrite (d_ord _ _ _ _ _ D) in H. rewrite !(d_in' _ _ _ _ _ D).
    destruct H as [H|[H|[H|H]]]; tidy; split; eauto.
  - intros a b Ha Hb Hp. rewrite (d_in' _ _ _ _ _ D) in Ha, Hb.
    destruct Ha as [[Ha Na]|(j & Hj & ->)], Hb as [[Hb Nb]|(k & Hk & ->)].
    + apply (wt_anti _ W); auto.
    + apply prefix_snoc in Hp as [Hp|Hp].
      * exfalso. apply Na. apply (wt_anti _ W); auto.
      * auto.
    + exfalso. apply Nb. symmetry. apply (wt_anti _ W); auto. destruct Hp as [z ->]. exists ([j] ++ z).
      now rewrite app_assoc.
    + apply prefix_snoc in Hp as [Hp|Hp]; auto.
      destruct Hp as [z E]. exfalso. apply (f_equal (@length nat)) in E. rewrite !app_length in E. simpl in E. lia.
Qed.

(** ** Commutation *)
Lemma commute P tn x mx y my a b :
  wf_tn tn -> x <> y ->
  (forall j, ~ m_lt mx j j) -> (forall j, ~ m_lt my j j) ->
  decomposes P tn y my a -> decomposes P a x mx b -> t_in tn x ->
  exists c, decomposes P tn x mx c /\ decomposes P c y my b.
Proof.
  intros W Nxy Hax Hay D1 D2 Hx.
  assert (Hy := d_in _ _ _ _ _ D1).
  assert (NCx : forall j, ~ t_in tn (x ++ [j])) by (intro; apply child_not_in; auto).
  assert (NCy : forall j, ~ t_in tn (y ++ [j])) by (intro; apply child_not_in; auto).
  assert (Nxc : forall j, x <> y ++ [j]) by (intros j ->; eapply NCy; eauto).
  assert (Nyc : forall j, y <> x ++ [j]) by (intros j ->; eapply NCx; eauto).
  assert (Wa := decomposes_wf _ _ _ _ _ W Hay D1).
  assert (Lx : t_lab tn x = m_task mx).
  { rewrite <- (d_lab _ _ _ _ _ D2). symmetry. apply (d_lab_old _ _ _ _ _ D1); auto. }
  assert (Dc : decomposes P tn x mx (decF tn x mx)).
  { apply decF_decomposes; auto. apply D2. }
  exists (decF tn x mx). split; [exact Dc|].
  assert (Wc := decomposes_wf _ _ _ _ _ W Hax Dc).
  set (c := decF tn x mx) in *.
  assert (Hyc : t_in c y) by (apply (d_in' _ _ _ _ _ Dc); auto).
  assert (Lyc : t_lab c y = m_task my).
  { rewrite (d_lab_old _ _ _ _ _ Dc); auto. apply D1. }
  assert (Db : decomposes P c y my (decF c y my)).
  { apply decF_decomposes; auto. apply D1. }
  eapply decomposes_teq_r; [|exact Db].
  split.
  - intros z. rewrite (d_in' _ _ _ _ _ Db), (d_in' _ _ _ _ _ Dc), (d_in' _ _ _ _ _ D2), (d_in' _ _ _ _ _ D1).
    split.
    + intros [[[[? ?]|(j & ? & ->)] ?]|(j & ? & ->)].
      * auto.
      * right; eauto.
      * left. split; [eauto|]. intros E. apply (Nxc j). auto.
    + intros [[[[? ?]|(j & ? & ->)] ?]|(j & ? & ->)].
      * auto.
      * right; eauto.
      * left. split; [eauto|]. intros E. apply (Nyc j). auto.
  - intros z Hz. apply (d_in' _ _ _ _ _ Db) in Hz as [[Hz N]|(j & Hj & ->)].
    + rewrite (d_lab_old _ _ _ _ _ Db); auto.
      apply (d_in' _ _ _ _ _ Dc) in Hz as [[Hz N']|(j & Hj & ->)].
      * rewrite (d_lab_old _ _ _ _ _ Dc); auto. rewrite (d_lab_old _ _ _ _ _ D2); auto.
        -- symmetry. apply (d_lab_old _ _ _ _ _ D1); auto.
        -- apply (d_in' _ _ _ _ _ D1). auto.
      * destruct (nth_error (m_subs mx) j) eqn:E; [|apply nth_error_None in E; lia].
        rewrite (d_lab_new _ _ _ _ _ Dc j n E), (d_lab_new _ _ _ _ _ D2 j n E). reflexivity.
    + destruct (nth_error (m_subs my) j) eqn:E; [|apply nth_error_None in E; lia].
      rewrite (d_lab_new _ _ _ _ _ Db j n E).
      rewrite (d_lab_old _ _ _ _ _ D2); auto.
      * rewrite (d_lab_new _ _ _ _ _ D1 j n E). reflexivity.
      * apply (d_in' _ _ _ _ _ D1). eauto.
  - intros u v.
    rewrite (d_ord _ _ _ _ _ Db), (d_ord _ _ _ _ _ D2).
    setoid_rewrite (d_in' _ _ _ _ _ Dc). setoid_rewrite (d_in' _ _ _ _ _ D1).
    setoid_rewrite (d_ord _ _ _ _ _ Dc). setoid_rewrite (d_ord _ _ _ _ _ D1).
    split; intros HH.
    + destruct HH as [HH|[HH|[HH|HH]]].
      * destruct HH as (H1 & H2 & H3 & H4 & [H5|[H5|[H5|H5]]]); tidy.
        -- left. repeat split; auto. left. repeat split; auto.
        -- right; left. do 2 eexists. repeat split; eauto.
        -- right; right; left. eexists. repeat split; eauto. left. repeat split; auto.
        -- right; right; right. eexists. repeat split; eauto. left. repeat split; auto.
      * tidy. left. repeat split; try (right; eauto; fail); try (intro; eapply Nxc; eauto; fail); eauto.
        right; left. do 2 eexists. repeat split; eauto.
      * destruct HH as (j & Hj & -> & Hv & Nv & [H5|[H5|[H5|H5]]]); tidy.
        -- left. repeat split; eauto. right; right; left. eexists. repeat split; eauto.
        -- exfalso; eapply Nyc; eauto.
        -- exfalso; eapply Nyc; eauto.
        -- right; right; right. eexists. repeat split; eauto. right; right; left. eexists. repeat split; eauto.
      * destruct HH as (j & Hj & -> & Hv & Nv & [H5|[H5|[H5|H5]]]); tidy.
        -- left. repeat split; eauto. right; right; right. eexists. repeat split; eauto.
        -- exfalso; eapply Nyc; eauto.
        -- right; right; left. eexists. repeat split; eauto. right; right; right. eexists. repeat split; eauto.
        -- exfalso; eapply Nyc; eauto.
    + destruct HH as [HH|[HH|[HH|HH]]].
      * destruct HH as (H1 & H2 & H3 & H4 & [H5|[H5|[H5|H5]]]); tidy.
        -- left. repeat split; auto. left. repeat split; auto.
        -- right; left. do 2 eexists. repeat split; eauto.
        -- right; right; left. eexists. repeat split; eauto. left. repeat split; auto.
        -- right; right; right. eexists. repeat split; eauto. left. repeat split; auto.
      * tidy. left. repeat split; try (right; eauto; fail); try (intro; eapply Nyc; eauto; fail); eauto.
        right; left. do 2 eexists. repeat split; eauto.
      * destruct HH as (j & Hj & -> & Hv & Nv & [H5|[H5|[H5|H5]]]); tidy.
        -- left. repeat split; eauto. right; right; left. eexists. repeat split; eauto.
        -- exfalso; eapply Nxc; eauto.
        -- exfalso; eapply Nxc; eauto.
        -- right; right; right. eexists. repeat split; eauto. right; right; left. eexists. repeat split; eauto.
      * destruct HH as (j & Hj & -> & Hv & Nv & [H5|[H5|[H5|H5]]]); tidy.
        -- left. repeat split; eauto. right; right; right. eexists. repeat split; eauto.
        -- exfalso; eapply Nxc; eauto.
        -- right; right; left. eexists. repeat split; eauto. right; right; right. eexists. repeat split; eauto.
        -- exfalso; eapply Nxc; eauto.
Qed.

(** ** Counted refinement *)
Inductive refn (P : problem) : nat -> tnet -> tnet -> Prop :=
| rn_0 : forall tn, refn P 0 tn tn
| rn_S : forall n tn x m tn' tn'',
    decomposes P tn x m tn' -> refn P n tn' tn'' -> refn P (S n) tn tn''.

Lemma refines_refn P tn tn' : refines P tn tn' <-> exists n, refn P n tn tn'.
Proof.
  split.
  - induction 1 as [|tn x m a b D R (n & IH)]; [exists 0; constructor|].
    exists (S n). econstructor; eauto.
  - intros (n & R). induction R; [constructor|econstructor; eauto].
Qed.

Definition acyclic_methods (P : problem) : Prop := forall m, In m (p_methods P) -> forall j, ~ m_lt m j j.
Definition abstract_methods (P : problem) : Prop := forall m, In m (p_methods P) -> ~ primitive P (m_task m).
Definition nonempty_methods (P : problem) : Prop := forall m, In m (p_methods P) -> m_subs m <> [].

Lemma refn_wf P n tn tn' : acyclic_methods P -> wf_tn tn -> refn P n tn tn' -> wf_tn tn'.
Proof.
  intros A W R. induction R; auto. apply IHR. eapply decomposes_wf; eauto. apply A. apply H.
Qed.

Lemma refn_teq P n a b a' : teq a b -> refn P n a a' -> exists b', refn P n b b' /\ teq a' b'.
Proof.
  intros E R. destruct R.
  - exists b. split; [constructor|auto].
  - exists tn''. split; [|apply teq_refl]. econstructor; [|eauto]. eapply decomposes_teq_l; eauto.
Qed.

(** An abstract task can be decomposed first. *)
Lemma refn_front P n tn tn' x :
  acyclic_methods P -> wf_tn tn -> refn P n tn tn' ->
  (forall y, t_in tn' y -> primitive P (t_lab tn' y)) ->
  t_in tn x -> ~ primitive P (t_lab tn x) ->
  exists m c k, n = S k /\ decomposes P tn x m c /\ refn P k c tn'.
Proof.
  intros A W R Hp Hx Hn. induction R as [tn|n tn y my a b D R IH].
  - exfalso. apply Hn. now apply Hp.
  - destruct (tid_eq_dec y x) as [->|N].
    + exists my, a, n. auto.
    + assert (Wa : wf_tn a) by (eapply decomposes_wf; eauto; apply A; apply D).
      assert (Hxa : t_in a x) by (apply (d_in' _ _ _ _ _ D); auto).
      assert (Lxa : t_lab a x = t_lab tn x) by (apply (d_lab_old _ _ _ _ _ D); auto).
      destruct IH as (m & c & k & -> & Dc & Rc); auto.
      { now rewrite Lxa. }
      destruct (commute P tn x m y my a c) as (c' & D1 & D2); auto.
      { apply A. apply Dc. }
      { apply A. apply D. }
      exists m, c', (S k). split; [reflexivity|split; [exact D1|]]. econstructor; eauto.
Qed.

(** ** Removing a task *)
Definition minus (tn : tnet) (x : tid) : tnet :=
  {| t_in := fun y => t_in tn y /\ y <> x;
     t_lab := t_lab tn;
     t_ord := fun y z => t_ord tn y z /\ y <> x /\ z <> x |}.

Definition minimal (tn : tnet) (x : tid) : Prop := t_in tn x /\ forall y, ~ t_ord tn y x.

Lemma minus_wf tn x : wf_tn tn -> wf_tn (minus tn x).
Proof.
  intros W. split; simpl.
  - intros a b c (H1 & ? & ?) (H2 & ? & ?). repeat split; auto. eapply (wt_trans _ W); eauto.
  - intros a (H & _). eapply (wt_irr _ W); eauto.
  - intros a b (H & ? & ?). destruct (wt_dom _ W _ _ H). auto.
  - intros a b (H1 & _) (H2 & _). apply (wt_anti _ W); auto.
Qed.

Lemma minus_teq a b x : teq a b -> teq (minus a x) (minus b x).
Proof.
  intros [I L O]. split; simpl; intros.
  - rewrite I. tauto.
  - apply L. tauto.
  - rewrite O. tauto.
Qed.

Lemma dec_minus P tn x y m c :
  wf_tn tn -> t_in tn x -> decomposes P (minus tn x) y m c ->
  decomposes P tn y m (decF tn y m) /\ teq (minus (decF tn y m) x) c.
Proof.
  intros W Hx D.
  destruct (d_in _ _ _ _ _ D) as [Hy Nyx].
  assert (D' : decomposes P tn y m (decF tn y m)).
  { apply decF_decomposes; auto; apply D. }
  split; auto.
  assert (NC : forall j, y ++ [j] <> x) by (intros j E; eapply (child_not_in tn y j); eauto; congruence).
  split.
  - intros z. rewrite (d_in' _ _ _ _ _ D). simpl. split.
    + intros [[[? ?]|?] ?]; auto.
    + intros [[[? ?] ?]|(j & ? & ->)]; auto. split; eauto.
  - intros z [Hz Nz]. apply (d_in' _ _ _ _ _ D') in Hz as [[Hz N]|(j & Hj & ->)].
    + simpl t_lab at 1. change (t_lab (decF tn y m) z = t_lab c z).
      rewrite (d_lab_old _ _ _ _ _ D'); auto. rewrite (d_lab_old _ _ _ _ _ D); auto. simpl; auto.
    + change (t_lab (decF tn y m) (y ++ [j]) = t_lab c (y ++ [j])).
      destruct (nth_error (m_subs m) j) eqn:E; [|apply nth_error_None in E; lia].
      rewrite (d_lab_new _ _ _ _ _ D' j n E), (d_lab_new _ _ _ _ _ D j n E). reflexivity.
  - intros u v. rewrite (d_ord _ _ _ _ _ D). simpl. split.
    + intros (HH & N1 & N2). destruct HH as [HH|[HH|[HH|HH]]]; tidy.
      * left. repeat split; auto.
      * right; left. do 2 eexists; repeat split; eauto.
      * right; right; left. eexists; repeat split; eauto.
      * right; right; right. eexists; repeat split; eauto.
    + intros [HH|[HH|[HH|HH]]]; tidy.
      * split; [|auto]. left. repeat split; auto.
      * split; [|auto]. right; left. do 2 eexists; repeat split; eauto.
      * split; [|auto]. right; right; left. eexists; repeat split; eauto.
      * split; [|auto]. right; right; right. eexists; repeat split; eauto.
Qed.

(** Refinements of the network without [x] lift to the network with the minimal task [x]. *)
Lemma refn_lift P n tn x c :
  acyclic_methods P -> wf_tn tn -> minimal tn x -> refn P n (minus tn x) c ->
  exists tn', refn P n tn tn' /\ teq (minus tn' x) c /\ minimal tn' x /\ t_lab tn' x = t_lab tn x.
Proof.
  intros A. revert tn c. induction n as [|n IH]; intros tn c W Hm R; inversion R; subst.
  - exists tn. split; [constructor|]. split; [apply teq_refl|auto].
  - destruct (dec_minus P tn x x0 m tn') as [D T]; auto; [apply Hm|].
    assert (N : x0 <> x) by (apply (d_in _ _ _ _ _ H0)).
    assert (W' : wf_tn (decF tn x0 m)) by (eapply decomposes_wf; eauto; apply A; apply D).
    destruct (refn_teq P n tn' (minus (decF tn x0 m) x) c (teq_sym _ _ T) H1) as (c' & Rc & Tc).
    assert (M' : minimal (decF tn x0 m) x).
    { split; [apply (d_in' _ _ _ _ _ D); left; split; auto; apply Hm|].
      intros y Ho. apply (d_ord _ _ _ _ _ D) in Ho. destruct Hm as [Hin Hmin].
      destruct Ho as [Ho|[Ho|[Ho|Ho]]]; tidy.
      - eapply Hmin; eauto.
      - eapply child_not_in; [exact W| |exact Hin]. apply (d_in _ _ _ _ _ D).
      - eapply Hmin; eauto.
      - eapply child_not_in; [exact W| |exact Hin]. apply (d_in _ _ _ _ _ D). }
    destruct (IH _ _ W' M' Rc) as (tn'' & R'' & T'' & M'' & L'').
    exists tn''. split; [econstructor; eauto|].
    split; [exact (teq_trans _ _ _ T'' (teq_sym _ _ Tc))|]. split; [exact M''|].
    rewrite L''. apply (d_lab_old _ _ _ _ _ D); auto. apply Hm.
Qed.

(** A primitive task stays, and can be removed before refining. *)
Lemma refn_minus P n tn tn' x :
  acyclic_methods P -> abstract_methods P -> wf_tn tn -> refn P n tn tn' ->
  t_in tn x -> primitive P (t_lab tn x) ->
  t_in tn' x /\ t_lab tn' x = t_lab tn x /\
  exists c, refn P n (minus tn x) c /\ teq c (minus tn' x).
Proof.
  intros A B W R. induction R as [tn|n tn y m a b D R IH]; intros Hx Hp.
  - repeat split; auto. exists (minus tn x). split; [constructor|apply teq_refl].
  - assert (N : y <> x).
    { intros ->. apply (B m); [apply D|]. rewrite <- (d_lab _ _ _ _ _ D). exact Hp. }
    assert (Wa : wf_tn a) by (eapply decomposes_wf; eauto; apply A; apply D).
    assert (Hxa : t_in a x) by (apply (d_in' _ _ _ _ _ D); auto).
    assert (Lxa : t_lab a x = t_lab tn x) by (apply (d_lab_old _ _ _ _ _ D); auto).
    destruct IH as (H1 & H2 & c & Rc & Tc); auto.
    { now rewrite Lxa. }
    repeat split; auto; [congruence|].
    assert (D0 : decomposes P (minus tn x) y m (decF (minus tn x) y m)).
    { apply decF_decomposes; try apply minus_wf; auto; try apply D. split; [apply D|auto]. }
    destruct (dec_minus P tn x y m _ W Hx D0) as (D1 & T1).
    assert (T2 : teq (decF (minus tn x) y m) (minus a x)).
    { eapply teq_trans; [apply teq_sym; exact T1|]. apply minus_teq. eapply decomposes_fun; eauto. }
    destruct (refn_teq P n _ _ _ (teq_sym _ _ T2) Rc) as (c' & Rc' & Tc').
    exists c'. split; [econstructor; eauto|]. eapply teq_trans; [apply teq_sym; exact Tc'|exact Tc].
Qed.

(** Ancestors: refinement respects the order of the ancestors. *)
Lemma refn_anc P n tn tn' :
  acyclic_methods P -> nonempty_methods P -> wf_tn tn -> refn P n tn tn' ->
  (forall y, t_in tn' y -> exists z, t_in tn z /\ prefix z y) /\
  (forall z, t_in tn z -> exists y, t_in tn' y /\ prefix z y) /\
  (forall z1 z2 y1 y2, t_ord tn z1 z2 -> t_in tn' y1 -> t_in tn' y2 -> prefix z1 y1 -> prefix z2 y2 ->
                       t_ord tn' y1 y2).
Proof.
  intros A NE W R. induction R as [tn|n tn x m a b D R IH].
  - repeat split.
    + intros y Hy. exists y. split; auto. exists []. now rewrite app_nil_r.
    + intros y Hy. exists y. split; auto. exists []. now rewrite app_nil_r.
    + intros z1 z2 y1 y2 Ho H1 H2 P1 P2.
      destruct (wt_dom _ W _ _ Ho) as [I1 I2].
      apply (wt_anti _ W) in P1; auto. apply (wt_anti _ W) in P2; auto. now subst.
  - assert (Wa : wf_tn a) by (eapply decomposes_wf; eauto; apply A; apply D).
    assert (Wb : wf_tn b) by (eapply refn_wf; eauto).
    destruct (IH Wa) as (I1 & I2 & I3).
    repeat split.
    + intros y Hy. destruct (I1 y Hy) as (z & Hz & Pz).
      apply (d_in' _ _ _ _ _ D) in Hz as [[Hz N]|(j & Hj & ->)]; [eauto|].
      exists x. split; [apply D|]. destruct Pz as [w ->]. exists ([j] ++ w). now rewrite app_assoc.
    + intros z Hz. destruct (tid_eq_dec z x) as [->|N].
      * assert (exists j, j < length (m_subs m)) as (j & Hj).
        { exists 0. specialize (NE m (d_method _ _ _ _ _ D)). destruct (m_subs m); simpl; [congruence|lia]. }
        destruct (I2 (x ++ [j])) as (y & Hy & Py).
        { apply (d_in' _ _ _ _ _ D). eauto. }
        exists y. split; auto. destruct Py as [w ->]. exists ([j] ++ w). now rewrite app_assoc.
      * apply I2. apply (d_in' _ _ _ _ _ D). auto.
    + intros z1 z2 y1 y2 Ho H1 H2 P1 P2.
      (* the ancestor of y in a lying on the branch of z *)
      assert (AN : forall z y, t_in tn z -> t_in b y -> prefix z y ->
                exists u, t_in a u /\ prefix u y /\ ((u = z /\ z <> x) \/ (z = x /\ exists j, j < length (m_subs m) /\ u = x ++ [j]))).
      { intros z y Hz Hy Pz. destruct (I1 y Hy) as (u & Hu & Pu).
        exists u. repeat split; auto.
        assert (CMP : prefix z u \/ prefix u z).
        { destruct Pz as [w1 E1], Pu as [w2 E2]. rewrite E1 in E2.
          clear -E2. revert u E2. induction z as [|c z IHz]; intros u E.
          - left. now exists u.
          - destruct u as [|c' u]; [right; now exists (c :: z)|].
            simpl in E. injection E as -> E. destruct (IHz u E) as [[q ->]|[q ->]].
            + left. now exists q.
            + right. now exists q. }
        apply (d_in' _ _ _ _ _ D) in Hu as [[Hu N]|(j & Hj & ->)].
        - left. destruct CMP as [C|C].
          + apply (wt_anti _ W) in C; auto. subst; auto.
          + apply (wt_anti _ W) in C; auto. subst; auto.
        - right. destruct CMP as [C|C].
          + apply prefix_snoc in C as [C|C].
            * apply (wt_anti _ W) in C; auto; [|apply D]. subst. split; eauto.
            * exfalso. eapply child_not_in; [exact W|apply D|]. rewrite <- C. exact Hz.
          + destruct C as [w ->]. exfalso. apply (app_single_neq x j).
            assert (x = (x ++ [j]) ++ w).
            { apply (wt_anti _ W); auto; [apply D|]. exists ([j] ++ w). now rewrite app_assoc. }
            apply (f_equal (@length nat)) in H. rewrite !app_length in H. simpl in H. lia. }
      destruct (wt_dom _ W _ _ Ho) as [In1 In2].
      destruct (AN z1 y1 In1 H1 P1) as (u1 & Hu1 & Pu1 & C1).
      destruct (AN z2 y2 In2 H2 P2) as (u2 & Hu2 & Pu2 & C2).
      apply (I3 u1 u2); auto.
      apply (d_ord _ _ _ _ _ D).
      destruct C1 as [[-> N1]|(-> & j & Hj & ->)], C2 as [[-> N2]|(-> & k & Hk & ->)].
      * left. repeat split; auto.
      * right; right; right. eauto 10.
      * right; right; left. eauto 10.
      * exfalso. eapply (wt_irr _ W); eauto.
Qed.

(** ** Linearisations *)
Lemma fop_nth {A} (R : A -> A -> Prop) (l : list A) :
  ForallOrdPairs R l <->
  (forall i j x y, nth_error l i = Some x -> nth_error l j = Some y -> i < j -> R x y).
Proof.
  split.
  - induction 1 as [|a l Ha Hl IH]; intros i j x y Hi Hj Hlt.
    + destruct i; discriminate.
    + destruct j as [|j]; [lia|]. simpl in Hj. destruct i as [|i]; simpl in Hi.
      * injection Hi as ->. rewrite Forall_forall in Ha. apply Ha. eapply nth_error_In; eauto.
      * eapply IH; eauto. lia.
  - induction l as [|a l IH]; intros H; constructor.
    + apply Forall_forall. intros y Hy. apply In_nth_error in Hy as [j Hj].
      apply (H 0 (S j)); simpl; auto. lia.
    + apply IH. intros i j x y Hi Hj Hlt. apply (H (S i) (S j)); simpl; auto. lia.
Qed.

Definition lin (tn : tnet) (L : list tid) : Prop :=
  NoDup L /\ (forall x, In x L <-> t_in tn x) /\ ForallOrdPairs (fun a b => ~ t_ord tn b a) L.

Lemma lin_iff tn L : wf_tn tn -> linearisation tn L <-> lin tn L.
Proof.
  intros W. unfold linearisation, lin. rewrite fop_nth. split; intros (N & I & O); repeat split; try apply I; auto.
  - intros i j x y Hi Hj Hlt Ho. specialize (O j i y x Hj Hi Ho). lia.
  - intros i j x y Hi Hj Ho.
    destruct (Nat.lt_trichotomy i j) as [?|[E|?]]; auto.
    + subst. rewrite Hi in Hj. injection Hj as ->. exfalso. eapply (wt_irr _ W); eauto.
    + exfalso. eapply (O j i y x); eauto.
Qed.

Lemma fop_app {A} (R : A -> A -> Prop) l1 l2 :
  ForallOrdPairs R (l1 ++ l2) <->
  ForallOrdPairs R l1 /\ ForallOrdPairs R l2 /\ (forall a b, In a l1 -> In b l2 -> R a b).
Proof.
  induction l1 as [|a l1 IH]; simpl.
  - split; [intros H; repeat split; auto; try constructor; intros; tauto|tauto].
  - split.
    + intros H. inversion H as [|? ? H1 H2]; subst. apply IH in H2 as (A1 & A2 & A3).
      rewrite Forall_forall in H1.
      repeat split; auto.
      * constructor; auto. apply Forall_forall. intros; apply H1. apply in_or_app; auto.
      * intros x b [->|Hx] Hb; auto. apply H1. apply in_or_app; auto.
    + intros (H1 & H2 & H3). inversion H1 as [|? ? H4 H5]; subst. constructor.
      * rewrite Forall_forall in *. intros x Hx. apply in_app_or in Hx as [Hx|Hx]; auto.
      * apply IH. repeat split; auto.
Qed.

Lemma fop_weaken {A} (R R' : A -> A -> Prop) l :
  (forall a b, In a l -> In b l -> R a b -> R' a b) -> ForallOrdPairs R l -> ForallOrdPairs R' l.
Proof.
  induction l as [|a l IH]; intros H F; inversion F; subst; constructor.
  - rewrite Forall_forall in *. intros; apply H; simpl; auto.
  - apply IH; auto. intros; apply H; simpl; auto.
Qed.

Lemma lin_cons tn x L : minimal tn x -> lin (minus tn x) L -> lin tn (x :: L).
Proof.
  intros [Hx Hm] (N & I & O). repeat split.
  - constructor; auto. intros H. apply I in H as [_ H]. congruence.
  - simpl. intros [->|H]; auto. apply I in H. apply H.
  - intros H. simpl. destruct (tid_eq_dec x x0); auto. right. apply I. split; auto.
  - constructor.
    + apply Forall_forall. intros. auto.
    + eapply fop_weaken; [|exact O]. simpl. intros a b Ha Hb H Ho. apply H.
      apply I in Ha as [_ Ha]. apply I in Hb as [_ Hb]. auto.
Qed.

Lemma lin_remove tn x L1 L2 : lin tn (L1 ++ x :: L2) -> lin (minus tn x) (L1 ++ L2).
Proof.
  intros (N & I & O). repeat split.
  - eapply NoDup_remove_1; eauto.
  - apply I. apply in_app_or in H. apply in_or_app. simpl. tauto.
  - intros ->. eapply NoDup_remove_2; eauto.
  - intros [H1 H2]. apply I in H1. apply in_app_or in H1. simpl in H1. apply in_or_app.
    destruct H1 as [|[|]]; auto. congruence.
  - apply fop_app in O as (O1 & O2 & O3). inversion O2; subst.
    apply fop_app. repeat split.
    + eapply fop_weaken; [|exact O1]. simpl. intros. tauto.
    + eapply fop_weaken; [|eassumption]. simpl. intros. tauto.
    + simpl. intros a b Ha Hb (Ho & _). eapply O3; eauto. simpl; auto.
Qed.

Lemma lin_teq a b L : teq a b -> lin a L -> lin b L.
Proof.
  intros [I Lb O] (N & J & F). split; [exact N|split].
  - intros x. rewrite J. apply I.
  - eapply fop_weaken; [|exact F]. simpl. intros. now rewrite <- O.
Qed.

(** ** Executions *)
Lemma executable_ext P s s' plan : (forall f, s f <-> s' f) -> executable P s plan -> executable P s' plan.
Proof.
  revert s s'; induction plan as [|a r IH]; intros s s' E; simpl; auto.
  intros (H1 & H2). split.
  - intros f Hf. apply E. auto.
  - eapply IH; [|exact H2]. intros f. unfold result. rewrite E. tauto.
Qed.

Lemma after_ext P s s' plan : (forall f, s f <-> s' f) -> forall f, after P s plan f <-> after P s' plan f.
Proof.
  revert s s'; induction plan as [|a r IH]; intros s s' E f; simpl; auto.
  apply IH. intros g. unfold result. rewrite E. tauto.
Qed.

(** ** Solvability with size *)
Definition solvesk (P : problem) (s : state) (tn : tnet) (k : nat) (plan : list nat) : Prop :=
  exists d tn' L,
    refn P d tn tn' /\
    (forall x, t_in tn' x -> primitive P (t_lab tn' x)) /\
    lin tn' L /\ plan = map (t_lab tn') L /\
    executable P s plan /\ goal_state P (after P s plan) /\ k = d + length plan.

Lemma solves_solvesk P s tn plan : acyclic_methods P -> wf_tn tn ->
  solves P s tn plan <-> exists k, solvesk P s tn k plan.
Proof.
  intros A W. split.
  - intros (tn' & L & R & Hp & HL & -> & He & Hg). apply refines_refn in R as [d R].
    exists (d + length (map (t_lab tn') L)), d, tn', L. repeat split; auto.
    + apply lin_iff in HL; [apply HL|eapply refn_wf; eauto].
    + apply (proj2 HL).
    + apply (proj2 HL).
    + apply lin_iff in HL; [apply HL|eapply refn_wf; eauto].
  - intros (k & d & tn' & L & R & Hp & HL & -> & He & Hg & _).
    exists tn', L. split; [apply refines_refn; eauto|]. split; auto. split; auto.
    apply lin_iff; auto. eapply refn_wf; eauto.
Qed.

Lemma solvesk_ext P s s' tn tn' k plan :
  (forall f, s f <-> s' f) -> teq tn tn' -> solvesk P s tn k plan -> solvesk P s' tn' k plan.
Proof.
  intros Es Et (d & a & L & R & Hp & HL & -> & He & Hg & ->).
  destruct (refn_teq P d _ _ _ Et R) as (b & Rb & Tb).
  assert (M : map (t_lab a) L = map (t_lab b) L).
  { apply map_ext_in. intros x Hx. apply Tb. now apply HL. }
  exists d, b, L. split; auto. split; [|split; [|split; [|split; [|split]]]].
  - intros x Hx. rewrite <- (teq_lab _ _ Tb); [apply Hp|]; now apply Tb.
  - eapply lin_teq; eauto.
  - exact M.
  - eapply executable_ext; eauto.
  - intros f Hf. apply (after_ext P s s' _ Es). auto.
  - auto.
Qed.

Lemma solvesk_dec P s tn x m tn' k plan :
  decomposes P tn x m tn' -> solvesk P s tn' k plan -> solvesk P s tn (S k) plan.
Proof.
  intros D (d & a & L & R & Hp & HL & E & He & Hg & ->).
  exists (S d), a, L. repeat split; auto; try apply HL. econstructor; eauto.
Qed.

Lemma solvesk_act P s tn x k plan :
  acyclic_methods P -> wf_tn tn -> minimal tn x -> primitive P (t_lab tn x) -> applicable P s (t_lab tn x) ->
  solvesk P (result P s (t_lab tn x)) (minus tn x) k plan ->
  solvesk P s tn (S k) (t_lab tn x :: plan).
Proof.
  intros A W Hm Hpx Ha (d & c & L & R & Hp & HL & E & He & Hg & ->).
  destruct (refn_lift P d tn x c A W Hm R) as (tn' & R' & T & M' & Lx).
  exists d, tn', (x :: L). repeat split.
  - exact R'.
  - intros y Hy. destruct (tid_eq_dec y x) as [->|N].
    + now rewrite Lx.
    + assert (t_in (minus tn' x) y) by (split; auto).
      change (t_lab tn' y) with (t_lab (minus tn' x) y). rewrite (teq_lab _ _ T y H). apply Hp. now apply T.
  - apply (lin_cons tn' x L); auto. eapply lin_teq; [apply teq_sym; exact T|exact HL].
  - apply (lin_cons tn' x L); auto. eapply lin_teq; [apply teq_sym; exact T|exact HL].
  - apply (lin_cons tn' x L); auto. eapply lin_teq; [apply teq_sym; exact T|exact HL].
  - apply (lin_cons tn' x L); auto. eapply lin_teq; [apply teq_sym; exact T|exact HL].
  - simpl. rewrite Lx. f_equal. rewrite E. apply map_ext_in. intros y Hy. symmetry.
    apply (teq_lab _ _ T). apply T. now apply HL.
  - exact Ha.
  - exact He.
  - exact Hg.
  - simpl. lia.
Qed.

Lemma solvesk_dec_complete P s tn x k plan :
  acyclic_methods P -> wf_tn tn -> t_in tn x -> ~ primitive P (t_lab tn x) ->
  solvesk P s tn k plan ->
  exists m c k', k = S k' /\ decomposes P tn x m c /\ solvesk P s c k' plan.
Proof.
  intros A W Hx Hn (d & a & L & R & Hp & HL & E & He & Hg & ->).
  destruct (refn_front P d tn a x A W R Hp Hx Hn) as (m & c & k' & -> & D & R').
  exists m, c, (k' + length plan). split; [reflexivity|]. split; [exact D|]. exists k', a, L. repeat split; auto; apply HL.
Qed.

Lemma solvesk_empty P s tn k plan :
  acyclic_methods P -> wf_tn tn -> nonempty_methods P -> (forall x, ~ t_in tn x) -> solvesk P s tn k plan ->
  plan = [] /\ goal_state P s.
Proof.
  intros A W NE Hn (d & a & L & R & Hp & HL & E & He & Hg & ->).
  assert (L = []).
  { destruct L as [|y L]; auto. exfalso. destruct HL as (_ & I & _).
    assert (t_in a y) by (apply I; simpl; auto).
    destruct (refn_anc P d tn a A NE W R) as (I1 & _). destruct (I1 y H) as (z & Hz & _). eapply Hn; eauto. }
  subst L. simpl in E. subst plan. auto.
Qed.

Lemma solvesk_done P s tn : (forall x, ~ t_in tn x) -> goal_state P s -> solvesk P s tn 0 [].
Proof.
  intros Hn Hg. exists 0, tn, []. repeat split; auto; try constructor.
  - intros x Hx. exfalso; eapply Hn; eauto.
  - intros [].
  - intros Hx. exfalso; eapply Hn; eauto.
Qed.

Lemma solvesk_act_complete P s tn k plan :
  acyclic_methods P -> abstract_methods P -> nonempty_methods P -> wf_tn tn ->
  (exists x, t_in tn x) -> (forall x, minimal tn x -> primitive P (t_lab tn x)) ->
  solvesk P s tn k plan ->
  exists x k' plan', minimal tn x /\ applicable P s (t_lab tn x) /\ k = S k' /\
    plan = t_lab tn x :: plan' /\ solvesk P (result P s (t_lab tn x)) (minus tn x) k' plan'.
Proof.
  intros A B NE W (x0 & Hx0) Hmin (d & a & L & R & Hp & HL & E & He & Hg & ->).
  assert (Wa : wf_tn a) by (eapply refn_wf; eauto).
  destruct (refn_anc P d tn a A NE W R) as (I1 & I2 & I3).
  destruct L as [|x L].
  { destruct (I2 x0 Hx0) as (y & Hy & _). apply (proj1 (proj2 HL)) in Hy. destruct Hy. }
  destruct HL as (N & I & O).
  assert (Hxa : t_in a x) by (apply I; simpl; auto).
  destruct (I1 x Hxa) as (z & Hz & Pz).
  assert (Mz : minimal tn z).
  { split; auto. intros z0 Ho. destruct (I2 z0) as (y0 & Hy0 & Py0); [apply (wt_dom _ W) in Ho; apply Ho|].
    assert (t_ord a y0 x) by (eapply I3; eauto).
    apply I in Hy0. inversion O as [|? ? F _]; subst. rewrite Forall_forall in F.
    destruct Hy0 as [->|Hy0]; [eapply (wt_irr _ Wa); eauto|]. eapply F; eauto. }
  destruct (refn_minus P d tn a z A B W R Hz (Hmin z Mz)) as (Hza & Lza & c & Rc & Tc).
  assert (z = x) by (apply (wt_anti _ Wa); auto). subst z.
  assert (LM : lin (minus a x) L).
  { change L with ([] ++ L). apply lin_remove. simpl. split; auto. }
  simpl in E. subst plan. simpl in He. destruct He as [He1 He2].
  rewrite Lza in *.
  exists x, (d + length (map (t_lab a) L)), (map (t_lab a) L). repeat split; auto; try apply Mz.
  - simpl. lia.
  - exists d, c, L. repeat split; auto.
    + intros y Hy. rewrite (teq_lab _ _ Tc y Hy). simpl. apply Hp. apply Tc in Hy. apply Hy.
    + eapply lin_teq; [apply teq_sym; exact Tc|exact LM].
    + apply (lin_teq _ _ _ (teq_sym _ _ Tc) LM).
    + apply (lin_teq _ _ _ (teq_sym _ _ Tc) LM).
    + apply (lin_teq _ _ _ (teq_sym _ _ Tc) LM).
    + apply map_ext_in. intros y Hy. symmetry. apply (teq_lab _ _ Tc). apply (lin_teq _ _ _ (teq_sym _ _ Tc) LM). exact Hy.
Qed.

(** An action without effects can be executed right away. *)
Definition effectless (P : problem) (a : nat) : Prop := (forall f, ~ adds P a f) /\ (forall f, ~ dels P a f).

Lemma result_effectless P s a f : effectless P a -> (result P s a f <-> s f).
Proof. intros [A D]. unfold result. specialize (A f). specialize (D f). tauto. Qed.

Lemma executable_app P s p q : executable P s (p ++ q) <-> executable P s p /\ executable P (after P s p) q.
Proof.
  revert s; induction p as [|a p IH]; intros s; simpl; [tauto|]. rewrite IH. tauto.
Qed.
Lemma after_app P s p q : after P s (p ++ q) = after P (after P s p) q.
Proof. revert s; induction p as [|a p IH]; intros s; simpl; auto. Qed.

Lemma solvesk_effectless P s tn x k plan :
  acyclic_methods P -> abstract_methods P -> wf_tn tn ->
  minimal tn x -> primitive P (t_lab tn x) -> applicable P s (t_lab tn x) -> effectless P (t_lab tn x) ->
  solvesk P s tn k plan ->
  exists k' plan', k = S k' /\ Permutation plan (t_lab tn x :: plan') /\
    solvesk P (result P s (t_lab tn x)) (minus tn x) k' plan'.
Proof.
  intros A B W [Hx Hm] Hpx Ha Hel (d & a & L & R & Hp & HL & E & He & Hg & ->).
  assert (Wa : wf_tn a) by (eapply refn_wf; eauto).
  destruct (refn_minus P d tn a x A B W R Hx Hpx) as (Hxa & Lxa & c & Rc & Tc).
  assert (HxL : In x L) by (now apply HL).
  apply in_split in HxL as (L1 & L2 & ->).
  assert (LM := lin_remove _ _ _ _ HL).
  assert (LC := lin_teq _ _ _ (teq_sym _ _ Tc) LM).
  assert (EM : map (t_lab c) (L1 ++ L2) = map (t_lab a) L1 ++ map (t_lab a) L2).
  { rewrite <- map_app. apply map_ext_in. intros y Hy. apply (teq_lab _ _ Tc). now apply LC. }
  rewrite map_app in E. simpl in E. rewrite Lxa in E. subst plan.
  apply executable_app in He as (He1 & He2 & He3). rewrite after_app in Hg. simpl in Hg.
  exists (d + length (map (t_lab c) (L1 ++ L2))), (map (t_lab c) (L1 ++ L2)). split; [|split].
  - rewrite EM, !app_length. simpl. lia.
  - rewrite EM. symmetry. apply Permutation_middle.
  - exists d, c, (L1 ++ L2). split; auto. split.
    { intros y Hy. rewrite (teq_lab _ _ Tc y Hy). simpl. apply Hp. apply Tc in Hy. apply Hy. }
    split; auto. split; auto.
    assert (Es : forall f, s f <-> result P s (t_lab tn x) f) by (intros; symmetry; now apply result_effectless).
    assert (Es2 : forall f, result P (after P s (map (t_lab a) L1)) (t_lab tn x) f <->
                            after P (result P s (t_lab tn x)) (map (t_lab a) L1) f).
    { intros f. rewrite result_effectless by exact Hel. now apply after_ext. }
    rewrite EM. split; [|split; auto].
    + apply executable_app. split.
      * eapply executable_ext; [exact Es|exact He1].
      * eapply executable_ext; [exact Es2|exact He3].
    + rewrite after_app. intros f Hf. eapply after_ext; [intros g; symmetry; apply Es2|]. apply Hg. exact Hf.
Qed.
