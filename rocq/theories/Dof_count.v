(** Counting the tasks and methods of a solution, and first achievers. *)
From Coq Require Import Permutation.
From Verif Require Import Base Htn_problem Htn_spec Htn_sem Rc_spec.
Local Open Scope nat_scope.

Notation cnt := (count_occ Nat.eq_dec).

(** ** Sums *)
Lemma sum_cons x l : list_sum (x :: l) = x + list_sum l.
Proof. reflexivity. Qed.
Lemma sum_map_add (f g : nat -> nat) l : list_sum (map (fun x => f x + g x) l) = list_sum (map f l) + list_sum (map g l).
Proof. induction l as [|a l IH]; cbn [map]; rewrite ?sum_cons; [reflexivity|lia]. Qed.
Lemma sum_map_zero (f : nat -> nat) l : (forall x, In x l -> f x = 0) -> list_sum (map f l) = 0.
Proof. induction l as [|a l IH]; intros H; cbn [map]; rewrite ?sum_cons; auto. rewrite (H a), IH; auto; [intros; apply H; now right|now left]. Qed.
Lemma sum_map_ext (f g : nat -> nat) l : (forall x, In x l -> f x = g x) -> list_sum (map f l) = list_sum (map g l).
Proof. induction l as [|a l IH]; intros H; cbn [map]; rewrite ?sum_cons; auto. rewrite (H a), IH; auto; [intros; apply H; now right|now left]. Qed.
Lemma sum_indicator (k : nat -> nat) D a : NoDup D -> In a D -> list_sum (map (fun x => k x * (if Nat.eq_dec a x then 1 else 0)) D) = k a.
Proof.
  induction D as [|d D IH]; intros N H; [easy|]. inversion N as [|? ? N1 N2]; subst. cbn [map]. rewrite sum_cons. destruct H as [->|H].
  - destruct (Nat.eq_dec a a); [|easy]. rewrite sum_map_zero; [lia|]. intros x Hx. destruct (Nat.eq_dec a x) as [->|]; [easy|lia].
  - destruct (Nat.eq_dec a d) as [->|]; [easy|]. rewrite IH; auto. lia.
Qed.
(** Summing over the elements of [l] or over a set [D] containing them. *)
Lemma sum_over (k : nat -> nat) D l : NoDup D -> (forall x, In x l -> In x D) -> list_sum (map (fun x => k x * cnt l x) D) = list_sum (map k l).
Proof.
  intros N. induction l as [|a l IH]; intros H.
  - cbn [count_occ map]. apply sum_map_zero. intros. lia.
  - cbn [map]. rewrite sum_cons. rewrite <- IH by (intros; apply H; now right). rewrite <- (sum_indicator k D a) at 1; auto; [|apply H; now left].
    rewrite <- sum_map_add. apply sum_map_ext. intros x _. cbn [count_occ]. destruct (Nat.eq_dec a x); lia.
Qed.

(** ** Balance of a refinement *)
Definition enumerates (tn : tnet) (L : list tid) : Prop := NoDup L /\ forall x, In x L <-> t_in tn x.

Lemma count_perm l l' (t : nat) : Permutation l l' -> cnt l t = cnt l' t.
Proof. intros H. now apply (Permutation_count_occ Nat.eq_dec). Qed.
Lemma labels_count tn L L' t : enumerates tn L -> enumerates tn L' -> cnt (map (t_lab tn) L) t = cnt (map (t_lab tn) L') t.
Proof. intros [N1 I1] [N2 I2]. apply count_perm, Permutation_map, NoDup_Permutation; auto. intros x. rewrite I1, I2. reflexivity. Qed.

Lemma map_seq_list (g : nat -> nat) l : forall k, (forall j t, nth_error l j = Some t -> g (k + j) = t) -> map g (seq k (length l)) = l.
Proof.
  induction l as [|a l IH]; intros k H; cbn [length seq map]; auto. f_equal.
  - rewrite <- (Nat.add_0_r k). now apply H.
  - apply IH. intros j t E. rewrite Nat.add_succ_comm. now apply H.
Qed.
Lemma decompose_enum P tn x m tn1 L : wf_tn tn -> decomposes P tn x m tn1 -> enumerates tn L ->
  exists L1, enumerates tn1 L1 /\ forall t, cnt (map (t_lab tn1) L1) t + (if Nat.eq_dec (m_task m) t then 1 else 0) = cnt (map (t_lab tn) L) t + cnt (m_subs m) t.
Proof.
  intros W D [N I]. set (ch := map (fun j => x ++ [j]) (seq 0 (length (m_subs m)))).
  assert (Hx : In x L) by (apply I, (d_in _ _ _ _ _ D)). apply in_split in Hx as (l1 & l2 & ->).
  assert (NX : NoDup (l1 ++ l2)) by (eapply NoDup_remove_1; eauto).
  assert (XN : ~ In x (l1 ++ l2)) by (eapply NoDup_remove_2; eauto).
  assert (IC : forall y, In y ch <-> exists j, j < length (m_subs m) /\ y = x ++ [j]).
  { intros y. unfold ch. rewrite in_map_iff. setoid_rewrite in_seq. split; intros (j & A & B); exists j; intuition; lia. }
  assert (IO : forall y, In y (l1 ++ l2) <-> t_in tn y /\ y <> x).
  { intros y. rewrite <- I. rewrite !in_app_iff. cbn. split.
    - intros H. split; [tauto|]. intros ->. apply XN. now apply in_app_iff.
    - intros [[H|[H|H]] NE]; auto. congruence. }
  exists (ch ++ l1 ++ l2). split.
  - split.
    + apply nodup_app_iff. split; [|split]; auto.
      * apply FinFun.Injective_map_NoDup; [intros a b; apply app_single_inj|apply seq_NoDup].
      * intros y Hy Hz. apply IC in Hy as (j & _ & ->). apply IO in Hz as [Hz _]. exact (child_not_in tn x j W (d_in _ _ _ _ _ D) Hz).
    + intros y. rewrite in_app_iff, IC, IO, (d_in' _ _ _ _ _ D). tauto.
  - intros t. assert (EC : map (t_lab tn1) ch = m_subs m).
    { unfold ch. rewrite map_map. apply map_seq_list. intros j u E. cbn. now apply (d_lab_new _ _ _ _ _ D). }
    assert (EO : map (t_lab tn1) (l1 ++ l2) = map (t_lab tn) (l1 ++ l2)).
    { apply map_ext_in. intros y Hy. apply IO in Hy as [H1 H2]. apply (d_lab_old _ _ _ _ _ D); auto. }
    rewrite (map_app (t_lab tn1) ch), count_occ_app, EC, EO, !map_app, !count_occ_app. cbn [map count_occ]. rewrite (d_lab _ _ _ _ _ D). destruct (Nat.eq_dec (m_task m) t); lia.
Qed.

(** The subtasks and the decomposed task of the method [i] *)
Definition subs_of (P : problem) (i : nat) : list nat := match nth_error (p_methods P) i with Some m => m_subs m | None => [] end.
Definition task_of (P : problem) (i : nat) : option nat := option_map m_task (nth_error (p_methods P) i).
Definition produced (P : problem) (ms : list nat) (t : nat) : nat := list_sum (map (fun i => cnt (subs_of P i) t) ms).
Definition consumed (P : problem) (ms : list nat) (t : nat) : nat :=
  list_sum (map (fun i => match task_of P i with Some u => if Nat.eq_dec u t then 1 else 0 | None => 0 end) ms).

Lemma balance P tn ms tn' : (forall m, In m (p_methods P) -> forall j, ~ m_lt m j j) -> refines_by P tn ms tn' -> wf_tn tn -> forall L L', enumerates tn L -> enumerates tn' L' ->
  forall t, cnt (map (t_lab tn') L') t + consumed P ms t = cnt (map (t_lab tn) L) t + produced P ms t.
Proof.
  intros AC. induction 1 as [tn|tn x i m tn1 ms tn2 E D RF IH]; intros W L L' HL HL' t.
  - unfold consumed, produced. cbn. rewrite (labels_count tn L L' t); auto.
  - destruct (decompose_enum P tn x m tn1 L W D HL) as (L1 & H1 & C1).
    specialize (IH (decomposes_wf _ _ _ _ _ W (AC m (d_method _ _ _ _ _ D)) D) L1 L' H1 HL' t). specialize (C1 t).
    unfold consumed, produced in *. cbn [map]. rewrite !sum_cons. unfold task_of at 1, subs_of at 1. rewrite E. cbn [option_map]. lia.
Qed.

Lemma refines_by_methods P tn ms tn' : refines_by P tn ms tn' -> forall i, In i ms -> i < length (p_methods P).
Proof. induction 1 as [|tn x j m tn1 ms tn2 E D RF IH]; [easy|]. intros i [<-|H]; auto. apply nth_error_Some. congruence. Qed.

(** ** First achievers and times *)
Definition addsb (P : problem) (f a : nat) : bool := memb f (nth a (p_add P) []).
Lemma addsb_ok P f a : addsb P f a = true <-> adds P a f.
Proof.
  unfold addsb, adds. rewrite memb_In. split.
  - intros H. destruct (nth_error (p_add P) a) as [l|] eqn:E; [rewrite (nth_error_nth _ _ _ E) in H; eauto|]. apply nth_error_None in E. now rewrite nth_overflow in H.
  - intros (l & E & I). now rewrite (nth_error_nth _ _ _ E).
Qed.
Definition achiever (P : problem) (plan : list nat) (f : nat) : option nat := find (addsb P f) plan.

(** What comes before the first occurrence of [a]. *)
Fixpoint upto (a : nat) (plan : list nat) : list nat :=
  match plan with [] => [] | b :: r => if Nat.eqb b a then [] else b :: upto a r end.
Definition time (plan : list nat) (a : nat) : nat := length (nodup Nat.eq_dec (upto a plan)).

Lemma upto_not a plan : ~ In a (upto a plan).
Proof. induction plan as [|b r IH]; cbn; auto. destruct (Nat.eqb_spec b a); cbn; [easy|]. intros [->|H]; auto. Qed.
Lemma upto_incl a plan b : In b (upto a plan) -> In b plan.
Proof. induction plan as [|c r IH]; cbn; auto. destruct (Nat.eqb c a); cbn; [easy|]. intros [->|H]; auto. Qed.
Lemma upto_mono a b plan : In b (upto a plan) -> forall c, In c (upto b plan) -> In c (upto a plan).
Proof.
  induction plan as [|d r IH]; cbn; [easy|]. destruct (Nat.eqb_spec d a); cbn; [easy|]. intros H c. destruct (Nat.eqb_spec d b); cbn; [easy|].
  destruct H as [->|H]; [easy|]. intros [->|Hc]; auto.
Qed.
Lemma upto_all a plan : ~ In a plan -> upto a plan = plan.
Proof. induction plan as [|b r IH]; cbn; auto. intros H. destruct (Nat.eqb_spec b a); [subst; tauto|]. rewrite IH; auto. Qed.

Lemma time_lt plan a b : In b (upto a plan) -> time plan b < time plan a.
Proof.
  intros H. unfold time. change (length (b :: nodup Nat.eq_dec (upto b plan)) <= length (nodup Nat.eq_dec (upto a plan))). apply NoDup_incl_length.
  - constructor; [rewrite nodup_In; apply upto_not|apply NoDup_nodup].
  - intros c [<-|Hc]; apply nodup_In; auto. apply nodup_In in Hc. eapply upto_mono; eauto.
Qed.
Lemma time_le plan a n : (forall b, In b plan -> b < n) -> time plan a <= n.
Proof.
  intros H. unfold time. rewrite <- (seq_length n 0) at 1. apply NoDup_incl_length; [apply NoDup_nodup|]. intros b Hb. apply nodup_In in Hb. apply upto_incl in Hb. apply in_seq. specialize (H b Hb). lia.
Qed.
Lemma time_lt_all plan a n : (forall b, In b plan -> b < n) -> In a plan -> time plan a < n.
Proof.
  intros H Ha. unfold time. rewrite <- (seq_length n 0). change (length (a :: nodup Nat.eq_dec (upto a plan)) <= length (seq 0 n)). apply NoDup_incl_length.
  - constructor; [rewrite nodup_In; apply upto_not|apply NoDup_nodup].
  - intros b [<-|Hb]; apply in_seq; [specialize (H a Ha); lia|]. apply nodup_In, upto_incl in Hb. specialize (H b Hb). lia.
Qed.

Lemma achiever_in P plan f a : achiever P plan f = Some a -> In a plan /\ adds P a f.
Proof. intros H. apply find_some in H as [H1 H2]. split; auto. now apply addsb_ok. Qed.
(** A fact that becomes true is achieved. *)
Lemma achieved P plan : forall (s : state) f, after P s plan f -> ~ s f -> exists a, achiever P plan f = Some a.
Proof.
  induction plan as [|a r IH]; intros s f H N; cbn in *; [easy|]. destruct (addsb P f a) eqn:E; [eauto|]. apply (IH (result P s a) f H).
  intros [Q|[Q _]]; auto. apply addsb_ok in Q. congruence.
Qed.
(** Preconditions are achieved before. *)
Lemma achieved_before P a p : forall plan (s : state), executable P s plan -> In a plan -> precs P a p -> ~ s p -> exists b, achiever P plan p = Some b /\ In b (upto a plan).
Proof.
  induction plan as [|c r IH]; intros s E Ha Hp N; [easy|]. destruct E as [Ap E]. cbn. destruct (Nat.eqb_spec c a) as [->|NE]; [now elim N; apply Ap|].
  destruct (addsb P p c) eqn:Q; [exists c; split; auto; now left|]. destruct Ha as [->|Ha]; [easy|].
  destruct (IH (result P s c) E Ha Hp) as (b & B1 & B2).
  - intros [X|[X _]]; auto. apply addsb_ok in X. congruence.
  - exists b. split; auto. now right.
Qed.
Lemma achieved_prefix P plan k : forall (s : state) f, after P s (firstn k plan) f -> ~ s f -> exists a, achiever P plan f = Some a.
Proof.
  intros s f H N. destruct (achieved P (firstn k plan) s f H N) as (a & Ha). rewrite <- (firstn_skipn k plan). exists a. unfold achiever in *.
  revert Ha. generalize (firstn k plan). induction l as [|c r IH]; cbn; [easy|]. destruct (addsb P f c); auto.
Qed.
