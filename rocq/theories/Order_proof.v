(** Proofs about the ordering preprocessing of Order_model. *)
From Verif Require Import Base Rel Order_model.
From Coq Require Import Relations Operators_Properties.

Notation tc := (clos_trans nat).
Notation rtc := (clos_refl_trans nat).

(** The relation given by a list of pairs. *)
Definition rel_of (ps : list (nat * nat)) (x y : nat) : Prop := In (x, y) ps.

Lemma grid_in n p : In p (grid n) <-> fst p < n /\ snd p < n.
Proof. destruct p as [a b]. unfold grid. rewrite in_prod_iff, !in_seq. simpl. lia. Qed.

Lemma mset_eq t x y v a b : mset t x y v a b = if Nat.eqb a x && Nat.eqb b y then v else t a b.
Proof. reflexivity. Qed.

Lemma mset_true t x y a b : mset t x y true a b = true <-> (a = x /\ b = y) \/ t a b = true.
Proof.
  rewrite mset_eq. destruct (Nat.eqb_spec a x), (Nat.eqb_spec b y); simpl; subst; intuition.
Qed.

Lemma mset_false t x y a b : mset t x y false a b = true <-> ~ (a = x /\ b = y) /\ t a b = true.
Proof.
  rewrite mset_eq. destruct (Nat.eqb_spec a x), (Nat.eqb_spec b y); simpl; subst; intuition; try discriminate.
Qed.

Definition in_range (n : nat) (ps : list (nat * nat)) : Prop := forall x y, In (x, y) ps -> x < n /\ y < n.

Lemma fill_ok n : forall ps, in_range n ps -> exists t, fill n ps = Some t /\ forall x y, t x y = true <-> In (x, y) ps.
Proof.
  intros ps. unfold fill.
  assert (G : forall ps t, in_range n ps -> exists t', ofold (fun t p => if Nat.ltb (fst p) n && Nat.ltb (snd p) n then Some (mset t (fst p) (snd p) true) else None) ps t = Some t' /\
     forall x y, t' x y = true <-> t x y = true \/ In (x, y) ps).
  { induction ps0 as [|[a b] r IH]; intros t H; cbn [ofold fst snd].
    - exists t. split; [auto|]. simpl. tauto.
    - destruct (H a b (or_introl eq_refl)) as [Ha Hb].
      rewrite (proj2 (Nat.ltb_lt a n) Ha), (proj2 (Nat.ltb_lt b n) Hb). cbn [andb obind].
      destruct (IH (mset t a b true)) as (t' & E & D).
      { intros x y I. apply H. now right. }
      exists t'. split; [auto|]. intros x y. rewrite D, mset_true. simpl.
      split; [|intros [Q|[Q|Q]]; auto; injection Q as -> ->; auto].
      intros [[[-> ->]|Q]|Q]; auto. }
  intros H. destruct (G ps (fun _ _ => false) H) as (t & E & D). exists t. split; [auto|].
  intros x y. rewrite D. split; [intros [Q|Q]; [discriminate|auto]|auto].
Qed.

Lemma fill_range n ps t : fill n ps = Some t -> in_range n ps.
Proof.
  unfold fill. generalize (fun _ _ : nat => false). induction ps as [|[a b] r IH]; intros t0 H x y I; [destruct I|].
  cbn [ofold fst snd] in H. destruct (Nat.ltb_spec a n), (Nat.ltb_spec b n); cbn [andb obind] in H; try discriminate.
  destruct I as [E|I]; [injection E as <- <-; auto|]. eapply IH; eauto.
Qed.

(** ** Warshall *)
Section Warshall.
  Variable n : nat.

  Definition inner (k : nat) (l : list (nat * nat)) (t : matrix) : matrix :=
    fold_left (fun t p => if t (fst p) k && t k (snd p) then mset t (fst p) (snd p) true else t) l t.

  Lemma inner_mono k l : forall t x y, t x y = true -> inner k l t x y = true.
  Proof.
    induction l as [|[a b] l IH]; intros t x y H; simpl; auto. apply IH.
    destruct (t a k && t k b); auto. apply mset_true. auto.
  Qed.

  Lemma inner_done k l : forall t x y, In (x, y) l -> t x k = true -> t k y = true -> inner k l t x y = true.
  Proof.
    induction l as [|[a b] l IH]; intros t x y I H1 H2; simpl; [destruct I|].
    destruct I as [E|I].
    - injection E as <- <-. cbn [fst snd]. rewrite H1, H2. simpl. apply inner_mono. apply mset_true. auto.
    - apply IH; auto; cbn [fst snd]; destruct (t a k && t k b); auto; apply mset_true; auto.
  Qed.

  Lemma inner_sound (Q : nat -> nat -> Prop) k l : (forall x y z, Q x y -> Q y z -> Q x z) ->
    forall t, (forall x y, t x y = true -> Q x y) -> forall x y, inner k l t x y = true -> Q x y.
  Proof.
    intros T. induction l as [|[a b] l IH]; intros t H; simpl; auto. apply IH. intros x y. cbn [fst snd].
    destruct (t a k) eqn:E1; simpl; [|apply H]. destruct (t k b) eqn:E2; [|apply H].
    rewrite mset_true. intros [[-> ->]|E]; [|auto]. apply (T _ k); auto.
  Qed.

  Variable R : nat -> nat -> Prop.

  (** Paths with inner nodes below [k]. *)
  Inductive pk (k : nat) : nat -> nat -> Prop :=
  | pk_base x y : R x y -> pk k x y
  | pk_step x z y : R x z -> z < k -> pk k z y -> pk k x y.

  Lemma pk_S k x y : pk (S k) x y -> pk k x y \/ (pk k x k /\ pk k k y).
  Proof.
    induction 1 as [x y H|x z y H Hz P [IH|[IH1 IH2]]].
    - left. now constructor.
    - destruct (Nat.eq_dec z k) as [->|NE].
      + right. split; [now constructor|auto].
      + left. apply (pk_step k x z y); auto. lia.
    - destruct (Nat.eq_dec z k) as [->|NE].
      + right. split; [now constructor|auto].
      + right. split; [|auto]. apply (pk_step k x z k); auto. lia.
  Qed.

  Lemma tc_pk : (forall x y, R x y -> y < n) -> forall x y, tc R x y -> pk n x y.
  Proof.
    intros B x y H. apply clos_trans_t1n in H. induction H as [x y H|x z y H H' IH].
    - now constructor.
    - apply (pk_step n x z y); eauto.
  Qed.

  Lemma warshall_ok t0 : (forall x y, R x y -> x < n /\ y < n) -> (forall x y, t0 x y = true <-> R x y) ->
    forall x y, warshall n t0 x y = true <-> tc R x y.
  Proof.
    intros B H0.
    assert (G : forall m, m <= n ->
       let t := fold_left (fun t k => inner k (grid n) t) (seq 0 m) t0 in
       (forall x y, t x y = true -> tc R x y) /\ (forall x y, pk m x y -> t x y = true)).
    { induction m as [|m IH]; intros Hm.
      - simpl. split.
        + intros x y E. apply t_step. now apply H0.
        + intros x y P. inversion P; subst; [now apply H0|lia].
      - rewrite seq_S, fold_left_app. cbn [fold_left plus]. destruct IH as [S C]; [lia|]. cbv zeta in S, C.
        set (t := fold_left (fun t k => inner k (grid n) t) (seq 0 m) t0) in *. split.
        + apply inner_sound; [intros x y z; apply t_trans|auto].
        + intros x y P.
          assert (XY : x < n /\ y < n).
          { clear - P B. induction P as [x y H|x z y H Hz P IH]; [auto|]. split; [apply (B _ _ H)|apply IH]. }
          apply pk_S in P as [P|[P1 P2]].
          * apply inner_mono. auto.
          * apply inner_done; auto. apply grid_in. auto. }
    destruct (G n (le_n n)) as [S C]. cbv zeta in S, C. intros x y. split; [apply S|].
    intros H. apply C. apply tc_pk; auto. intros a b Q. apply (B _ _ Q).
  Qed.
End Warshall.

(** ** Reduction *)
Lemma reduce_inner t k l : forall r x y,
  fold_left (fun r p => if t (fst p) k && t k (snd p) then mset r (fst p) (snd p) false else r) l r x y = true <->
  r x y = true /\ ~ (In (x, y) l /\ t x k = true /\ t k y = true).
Proof.
  induction l as [|[a b] l IH]; intros r x y; simpl; [tauto|].
  rewrite IH. cbn [fst snd]. destruct (t a k && t k b) eqn:E.
  - rewrite mset_false. apply andb_true_iff in E as [E1 E2]. split.
    + intros [[N Hr] Q]. split; [auto|]. intros [[Eq|I] [T1 T2]]; [injection Eq as <- <-; tauto|tauto].
    + intros [Hr Q]. split; [split; [|auto]|]; [intros [-> ->]; apply Q; auto|]. intros [I T]. apply Q. auto.
  - split.
    + intros [Hr Q]. split; [auto|]. intros [[Eq|I] [T1 T2]]; [|tauto].
      injection Eq as <- <-. rewrite T1, T2 in E. discriminate.
    + intros [Hr Q]. split; [auto|]. intros [I T]. apply Q. auto.
Qed.

Lemma reduce_ok n t x y : (x < n -> y < n ->
  (reduce n t x y = true <-> t x y = true /\ ~ exists k, k < n /\ t x k = true /\ t k y = true)).
Proof.
  intros Hx Hy. unfold reduce.
  assert (G : forall ks r, fold_left (fun r k => fold_left (fun r p => if t (fst p) k && t k (snd p) then mset r (fst p) (snd p) false else r) (grid n) r) ks r x y = true <->
     r x y = true /\ ~ exists k, In k ks /\ t x k = true /\ t k y = true).
  { induction ks as [|k ks IH]; intros r; cbn [fold_left].
    - split; [|tauto]. intros H. split; auto. intros (k & [] & _).
    - rewrite IH, reduce_inner. assert (I : In (x, y) (grid n)) by (apply grid_in; auto). split.
      + intros [[H1 H2] H3]. split; auto. intros (q & [<-|Q] & T); [apply H2; auto|apply H3; eauto].
      + intros [H1 H2]. split; [split; auto|].
        * intros [_ T]. apply H2. exists k. split; [now left|auto].
        * intros (q & Q & T). apply H2. exists q. split; [now right|auto]. }
  rewrite G. split; intros [H1 H2]; split; auto; intros (k & K & T); apply H2; exists k; (split; [|auto]).
  - apply in_seq. lia.
  - apply in_seq in K. lia.
Qed.

Lemma reduce_sub n t x y : reduce n t x y = true -> t x y = true.
Proof.
  unfold reduce. generalize (seq 0 n). intros ks.
  assert (G : forall r, (r x y = true -> t x y = true) ->
    fold_left (fun r k => fold_left (fun r p => if t (fst p) k && t k (snd p) then mset r (fst p) (snd p) false else r) (grid n) r) ks r x y = true -> t x y = true).
  { induction ks as [|k ks IH]; intros r H; cbn [fold_left]; auto. apply IH. intros Q. apply reduce_inner in Q. apply H. apply Q. }
  apply G. auto.
Qed.

Lemma count_lt {A} (f g : A -> bool) l z : (forall x, f x = true -> g x = true) -> In z l -> g z = true -> f z = false ->
  count f l < count g l.
Proof.
  intros H. unfold count.
  assert (LE : forall l, length (filter f l) <= length (filter g l)).
  { induction l0 as [|x r IH]; simpl; [lia|]. destruct (f x) eqn:E; [rewrite (H x E); simpl; lia|]. destruct (g x); simpl; lia. }
  induction l as [|x r IH]; intros I Hg Hf; [destruct I|]. simpl. destruct I as [->|I].
  - rewrite Hg, Hf. simpl. specialize (LE r). lia.
  - specialize (IH I Hg Hf). destruct (f x) eqn:E; [rewrite (H x E); simpl; lia|]. destruct (g x); simpl; lia.
Qed.

Lemma filter_length_le' {A} (f : A -> bool) l : length (filter f l) <= length l.
Proof. induction l as [|x l IH]; simpl; auto. destruct (f x); simpl; lia. Qed.

Section Red.
  Variables (n : nat) (t : matrix).
  Hypothesis B : forall x y, t x y = true -> x < n /\ y < n.
  Hypothesis T : forall x y z, t x y = true -> t y z = true -> t x z = true.
  Hypothesis I : forall x, t x x = false.

  Definition redr (x y : nat) : Prop := reduce n t x y = true.

  Lemma redr_spec x y : redr x y <-> t x y = true /\ ~ exists k, t x k = true /\ t k y = true.
  Proof.
    split.
    - intros H. pose proof (reduce_sub _ _ _ _ H) as S. split; auto. destruct (B _ _ S) as [Hx Hy].
      apply (reduce_ok n t x y Hx Hy) in H as [_ H]. intros (k & K1 & K2). apply H. exists k.
      split; [apply (B _ _ K1)|auto].
    - intros [S N]. destruct (B _ _ S) as [Hx Hy]. apply (reduce_ok n t x y Hx Hy). split; auto.
      intros (k & _ & K). apply N. eauto.
  Qed.

  (** The reduction has the same transitive closure. *)
  Lemma red_closure x y : tc redr x y <-> t x y = true.
  Proof.
    split.
    - induction 1 as [x y H|x y z _ H1 _ H2]; [now apply redr_spec in H|eauto].
    - remember (count (fun z => t x z && t z y) (seq 0 n)) as m eqn:Em. revert x y Em.
      induction m as [m IH] using (well_founded_induction lt_wf). intros x y -> S.
      destruct (existsb (fun z => t x z && t z y) (seq 0 n)) eqn:EX.
      + apply existsb_exists in EX as (k & Hk & E). apply andb_true_iff in E as [E1 E2].
        apply (t_trans _ _ x k y).
        * eapply IH; [|reflexivity|auto]. apply (count_lt _ _ _ k); auto.
          -- intros z Q. apply andb_true_iff in Q as [Q1 Q2]. rewrite Q1. simpl. eauto.
          -- now rewrite E1, E2.
          -- now rewrite I, andb_false_r.
        * eapply IH; [|reflexivity|auto]. apply (count_lt _ _ _ k); auto.
          -- intros z Q. apply andb_true_iff in Q as [Q1 Q2]. rewrite Q2, andb_true_r. eauto.
          -- now rewrite E1, E2.
          -- now rewrite I.
      + apply t_step. apply redr_spec. split; auto. intros (k & K1 & K2).
        rewrite <- not_true_iff_false in EX. apply EX. apply existsb_exists. exists k. split.
        * apply in_seq. pose proof (B _ _ K1). lia.
        * now rewrite K1, K2.
  Qed.

  (** The counts used for the flags. *)
  Lemma count_zero {A} (f : A -> bool) l : count f l = 0 <-> forall x, In x l -> f x = false.
  Proof.
    unfold count. induction l as [|x l IH]; simpl; [split; [intros _ ? []|auto]|].
    destruct (f x) eqn:E; simpl.
    - split; [discriminate|]. intros H. rewrite (H x (or_introl eq_refl)) in E. discriminate.
    - rewrite IH. split; [intros H y [<-|Q]; auto|auto].
  Qed.

  Lemma count_le_one {A} (f : A -> bool) l : NoDup l -> (count f l <= 1 <-> forall x y, In x l -> In y l -> f x = true -> f y = true -> x = y).
  Proof.
    intros N. unfold count. induction N as [|x l NI N IH]; simpl; [split; [intros _ ? ? []|lia]|].
    destruct (f x) eqn:E; simpl.
    - split.
      + intros H.
        assert (Z : forall y, In y l -> f y = false) by (apply count_zero; unfold count; lia).
        intros a b [<-|Ha] [<-|Hb] Fa Fb; auto; [rewrite (Z _ Hb) in Fb|rewrite (Z _ Ha) in Fa|rewrite (Z _ Ha) in Fa]; discriminate.
      + intros H. assert (Z : count f l = 0).
        { apply count_zero. intros y Hy. destruct (f y) eqn:Ey; auto. elim NI. rewrite (H x y); auto. }
        unfold count in Z. lia.
    - rewrite IH. split; intros H a b.
      + intros [<-|Ha] [<-|Hb] Fa Fb; try congruence. auto.
      + intros Ha Hb. apply H; auto.
  Qed.

  Lemma numSucc_zero x : numSucc n (reduce n t) x = 0 <-> forall y, ~ redr x y.
  Proof.
    unfold numSucc. rewrite count_zero. split.
    - intros H y Q. unfold redr in Q. rewrite H in Q; [discriminate|]. apply in_seq.
      pose proof (B _ _ (reduce_sub _ _ _ _ Q)). lia.
    - intros H y _. destruct (reduce n t x y) eqn:E; auto. now elim (H y).
  Qed.

  Lemma numSucc_le x : numSucc n (reduce n t) x <= 1 <-> forall y z, redr x y -> redr x z -> y = z.
  Proof.
    unfold numSucc. rewrite count_le_one by apply seq_NoDup. split.
    - intros H y z Hy Hz. pose proof (B _ _ (reduce_sub _ _ _ _ Hy)). pose proof (B _ _ (reduce_sub _ _ _ _ Hz)).
      apply H; auto; apply in_seq; lia.
    - intros H y z _ _ Hy Hz. now apply H.
  Qed.

  Lemma numPrec_zero y : numPrec n (reduce n t) y = 0 <-> forall x, ~ redr x y.
  Proof.
    unfold numPrec. rewrite count_zero. split.
    - intros H x Q. unfold redr in Q. rewrite H in Q; [discriminate|]. apply in_seq.
      pose proof (B _ _ (reduce_sub _ _ _ _ Q)). lia.
    - intros H x _. destruct (reduce n t x y) eqn:E; auto. now elim (H x).
  Qed.

  Lemma numPrec_le y : numPrec n (reduce n t) y <= 1 <-> forall x z, redr x y -> redr z y -> x = z.
  Proof.
    unfold numPrec. rewrite count_le_one by apply seq_NoDup. split.
    - intros H x z Hx Hz. pose proof (B _ _ (reduce_sub _ _ _ _ Hx)). pose proof (B _ _ (reduce_sub _ _ _ _ Hz)).
      apply H; auto; apply in_seq; lia.
    - intros H x z _ _ Hx Hz. now apply H.
  Qed.

  Definition total : Prop := forall x y, x < n -> y < n -> x <> y -> t x y = true \/ t y x = true.

  Lemma redr_acyclic x : ~ tc redr x x.
  Proof. intros H. apply red_closure in H. rewrite I in H. discriminate. Qed.

  Lemma dec_succ a : (exists b, redr a b) \/ ~ exists b, redr a b.
  Proof.
    destruct (existsb (fun b => reduce n t a b) (seq 0 n)) eqn:E.
    - left. apply existsb_exists in E as (b & _ & E). eauto.
    - right. intros (b & Q). rewrite <- not_true_iff_false in E. apply E. apply existsb_exists. exists b. split; auto.
      apply in_seq. pose proof (B _ _ (reduce_sub _ _ _ _ Q)). lia.
  Qed.
  Lemma dec_pred b : (exists a, redr a b) \/ ~ exists a, redr a b.
  Proof.
    destruct (existsb (fun a => reduce n t a b) (seq 0 n)) eqn:E.
    - left. apply existsb_exists in E as (a & _ & E). eauto.
    - right. intros (a & Q). rewrite <- not_true_iff_false in E. apply E. apply existsb_exists. exists a. split; auto.
      apply in_seq. pose proof (B _ _ (reduce_sub _ _ _ _ Q)). lia.
  Qed.

  Lemma redr_lt x y : redr x y -> x < n /\ y < n.
  Proof. intros H. apply B. now apply reduce_sub in H. Qed.

  Lemma total_flag : (notOne (numSucc n (reduce n t)) n <= 1 /\ notOne (numPrec n (reduce n t)) n <= 1) <-> total.
  Proof.
    unfold notOne. rewrite !count_le_one by apply seq_NoDup. split.
    - intros [HS HP].
      assert (FUN : forall x y z, x < n -> redr x y -> redr x z -> y = z).
      { intros x y z Hx Hy Hz.
        (* the maximal element is the only exception *)
        destruct (acyclic_max redr dec_succ n) with (a := x) as (m & M1 & M2);
          [intros a b Q; apply (redr_lt _ _ Q)|apply redr_acyclic|].
        assert (Hm : m < n) by (apply rtc_cases in M1 as [<-|M1]; [auto|]; apply red_closure in M1; apply (B _ _ M1)).
        assert (Zm : numSucc n (reduce n t) m = 0) by (apply numSucc_zero; intros q Q; apply M2; eauto).
        assert (Nx : x <> m) by (intros ->; apply M2; eauto).
        assert (N1 : numSucc n (reduce n t) x = 1).
        { destruct (Nat.eq_dec (numSucc n (reduce n t) x) 1) as [E|NE]; auto. elim Nx. apply HS.
          - apply in_seq; lia.
          - apply in_seq; lia.
          - apply negb_true_iff. now apply Nat.eqb_neq.
          - rewrite Zm. reflexivity. }
        assert (L : numSucc n (reduce n t) x <= 1) by lia. rewrite numSucc_le in L. eauto. }
      intros x y Hx Hy NE.
      destruct (acyclic_min redr dec_pred n) with (b := x) as (s & S1 & S2);
        [intros a b Q; apply (redr_lt _ _ Q)|apply redr_acyclic|].
      destruct (acyclic_min redr dec_pred n) with (b := y) as (s' & S1' & S2');
        [intros a b Q; apply (redr_lt _ _ Q)|apply redr_acyclic|].
      assert (Hs : s < n) by (apply rtc_cases in S1 as [->|S1]; [auto|]; apply red_closure in S1; apply (B _ _ S1)).
      assert (Hs' : s' < n) by (apply rtc_cases in S1' as [->|S1']; [auto|]; apply red_closure in S1'; apply (B _ _ S1')).
      assert (s = s').
      { apply HP; [apply in_seq; lia|apply in_seq; lia| |].
        - assert (Z : numPrec n (reduce n t) s = 0) by (apply numPrec_zero; intros q Q; apply S2; eauto). now rewrite Z.
        - assert (Z : numPrec n (reduce n t) s' = 0) by (apply numPrec_zero; intros q Q; apply S2'; eauto). now rewrite Z. }
      subst s'.
      assert (CMP : forall a, rtc redr a x -> rtc redr a y -> rtc redr x y \/ rtc redr y x).
      { apply (rtc_ind_l _ redr (fun a => rtc redr a y -> rtc redr x y \/ rtc redr y x) x); [auto|].
        intros a b Q Hb IH Hay. apply rtc_cases in Hay as [->|Hay].
        - right. eapply rt_trans; [apply rt_step; eauto|auto].
        - apply tc_first in Hay as (c & C1 & C2). apply IH. replace b with c; auto.
          apply (FUN a); auto. apply (redr_lt _ _ Q). }
      destruct (CMP s S1 S1') as [Q|Q]; apply rtc_cases in Q as [Q|Q]; try congruence; apply red_closure in Q; auto.
    - intros TO.
      assert (S1 : forall x, x < n -> numSucc n (reduce n t) x <= 1).
      { intros x Hx. apply numSucc_le. intros y z Hy Hz. destruct (Nat.eq_dec y z) as [|NE]; auto. exfalso.
        destruct (redr_lt _ _ Hy) as [_ Yn], (redr_lt _ _ Hz) as [_ Zn].
        apply redr_spec in Hy as [Ty Ny], Hz as [Tz Nz].
        destruct (TO y z Yn Zn NE) as [Q|Q]; [apply Nz; eauto|apply Ny; eauto]. }
      assert (P1 : forall y, y < n -> numPrec n (reduce n t) y <= 1).
      { intros y Hy. apply numPrec_le. intros x z Hx Hz. destruct (Nat.eq_dec x z) as [|NE]; auto. exfalso.
        destruct (redr_lt _ _ Hx) as [Xn _], (redr_lt _ _ Hz) as [Zn _].
        apply redr_spec in Hx as [Tx Nx], Hz as [Tz Nz].
        destruct (TO x z Xn Zn NE) as [Q|Q]; [apply Nx; eauto|apply Nz; eauto]. }
      split.
      + intros x y Hx Hy Nx Ny. apply in_seq in Hx, Hy. destruct (Nat.eq_dec x y) as [|NE]; auto. exfalso.
        apply negb_true_iff, Nat.eqb_neq in Nx, Ny.
        assert (Zx : numSucc n (reduce n t) x = 0) by (specialize (S1 x ltac:(lia)); lia).
        assert (Zy : numSucc n (reduce n t) y = 0) by (specialize (S1 y ltac:(lia)); lia).
        rewrite numSucc_zero in Zx, Zy.
        destruct (TO x y ltac:(lia) ltac:(lia) NE) as [Q|Q]; apply red_closure, tc_first in Q as (c & C & _); [apply (Zx c C)|apply (Zy c C)].
      + intros x y Hx Hy Nx Ny. apply in_seq in Hx, Hy. destruct (Nat.eq_dec x y) as [|NE]; auto. exfalso.
        apply negb_true_iff, Nat.eqb_neq in Nx, Ny.
        assert (Zx : numPrec n (reduce n t) x = 0) by (specialize (P1 x ltac:(lia)); lia).
        assert (Zy : numPrec n (reduce n t) y = 0) by (specialize (P1 y ltac:(lia)); lia).
        rewrite numPrec_zero in Zx, Zy.
        destruct (TO x y ltac:(lia) ltac:(lia) NE) as [Q|Q]; apply red_closure, tc_last in Q as (c & _ & C); [apply (Zy c C)|apply (Zx c C)].
  Qed.
End Red.

(** ** Depth first topological sorting *)
Section Dfs.
  Variables (n : nat) (adj : nat -> list nat).
  Definition edge (a b : nat) : Prop := In b (adj a).
  Hypothesis B : forall a b, edge a b -> a < n /\ b < n.
  Hypothesis AC : forall a, ~ tc edge a a.

  (** Every edge leads to a later position. *)
  Definition topo (l : list nat) : Prop := forall l1 a l2 b, l = l1 ++ a :: l2 -> edge a b -> In b l2.

  Definition DInv (s : dfs_state) : Prop :=
    NoDup (acc s) /\ (forall x, col s x = 2 <-> In x (acc s)) /\ (forall x, In x (acc s) -> x < n) /\
    topo (acc s) /\ (forall x, col s x <= 2).

  Definition whites (s : dfs_state) : nat := count (fun x => Nat.eqb (col s x) 0) (seq 0 n).

  Lemma count_mono {A} (f g : A -> bool) l : (forall x, f x = true -> g x = true) -> count f l <= count g l.
  Proof.
    intros H. unfold count. induction l as [|x l IH]; simpl; [lia|].
    destruct (f x) eqn:E; [rewrite (H x E); simpl; lia|]. destruct (g x); simpl; lia.
  Qed.

  Definition dfs_post (s s' : dfs_state) : Prop :=
    DInv s' /\ (forall x, col s' x = 1 <-> col s x = 1) /\ (forall x, col s x = 2 -> col s' x = 2).

  Lemma post_whites s s' : dfs_post s s' -> DInv s -> whites s' <= whites s.
  Proof.
    intros (I' & G & M) I. apply count_mono. intros x E. apply Nat.eqb_eq in E. apply Nat.eqb_eq.
    destruct I as (_ & _ & _ & _ & L). specialize (L x). destruct (col s x) as [|[|[|k]]] eqn:Ec; [auto| | |lia].
    - pose proof (proj2 (G x) Ec). lia.
    - specialize (M x Ec). lia.
  Qed.

  Lemma topDFS_ok : forall f cur s, DInv s -> cur < n -> (forall g, col s g = 1 -> tc edge g cur) -> whites s < f ->
    exists s', topDFS f adj cur s = Some s' /\ dfs_post s s' /\ col s' cur = 2.
  Proof.
    induction f as [|f IH]; intros cur s I C G W; [lia|]. cbn [topDFS].
    destruct (Nat.eqb_spec (col s cur) 0) as [E0|N0]; cbn [negb].
    2:{ exists s. split; [auto|]. split; [split; [auto|split; [tauto|auto]]|].
        destruct I as (_ & _ & _ & _ & L). specialize (L cur).
        destruct (Nat.eq_dec (col s cur) 1) as [E1|]; [|lia]. elim (AC cur). auto. }
    set (s0 := {| col := fun x => if Nat.eqb x cur then 1 else col s x; acc := acc s |}).
    assert (I0 : DInv s0).
    { destruct I as (I1 & I2 & I3 & I4 & I5). split; [auto|]. split; [|split; [auto|split; [auto|]]]; cbn [col acc s0].
      - intros x. destruct (Nat.eqb_spec x cur) as [->|NE]; [|apply I2]. split; [discriminate|].
        intros Q. apply I2 in Q. congruence.
      - intros x. destruct (Nat.eqb x cur); auto. }
    assert (W0 : whites s0 < f).
    { assert (whites s0 < whites s); [|lia]. apply (count_lt _ _ _ cur).
      - intros x. cbn [col s0]. destruct (Nat.eqb x cur); [discriminate|auto].
      - apply in_seq. lia.
      - now rewrite E0.
      - cbn [col s0]. now rewrite Nat.eqb_refl. }
    assert (L : forall nei, (forall b, In b nei -> edge cur b) -> forall s1, DInv s1 -> (forall x, col s1 x = 1 <-> col s0 x = 1) -> whites s1 < f ->
       exists s', ofold (fun s b => topDFS f adj b s) nei s1 = Some s' /\ dfs_post s1 s' /\ forall b, In b nei -> col s' b = 2).
    { induction nei as [|b nei IHn]; intros HE s1 I1 G1 W1; cbn [ofold].
      - exists s1. split; [auto|]. split; [split; [auto|split; [tauto|auto]]|]. intros b [].
      - destruct (IH b s1) as (s2 & E2 & P2 & C2); auto.
        { apply (B cur b). apply HE. now left. }
        { intros g Hg. apply G1 in Hg. cbn [col s0] in Hg. destruct (Nat.eqb_spec g cur) as [Eg|NE].
          - rewrite Eg. apply t_step. apply HE. now left.
          - eapply t_trans; [apply G; auto|]. apply t_step. apply HE. now left. }
        rewrite E2. cbn [obind]. pose proof (post_whites _ _ P2 I1) as W2. destruct P2 as (I2 & G2 & M2).
        destruct (IHn (fun b Hb => HE b (or_intror Hb)) s2) as (s3 & E3 & P3 & C3); auto.
        { intros x. rewrite G2. auto. }
        { lia. }
        exists s3. split; [auto|]. destruct P3 as (I3 & G3 & M3). split; [split; [auto|split]|].
        + intros x. rewrite G3. auto.
        + auto.
        + intros q [<-|Q]; auto. }
    destruct (L (adj cur) (fun b Hb => Hb) s0) as (s1 & E1 & (I1 & G1 & M1) & C1); auto; [tauto|].
    rewrite E1. cbn [obind]. eexists. split; [reflexivity|].
    assert (Hc : col s1 cur = 1) by (apply G1; cbn [col s0]; now rewrite Nat.eqb_refl).
    destruct I1 as (J1 & J2 & J3 & J4 & J5).
    split; [split; [split; [|split; [|split; [|split]]]|split]|]; cbn [col acc].
    - constructor; auto. intros Q. apply J2 in Q. congruence.
    - intros x. destruct (Nat.eqb_spec x cur) as [->|NE]; simpl.
      + split; auto.
      + rewrite J2. split; auto. intros [Q|Q]; [congruence|auto].
    - intros x [<-|Q]; auto.
    - intros l1 a l2 b Eq Eb. destruct l1 as [|c l1]; simpl in Eq; injection Eq as -> Eq.
      + subst l2. apply J2. apply C1. exact Eb.
      + eapply J4; eauto.
    - intros x. destruct (Nat.eqb x cur); [lia|apply J5].
    - intros x. destruct (Nat.eqb_spec x cur) as [->|NE].
      + split; [discriminate|]. intros Q. congruence.
      + rewrite G1. cbn [col s0]. destruct (Nat.eqb_spec x cur); [congruence|]. tauto.
    - intros x Q. destruct (Nat.eqb_spec x cur) as [->|NE]; auto. apply M1. cbn [col s0]. destruct (Nat.eqb_spec x cur); [congruence|auto].
    - now rewrite Nat.eqb_refl.
  Qed.

  Lemma topSort_ok : exists l, topSort n adj = Some l /\ NoDup l /\ (forall x, In x l <-> x < n) /\ topo l.
  Proof.
    unfold topSort.
    assert (G : forall is s, (forall i, In i is -> i < n) -> DInv s -> (forall x, col s x <> 1) ->
      exists s', ofold (fun s i => topDFS (S n) adj i s) is s = Some s' /\ DInv s' /\ (forall x, col s' x <> 1) /\
        (forall x, col s x = 2 -> col s' x = 2) /\ forall i, In i is -> col s' i = 2).
    { induction is as [|i is IH]; intros s HB I NG; cbn [ofold].
      - exists s. split; [auto|]. split; [auto|]. split; [auto|]. split; [auto|]. intros i [].
      - destruct (topDFS_ok (S n) i s) as (s1 & E1 & (I1 & G1 & M1) & C1); auto.
        { apply HB. now left. }
        { intros g Q. now elim (NG g). }
        { unfold whites, count. pose proof (filter_length_le' (fun x => Nat.eqb (col s x) 0) (seq 0 n)). rewrite seq_length in *. lia. }
        rewrite E1. cbn [obind]. destruct (IH s1) as (s2 & E2 & I2 & G2 & M2 & C2); auto.
        { intros j J. apply HB. now right. }
        { intros x Q. apply G1 in Q. now apply (NG x). }
        exists s2. split; [auto|]. split; [auto|]. split; [auto|]. split; [auto|].
        intros j [<-|J]; auto. }
    destruct (G (seq 0 n) {| col := fun _ => 0; acc := [] |}) as (s & E & I & NG & M & C).
    - intros i Hi. apply in_seq in Hi. lia.
    - split; [constructor|]. cbn [acc col]. split; [intros x; split; [discriminate|intros []]|].
      split; [intros x []|]. split; [|intros; lia]. intros l1 a l2 b Eq. destruct l1; discriminate.
    - discriminate.
    - rewrite E. cbn [obind]. exists (acc s). split; [auto|]. destruct I as (I1 & I2 & I3 & I4 & I5).
      split; [auto|]. split; [|auto]. intros x. split; [auto|]. intros Hx. apply I2, C. apply in_seq. lia.
  Qed.

  Lemma topo_tc l : topo l -> forall l1 a l2 b, l = l1 ++ a :: l2 -> tc edge a b -> In b l2.
  Proof.
    intros T l1 a l2 b Eq H. apply clos_trans_t1n in H. revert l1 l2 Eq.
    induction H as [a b H|a c b H H' IH]; intros l1 l2 Eq.
    - eapply T; eauto.
    - pose proof (T _ _ _ _ Eq H) as Q. apply in_split in Q as (m1 & m2 & ->).
      specialize (IH (l1 ++ a :: m1) m2). apply in_or_app. right. right. apply IH.
      rewrite Eq, <- app_assoc. reflexivity.
  Qed.

  Lemma consecutive_spec l : consecutive adj l = true <-> forall l1 a b l2, l = l1 ++ a :: b :: l2 -> edge a b.
  Proof.
    induction l as [|x l IH]; [split; [intros _ l1 a b l2 E; destruct l1; discriminate|auto]|].
    destruct l as [|y l].
    - split; [|auto]. intros _ l1 a b l2 E. destruct l1 as [|? [|? ?]]; discriminate.
    - cbn [consecutive]. destruct (memb y (adj x)) eqn:M.
      + rewrite IH. split.
        * intros H l1 a b l2 E. destruct l1 as [|q l1]; [|injection E as -> E; eauto].
          injection E as -> -> ->. now apply memb_In.
        * intros H l1 a b l2 E. apply (H (x :: l1) a b l2). now rewrite E.
      + split; [discriminate|]. intros H. specialize (H [] x y l eq_refl). apply memb_In in H. congruence.
  Qed.

  Lemma chain_total l : NoDup l -> (forall l1 a b l2, l = l1 ++ a :: b :: l2 -> edge a b) ->
    forall l1 a l2 b l3, l = l1 ++ a :: l2 ++ b :: l3 -> tc edge a b.
  Proof.
    intros N H l1 a l2. revert l1 a. induction l2 as [|c l2 IH]; intros l1 a b l3 E.
    - apply t_step. eapply H. exact E.
    - apply (t_trans _ _ a c b).
      + apply t_step. eapply H. exact E.
      + apply (IH (l1 ++ [a]) c b l3). rewrite <- app_assoc. exact E.
  Qed.

  Lemma in_two l (x y : nat) : In x l -> In y l -> x <> y ->
    (exists l1 l2 l3, l = l1 ++ x :: l2 ++ y :: l3) \/ exists l1 l2 l3, l = l1 ++ y :: l2 ++ x :: l3.
  Proof.
    intros Hx Hy NE. apply in_split in Hx as (l1 & l2 & ->). apply in_app_iff in Hy as [Hy|[Hy|Hy]].
    - apply in_split in Hy as (m1 & m2 & ->). right. exists m1, m2, l2. now rewrite <- app_assoc.
    - congruence.
    - apply in_split in Hy as (m1 & m2 & ->). left. exists l1, m1, m2. reflexivity.
  Qed.

  Lemma nodup_mid (l1 l2 : list nat) a : NoDup (l1 ++ a :: l2) -> ~ In a l1 /\ ~ In a l2.
  Proof. intros N. apply NoDup_remove_2 in N. split; intros Q; apply N; apply in_or_app; auto. Qed.

  Lemma isTO_ok : exists l v, isMethodTotallyOrdered n adj = Some (l, v) /\ NoDup l /\ (forall x, In x l <-> x < n) /\ topo l /\
    (v = true <-> forall x y, x < n -> y < n -> x <> y -> tc edge x y \/ tc edge y x).
  Proof.
    destruct topSort_ok as (l & E & N & D & T). unfold isMethodTotallyOrdered. rewrite E. cbn [obind].
    exists l, (consecutive adj l). split; [auto|]. split; [auto|]. split; [auto|]. split; [auto|].
    rewrite consecutive_spec. split.
    - intros H x y Hx Hy NE. destruct (in_two l x y) as [(l1 & l2 & l3 & Q)|(l1 & l2 & l3 & Q)]; auto; try (now apply D);
        [left|right]; eapply chain_total; eauto.
    - intros H l1 a b l2 Eq.
      assert (Ha : a < n) by (apply D; rewrite Eq; apply in_elt).
      assert (Hb : b < n) by (apply D; rewrite Eq; apply in_or_app; right; right; now left).
      assert (NE : a <> b). { intros ->. rewrite Eq in N. apply nodup_mid in N as [_ N]. apply N. now left. }
      assert (NB : ~ In b l2 /\ ~ In a l2).
      { rewrite Eq in N. split.
        - replace (l1 ++ a :: b :: l2) with ((l1 ++ [a]) ++ b :: l2) in N by (now rewrite <- app_assoc). now apply nodup_mid in N.
        - apply nodup_mid in N as [_ N]. intros Q. apply N. now right. }
      destruct (H a b Ha Hb NE) as [Q|Q].
      + apply tc_first in Q as (c & C1 & C2). pose proof (T _ _ _ _ Eq C1) as [<-|I]; auto.
        apply rtc_cases in C2 as [->|C2]; auto. exfalso. apply in_split in I as (m1 & m2 & ->).
        pose proof (topo_tc l T (l1 ++ a :: b :: m1) c m2 b) as Z. elim (proj1 NB). apply in_or_app. right. right. apply Z; auto.
        rewrite Eq, <- app_assoc. reflexivity.
      + exfalso. apply (proj2 NB). apply (topo_tc l T (l1 ++ [a]) b l2 a); auto. rewrite Eq, <- app_assoc. reflexivity.
  Qed.
End Dfs.
