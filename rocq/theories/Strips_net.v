(** Positions with tasks, empty tasks and constraints between any two of them as task networks. *)
From Coq Require Import Relations.
From Verif Require Import Base Htn_problem Htn_spec Htn_sem Htn_iso Push_net.

Section Net.
  Variable pgb : nat.
  Definition edge (c : conf) (k j : nat) : Prop := k < pgb /\ j < pgb /\ k <> j /\ c (SC k j) = 1.
  Definition path (c : conf) : nat -> nat -> Prop := clos_trans nat (edge c).
  (** Values: 0 free, 1 empty task, 2 + t task t *)
  Definition net (c : conf) : tnet :=
    {| t_in := fun x => exists p, x = [p] /\ p < pgb /\ 2 <= c (ST p);
       t_lab := fun x => c (ST (hd 0 x)) - 2;
       t_ord := fun x y => exists p q, x = [p] /\ y = [q] /\ 2 <= c (ST p) /\ 2 <= c (ST q) /\ path c p q |}.
  Definition clean (c : conf) : Prop := forall k j, edge c k j -> c (ST k) <> 0 /\ c (ST j) <> 0.
  Definition ranked (c : conf) : Prop := exists r : nat -> nat, forall k j, edge c k j -> r k < r j.

  Lemma path_rank c (r : nat -> nat) : (forall k j, edge c k j -> r k < r j) -> forall k j, path c k j -> r k < r j.
  Proof. intros H. induction 1 as [k j E|k j l _ IH1 _ IH2]; [auto|lia]. Qed.
  Lemma path_in c k j : path c k j -> k < pgb /\ j < pgb.
  Proof. induction 1 as [k j (A & B & _)|k j l _ IH1 _ IH2]; tauto. Qed.
  Lemma path_occ c k j : clean c -> path c k j -> c (ST k) <> 0 /\ c (ST j) <> 0.
  Proof. intros C. induction 1 as [k j H|k j l _ IH1 _ IH2]; [auto|]. tauto. Qed.
  Lemma path_first c k j : path c k j -> exists z, edge c k z /\ (z = j \/ path c z j).
  Proof. intros H. apply clos_trans_t1n in H. destruct H as [z H|y z H T]; [eauto|]. exists y. split; auto. right. now apply clos_t1n_trans. Qed.
  Lemma path_last c k j : path c k j -> exists z, edge c z j.
  Proof. intros H. apply clos_trans_tn1 in H. destruct H as [z H|y z H T]; eauto. Qed.

  Lemma net_wf c : ranked c -> wf_tn (net c).
  Proof.
    intros (r & HR). split; cbn.
    - intros x y z (p & q & -> & -> & A & B & H) (q' & s & [= <-] & -> & _ & D & H'). exists p, s. do 4 (split; [auto|]). eapply t_trans; eauto.
    - intros x (p & q & -> & [= <-] & _ & _ & H). apply (path_rank c r HR) in H. lia.
    - intros x y (p & q & -> & -> & A & B & H). apply path_in in H. split; eexists; (split; [reflexivity|]); tauto.
    - intros x y (p & -> & _) (q & -> & _) (z & E). cbn in E. congruence.
  Qed.

  Lemma net_minimal c j : j < pgb -> 2 <= c (ST j) -> (forall k, ~ edge c k j) -> minimal (net c) [j].
  Proof. intros L N H. split; [exists j; auto|]. intros y (p & q & -> & [= <-] & _ & _ & Q). destruct (path_last _ _ _ Q) as (z & E). now apply H in E. Qed.
  (** If no empty task is without predecessors, the first tasks of the network have no predecessors at all. *)
  Lemma minimal_edge c j : clean c -> ranked c -> (forall p, p < pgb -> c (ST p) = 1 -> exists k, edge c k p) -> minimal (net c) [j] -> forall k, ~ edge c k j.
  Proof.
    intros C (r & HR) EM [(q & [= <-] & Lj & Nj) M] k E. assert (X : forall n z, r z < n -> path c z j -> False); [|apply (X (S (r k)) k); [lia|now apply t_step]].
    induction n as [|n IH]; intros z L H; [lia|]. destruct (path_occ c z j C H) as [Oz _]. destruct (path_in c z j H) as [Lz _]. destruct (Nat.eq_dec (c (ST z)) 1) as [E1|E1].
    - destruct (EM z Lz E1) as (z' & E'). apply (IH z'); [apply HR in E'; lia|]. apply t_trans with z; [apply t_step; exact E'|exact H].
    - apply (M [z]). exists z, j. split; [reflexivity|]. split; [reflexivity|]. split; [lia|]. split; [lia|]. exact H.
  Qed.

  Lemma path_mono c c' k q : path c k q -> (forall k q, edge c k q -> edge c' k q) -> path c' k q.
  Proof. intros H M. induction H; [apply t_step; auto|eapply t_trans; eauto]. Qed.
  Lemma path_avoid c c' j k q : (forall k, ~ edge c k j) -> (forall k q, k <> j -> edge c k q -> edge c' k q) -> path c k q -> k <> j -> path c' k q.
  Proof.
    intros NE M H. apply clos_trans_t1n in H. induction H as [k q H|k z q H T IH]; intros N; [apply t_step; auto|].
    apply t_trans with z; [apply t_step; auto|]. apply IH. intros ->. now apply NE in H.
  Qed.

  (** ** Removing a task or an empty task without predecessors *)
  Lemma net_leave c c' j : clean c -> ranked c -> j < pgb -> (forall k, ~ edge c k j) ->
    (forall p, p < pgb -> c' (ST p) = if p =? j then 0 else c (ST p)) ->
    (forall k q, k < pgb -> q < pgb -> k <> q -> c' (SC k q) = if k =? j then 0 else c (SC k q)) ->
    clean c' /\ ranked c' /\ (2 <= c (ST j) -> teq (minus (net c) [j]) (net c')) /\ (c (ST j) = 1 -> teq (net c) (net c')).
  Proof.
    intros C (r & HR) Lj NE HT HC. assert (EE : forall k q, edge c' k q <-> edge c k q /\ k <> j).
    { intros k q. unfold edge. split.
      - intros (L1 & L2 & D & E). rewrite HC in E by auto. destruct (Nat.eqb_spec k j); [discriminate|]. auto.
      - intros ((L1 & L2 & D & E) & N). do 3 (split; [assumption|]). rewrite HC by auto. destruct (Nat.eqb_spec k j); [contradiction|]. auto. }
    assert (PP : forall p q, path c' p q <-> path c p q /\ p <> j).
    { intros p q. split.
      - intros H. split; [eapply path_mono; eauto; intros k q' E; now apply EE|]. destruct (path_first _ _ _ H) as (z & E & _). now apply EE in E.
      - intros [H N]. eapply path_avoid; eauto. intros k q' N' E. apply EE. auto. }
    assert (QJ : forall p q, path c p q -> q <> j) by (intros p q H ->; destruct (path_last _ _ _ H) as (z & E); now apply NE in E).
    assert (VV : forall p, p < pgb -> 2 <= c' (ST p) <-> 2 <= c (ST p) /\ p <> j) by (intros p L; rewrite HT by auto; destruct (Nat.eqb_spec p j); [lia|tauto]).
    assert (LB : forall p, p < pgb -> p <> j -> c' (ST p) = c (ST p)) by (intros p L N; rewrite HT by auto; destruct (Nat.eqb_spec p j); [contradiction|auto]).
    split; [|split; [|split]].
    - intros k q E. apply EE in E as [E N]. assert (Nq : q <> j) by (intros ->; now apply NE in E). destruct (C k q E). destruct E as (L1 & L2 & _). rewrite !LB by auto. auto.
    - exists r. intros k q E. apply EE in E as [E _]. auto.
    - intros OJ. split; cbn.
      + intros x. split.
        * intros [(p & -> & L & N) D]. exists p. split; auto. split; auto. apply VV; auto. split; auto. congruence.
        * intros (p & -> & L & N). apply VV in N as [N D]; auto. split; [eauto|congruence].
      + intros x [(p & -> & L & N) D]. cbn. rewrite LB; auto. congruence.
      + intros x y. split.
        * intros [(p & q & -> & -> & A & B & H) [D1 D2]]. destruct (path_in _ _ _ H). exists p, q. do 2 (split; [auto|]). do 2 (split; [apply VV; auto; split; auto; congruence|]). apply PP. split; auto. congruence.
        * intros (p & q & -> & -> & A & B & H). destruct (path_in _ _ _ H). apply VV in A as [A N1]; auto. apply VV in B as [B N2]; auto. apply PP in H as [H _]. split; [exists p, q; auto 6|]. split; congruence.
    - intros OJ. assert (VE : forall p, p < pgb -> 2 <= c' (ST p) <-> 2 <= c (ST p)) by (intros p L; rewrite VV by auto; split; [tauto|]; intros H; split; auto; intros ->; lia). split; cbn.
      + intros x. split; intros (p & -> & L & N); exists p; (split; [auto|]); (split; [auto|]); apply VE; auto.
      + intros x (p & -> & L & N). cbn. rewrite LB; auto. intros ->. lia.
      + intros x y. split; intros (p & q & -> & -> & A & B & H); destruct (path_in _ _ _ H); exists p, q; do 2 (split; [auto|]); do 2 (split; [apply VE; auto|]).
        * apply PP. split; auto. intros ->. lia.
        * now apply PP in H as [H _].
  Qed.

  (** ** Decomposing a task without predecessors *)
  Section Dec.
    Variables (c c' : conf) (j : nat) (m : method) (nl : bool) (pos : nat -> nat).
    Notation nn := (length (m_subs m)).
    Hypotheses (C : clean c) (RK : ranked c) (N1 : 1 <= nn) (Lj : j < pgb) (OC : c (ST j) = m_task m + 2) (NE : forall k, ~ edge c k j).
    Hypothesis (OR : forall a b, In (a, b) (m_ord m) -> a < b < nn).
    Hypothesis (PL : forall a, a < nn -> pos a < pgb).
    Hypothesis (PI : forall a b, a < nn -> b < nn -> pos a = pos b -> a = b).
    Hypothesis (PN : forall a, a < nn -> c (ST (pos a)) = 0 \/ (nl = false /\ S a = nn /\ pos a = j)).
    Hypothesis (PJ : nl = false -> pos (nn - 1) = j).
    Hypothesis (LAST : nl = false -> forall a, S a < nn -> m_lt m a (nn - 1)).
    Hypothesis (HP : forall a, a < nn -> c' (ST (pos a)) = nth a (m_subs m) 0 + 2).
    Hypothesis (HJ : nl = true -> c' (ST j) = 1).
    Hypothesis (HO : forall p, p < pgb -> p <> j -> (forall a, a < nn -> p <> pos a) -> c' (ST p) = c (ST p)).
    Hypothesis (HE : forall k q, edge c' k q <-> edge c k q \/ (exists a b, In (a, b) (m_ord m) /\ k = pos a /\ q = pos b) \/ (nl = true /\ exists a, a < nn /\ k = pos a /\ q = j)).

    Lemma nl_cases : nl = true \/ nl = false.
    Proof. clear. destruct nl; auto. Qed.
    Lemma pos_j a : a < nn -> pos a = j -> nl = false /\ S a = nn.
    Proof. intros L E. destruct (PN a L) as [Z|(A & B & _)]; auto. rewrite E, OC in Z. lia. Qed.
    Lemma old_pos p a : a < nn -> p <> j -> c (ST p) <> 0 -> p <> pos a.
    Proof. intros L Nj O ->. destruct (PN a L) as [Z|(_ & _ & Z)]; congruence. Qed.
    Lemma old_val p : p < pgb -> p <> j -> c (ST p) <> 0 -> c' (ST p) = c (ST p).
    Proof. intros L Nj O. apply HO; auto. intros a La. now apply old_pos. Qed.
    Lemma to_j k q : path c k q -> q <> j.
    Proof. intros H ->. destruct (path_last _ _ _ H) as (z & E). now apply NE in E. Qed.
    Lemma m_lt_n a b : m_lt m a b -> a < b < nn.
    Proof. induction 1 as [a b H|a b d _ IH1 _ IH2]; [now apply OR|lia]. Qed.

    Definition R k q : Prop := (k <> j /\ path c k q) \/ (exists a, a < nn /\ k = pos a /\ path c j q) \/
      (exists a b, a < nn /\ b < nn /\ k = pos a /\ q = pos b /\ m_lt m a b) \/ (nl = true /\ k = j /\ path c j q) \/ (nl = true /\ q = j /\ exists a, a < nn /\ k = pos a).
    Lemma R_trans x y z : R x y -> R y z -> R x z.
    Proof.
      assert (PX : forall k a q, a < nn -> path c k (pos a) -> R (pos a) q -> False).
      { intros k a q La H _. assert (D := to_j _ _ H). apply (old_pos (pos a) a La); auto. now apply (path_occ c k (pos a) C). }
      intros [[Nx H]|[(a & La & -> & H)|[(a & b & La & Lb & -> & -> & H)|[(NL & -> & H)|(NL & -> & a & La & ->)]]]] K.
      - destruct K as [[Ny K]|[(a' & La' & -> & K)|[(a' & b' & La' & Lb' & -> & -> & K)|[(NL' & -> & K)|(NL' & -> & a' & La' & ->)]]]].
        + left. split; auto. eapply t_trans; eauto.
        + exfalso. eapply (PX x a'); eauto. right. left. eauto.
        + exfalso. eapply (PX x a' (pos b')); eauto. right. right. left. exists a', b'. auto.
        + exfalso. now apply to_j in H.
        + exfalso. eapply (PX x a' j); eauto. right. right. right. right. eauto.
      - destruct K as [[Ny K]|[(a' & La' & -> & K)|[(a' & b' & La' & Lb' & -> & -> & K)|[(NL' & -> & K)|(NL' & -> & a' & La' & ->)]]]].
        + right. left. exists a. split; auto. split; auto. eapply t_trans; eauto.
        + exfalso. eapply (PX j a'); eauto. right. left. eauto.
        + exfalso. eapply (PX j a' (pos b')); eauto. right. right. left. exists a', b'. auto.
        + exfalso. now apply to_j in H.
        + exfalso. eapply (PX j a' j); eauto. right. right. right. right. eauto.
      - destruct K as [[Ny K]|[(a' & La' & E & K)|[(a' & b' & La' & Lb' & E & -> & K)|[(NL' & E & K)|(NL' & -> & a' & La' & E)]]]].
        + exfalso. apply (old_pos (pos b) b Lb); auto. now apply (path_occ c (pos b) z C).
        + right. left. exists a. auto.
        + apply PI in E; auto. subst a'. right. right. left. exists a, b'. repeat split; auto. eapply m_lt_trans; eauto.
        + right. left. exists a. auto.
        + right. right. right. right. split; auto. split; auto. exists a. auto.
      - destruct K as [[Ny K]|[(a' & La' & -> & K)|[(a' & b' & La' & Lb' & -> & -> & K)|[(NL' & -> & K)|(NL' & -> & a' & La' & ->)]]]].
        + right. right. right. left. split; auto. split; auto. eapply t_trans; eauto.
        + exfalso. eapply (PX j a'); eauto. right. left. eauto.
        + exfalso. eapply (PX j a' (pos b')); eauto. right. right. left. exists a', b'. auto.
        + exfalso. now apply to_j in H.
        + exfalso. eapply (PX j a' j); eauto. right. right. right. right. eauto.
      - destruct K as [[Ny K]|[(a' & La' & E & K)|[(a' & b' & La' & Lb' & E & -> & K)|[(NL' & E & K)|(NL' & -> & a' & La' & E)]]]].
        + congruence.
        + exfalso. symmetry in E. apply pos_j in E; auto. destruct E. congruence.
        + exfalso. symmetry in E. apply pos_j in E; auto. destruct E. congruence.
        + right. left. exists a. auto.
        + exfalso. symmetry in E. apply pos_j in E; auto. destruct E. congruence.
    Qed.
    Lemma edge_R k q : edge c' k q -> R k q.
    Proof.
      intros E. apply HE in E as [E|[(a & b & I & -> & ->)|(NL & a & La & -> & ->)]].
      - destruct (Nat.eq_dec k j) as [->|Nk]; [|left; split; auto; now apply t_step]. destruct nl_cases as [NL|NL]; [right; right; right; left; split; auto; split; auto; now apply t_step|].
        right. left. exists (nn - 1). split; [lia|]. split; [symmetry; auto|]. now apply t_step.
      - right. right. left. exists a, b. assert (X := OR a b I). repeat split; auto; try lia. now apply t_step.
      - right. right. right. right. eauto.
    Qed.
    Lemma path_lift k q : path c k q -> path c' k q.
    Proof. intros H. eapply path_mono; eauto. intros x y E. apply HE. auto. Qed.
    Lemma path_m a b : m_lt m a b -> path c' (pos a) (pos b).
    Proof. induction 1 as [a b H|a b d _ IH1 _ IH2]; [apply t_step, HE; right; left; eauto|eapply t_trans; eauto]. Qed.
    Lemma path_R k q : path c' k q <-> R k q.
    Proof.
      split; [induction 1; [now apply edge_R|eapply R_trans; eauto]|].
      intros [[Nk H]|[(a & La & -> & H)|[(a & b & La & Lb & -> & -> & H)|[(NL & -> & H)|(NL & -> & a & La & ->)]]]].
      - now apply path_lift.
      - apply path_lift in H. destruct nl_cases as [NL|NL]; [eapply t_trans; [apply t_step, HE; right; right; split; eauto|exact H]|]. destruct (Nat.eq_dec (S a) nn) as [E|E]; [replace a with (nn - 1) by lia; rewrite PJ by auto; exact H|].
        eapply t_trans; [apply (path_m a (nn - 1)), LAST; auto; lia|]. rewrite PJ by auto. exact H.
      - now apply path_m.
      - now apply path_lift.
      - apply t_step, HE. right. right. split; eauto.
    Qed.

    Lemma dec_clean : clean c'.
    Proof.
      assert (JO : c' (ST j) <> 0) by (destruct nl_cases as [NL|NL]; [rewrite HJ; auto|rewrite <- (PJ NL), HP by lia; lia]).
      intros k q E. apply HE in E as [E|[(a & b & I & -> & ->)|(NL & a & La & -> & ->)]].
      - assert (Q : q <> j) by (intros ->; now apply NE in E). destruct (C k q E) as [O1 O2]. destruct E as (L1 & L2 & _). rewrite (old_val q) by auto. split; auto. destruct (Nat.eq_dec k j) as [->|Nk]; auto. now rewrite old_val.
      - assert (X := OR a b I). rewrite !HP by lia. lia.
      - rewrite HP by auto. split; [lia|auto].
    Qed.
    Lemma dec_ranked : ranked c'.
    Proof.
      destruct RK as (r & HR). set (ix := fun p => match find (fun a => pos a =? p) (seq 0 nn) with Some a => Some a | None => None end).
      assert (IX : forall a, a < nn -> ix (pos a) = Some a).
      { intros a La. unfold ix. destruct (find (fun x => pos x =? pos a) (seq 0 nn)) as [b|] eqn:F.
        - apply find_some in F as [I E]. apply in_seq in I. apply Nat.eqb_eq in E. apply PI in E; try lia. congruence.
        - assert (X := find_none _ _ F a ltac:(apply in_seq; lia)). cbn in X. now rewrite Nat.eqb_refl in X. }
      assert (IN : forall p, (forall a, a < nn -> p <> pos a) -> ix p = None).
      { intros p H. unfold ix. destruct (find (fun x => pos x =? p) (seq 0 nn)) as [b|] eqn:F; auto. apply find_some in F as [I E]. apply in_seq in I. apply Nat.eqb_eq in E. exfalso. apply (H b); [lia|congruence]. }
      exists (fun p => match ix p with Some a => a | None => if p =? j then nn else S nn + r p end). intros k q E. apply HE in E as [E|[(a & b & I & -> & ->)|(NL & a & La & -> & ->)]].
      - assert (Q : q <> j) by (intros ->; now apply NE in E). destruct (C k q E) as [O1 O2]. rewrite (IN q) by (intros a La; now apply old_pos). destruct (Nat.eqb_spec q j); [contradiction|]. destruct (Nat.eq_dec k j) as [->|Nk].
        + destruct (ix j) as [a|] eqn:EI; [|rewrite Nat.eqb_refl; lia]. unfold ix in EI. destruct (find (fun x => pos x =? j) (seq 0 nn)) as [b|] eqn:F; [|discriminate]. injection EI as ->. apply find_some in F as [I _]. apply in_seq in I. lia.
        + rewrite (IN k) by (intros a La; now apply old_pos). destruct (Nat.eqb_spec k j); [contradiction|]. apply HR in E. lia.
      - assert (X := OR a b I). rewrite !IX by lia. lia.
      - rewrite IX by auto. rewrite IN; [rewrite Nat.eqb_refl; lia|]. intros b Lb E. symmetry in E. apply pos_j in E; auto. destruct E. congruence.
    Qed.

    Lemma net_dec : exists f, iso f (decF (net c) [j] m) (net c').
    Proof.
      assert (JR : c' (ST j) >= 2 -> nl = false /\ j = pos (nn - 1)) by (intros H; destruct nl_cases as [NL|NL]; [rewrite HJ in H by auto; lia|split; auto; symmetry; auto]).
      set (f := fun x y : tid => (exists p, p < pgb /\ p <> j /\ 2 <= c (ST p) /\ x = [p] /\ y = [p]) \/ (exists a, a < nn /\ x = [j; a] /\ y = [pos a])). exists f. split.
      - intros x y [(p & L & Nj & O & -> & ->)|(a & L & -> & ->)]; cbn.
        + split; [left; split; [eauto|congruence]|]. exists p. rewrite old_val; auto. lia.
        + split; [right; exists a; auto|]. exists (pos a). split; auto. split; [now apply PL|]. rewrite HP by auto. lia.
      - intros x [[(p & -> & L & O) Nj]|(a & L & ->)].
        + exists [p]. left. exists p. repeat split; auto. congruence.
        + exists [pos a]. right. exists a. auto.
      - intros y (p & -> & L & O). destruct (find (fun a => pos a =? p) (seq 0 nn)) as [a|] eqn:F.
        + apply find_some in F as [I E]. apply in_seq in I. apply Nat.eqb_eq in E. exists [j; a]. right. exists a. subst p. split; [lia|auto].
        + assert (NP : forall a, a < nn -> p <> pos a) by (intros a La E; assert (X := find_none _ _ F a ltac:(apply in_seq; lia)); cbn in X; rewrite E, Nat.eqb_refl in X; discriminate).
          assert (Nj : p <> j) by (intros ->; apply JR in O as [_ O]; apply (NP (nn - 1)); [lia|auto]). exists [p]. left. exists p. rewrite HO in O by auto. auto.
      - intros x y y' [(p & L & Nj & O & -> & ->)|(a & L & -> & ->)] [(p' & L' & Nj' & O' & [= <-] & ->)|(a' & L' & [=] & ->)]; auto. subst. reflexivity.
      - intros x x' y [(p & L & Nj & O & -> & ->)|(a & L & -> & ->)] [(p' & L' & Nj' & O' & -> & [= E])|(a' & L' & -> & [= E])].
        + congruence.
        + exfalso. apply (old_pos p a' L' Nj); auto. lia.
        + exfalso. apply (old_pos p' a L Nj'); auto. lia.
        + apply PI in E; auto. congruence.
      - intros x y [(p & L & Nj & O & -> & ->)|(a & L & -> & ->)]; cbn.
        + rewrite old_val by (auto; lia). reflexivity.
        + rewrite HP by auto. destruct (Nat.eq_dec j j); [|congruence]. cbn. lia.
      - intros x y x' y' F F'. split.
        + intros H. destruct F as [(p & L & Nj & O & -> & ->)|(a & L & -> & ->)], F' as [(p' & L' & Nj' & O' & -> & ->)|(a' & L' & -> & ->)]; cbn in H.
          * destruct H as [(_ & _ & _ & _ & p1 & q1 & [= <-] & [= <-] & _ & _ & H)|[(? & ? & _ & _ & [=] & _)|[(? & _ & [=] & _)|(? & _ & [=] & _)]]]. exists p, p'. rewrite !old_val by (auto; lia). do 4 (split; [auto|]). apply path_R. left. auto.
          * destruct H as [(_ & (? & [=] & _) & _)|[(? & ? & _ & _ & [=] & _)|[(? & _ & [=] & _)|(k & _ & _ & _ & _ & p1 & q1 & [= <-] & [= <-] & _ & _ & H)]]]. exfalso. now apply to_j in H.
          * destruct H as [((? & [=] & _) & _)|[(? & ? & _ & _ & _ & [=] & _)|[(k & Lk & [= <-] & _ & _ & p1 & q1 & [= <-] & [= <-] & _ & _ & H)|(? & _ & [=] & _)]]]. exists (pos a), p'. rewrite HP, old_val by (auto; lia). do 4 (split; [auto; lia|]). apply path_R. right. left. eauto.
          * destruct H as [((? & [=] & _) & _)|[(k & l & _ & _ & [= <-] & [= <-] & H)|[(k & Lk & _ & (? & [=] & _) & _)|(k & Lk & _ & (? & [=] & _) & _)]]]. exists (pos a), (pos a'). rewrite !HP by auto. do 4 (split; [auto; lia|]). apply path_R. right. right. left. exists a, a'. auto.
        + intros (p1 & q1 & E1 & E2 & V1 & V2 & H). apply path_R in H. destruct F as [(p & L & Nj & O & -> & ->)|(a & L & -> & ->)], F' as [(p' & L' & Nj' & O' & -> & ->)|(a' & L' & -> & ->)]; injection E1 as <-; injection E2 as <-; cbn.
          * destruct H as [[_ H]|[(a & La & E & _)|[(a & b & La & _ & E & _)|[(_ & E & _)|(_ & E & _)]]]]; [|exfalso; apply (old_pos p a) in E; auto; lia|exfalso; apply (old_pos p a) in E; auto; lia|contradiction|contradiction].
            left. repeat split; eauto 10; congruence.
          * exfalso. destruct H as [[_ H]|[(a & La & E & _)|[(a & b & La & _ & E & _)|[(_ & E & _)|(_ & _ & a & La & E)]]]]; [|apply (old_pos p a) in E; auto; lia|apply (old_pos p a) in E; auto; lia|contradiction|apply (old_pos p a) in E; auto; lia].
            apply (old_pos (pos a') a' L'); auto; [eapply to_j; eauto|now apply (path_occ c p (pos a') C)].
          * destruct H as [[Nk H]|[(b & Lb & E & H)|[(b & d & Lb & Ld & E & E' & H)|[(NL & E & H)|(_ & E & _)]]]].
            -- exfalso. apply (old_pos (pos a) a L); auto. now apply (path_occ c (pos a) p' C).
            -- right. right. left. exists a. repeat split; eauto 8; try congruence. exists j, p'. repeat split; auto. rewrite OC. lia.
            -- exfalso. apply (old_pos p' d) in E'; auto. lia.
            -- exfalso. apply pos_j in E; auto. destruct E. congruence.
            -- contradiction.
          * destruct H as [[Nk H]|[(b & Lb & E & H)|[(b & d & Lb & Ld & E & E' & H)|[(NL & E & H)|(NL & E & _)]]]].
            -- exfalso. apply (old_pos (pos a) a L); auto. now apply (path_occ c (pos a) (pos a') C).
            -- exfalso. apply (old_pos (pos a') a' L'); auto; [eapply to_j; eauto|]. now apply (path_occ c j (pos a') C).
            -- apply PI in E; auto. apply PI in E'; auto. subst. right. left. exists b, d. auto.
            -- exfalso. apply pos_j in E; auto. destruct E. congruence.
            -- exfalso. apply pos_j in E; auto. destruct E. congruence.
    Qed.
  End Dec.
End Net.
