(** Positions with tasks and constraints between them as task networks. *)
From Coq Require Import Relations.
From Verif Require Import Base Htn_problem Htn_spec Htn_sem Htn_iso.

(** The variables of the encoding: task, constraint (the higher before the lower position), occupied, movable. *)
Inductive slot := ST (p : nat) | SC (k j : nat) | SK (p : nat) | SM (p : nat).
Definition conf := slot -> nat.

Lemma slot_dec (a b : slot) : {a = b} + {a <> b}.
Proof. decide equality; apply Nat.eq_dec. Qed.

Section Net.
  Variable pgb : nat.
  Definition edge (c : conf) (k j : nat) : Prop := j < k < pgb /\ c (SC k j) = 1.
  Definition path (c : conf) : nat -> nat -> Prop := clos_trans nat (edge c).
  Definition net (c : conf) : tnet :=
    {| t_in := fun x => exists p, x = [p] /\ p < pgb /\ c (ST p) <> 0;
       t_lab := fun x => c (ST (hd 0 x)) - 1;
       t_ord := fun x y => exists p q, x = [p] /\ y = [q] /\ path c p q |}.
  Definition clean (c : conf) : Prop := forall k j, edge c k j -> c (ST k) <> 0 /\ c (ST j) <> 0.

  Lemma path_lt c k j : path c k j -> j < k /\ k < pgb.
  Proof. induction 1 as [k j [H _]|k j l _ IH1 _ IH2]; lia. Qed.
  Lemma path_occ c k j : clean c -> path c k j -> c (ST k) <> 0 /\ c (ST j) <> 0.
  Proof. intros C. induction 1 as [k j H|k j l _ IH1 _ IH2]; [auto|]. tauto. Qed.
  Lemma path_first c k j : path c k j -> exists z, edge c k z /\ (z = j \/ path c z j).
  Proof. intros H. apply clos_trans_t1n in H. destruct H as [z H|y z H T]; [eauto|]. exists y. split; auto. right. now apply clos_t1n_trans. Qed.
  Lemma path_last c k j : path c k j -> exists z, edge c z j.
  Proof. intros H. apply clos_trans_tn1 in H. destruct H as [z H|y z H T]; eauto. Qed.

  Lemma net_wf c : clean c -> wf_tn (net c).
  Proof.
    intros C. split; cbn.
    - intros x y z (p & q & -> & -> & H) (q' & r & [= <-] & -> & H'). exists p, r. split; auto. split; auto. eapply t_trans; eauto.
    - intros x (p & q & -> & [= <-] & H). apply path_lt in H. lia.
    - intros x y (p & q & -> & -> & H). assert (O := path_occ c p q C H). apply path_lt in H. split; eexists; (split; [reflexivity|]); split; try tauto; lia.
    - intros x y (p & -> & _) (q & -> & _) (z & E). cbn in E. congruence.
  Qed.

  Lemma net_minimal c j : clean c -> j < pgb -> c (ST j) <> 0 -> (minimal (net c) [j] <-> forall k, ~ edge c k j).
  Proof.
    intros C L N. split.
    - intros [_ H] k E. apply (H [k]). exists k, j. split; auto. split; auto. now constructor.
    - intros H. split; [exists j; auto|]. intros y (p & q & -> & [= <-] & Q). destruct (path_last _ _ _ Q) as (z & E). now apply H in E.
  Qed.

  (** A path that does not start at [j] avoids [j] if nothing precedes it. *)
  Lemma path_mono c c' k q : path c k q -> (forall k q, edge c k q -> edge c' k q) -> path c' k q.
  Proof. intros H M. induction H; [apply t_step; auto|eapply t_trans; eauto]. Qed.
  Lemma path_avoid c c' j k q : (forall k, ~ edge c k j) -> (forall k q, k <> j -> edge c k q -> edge c' k q) -> path c k q -> k <> j -> path c' k q.
  Proof.
    intros NE M H. apply clos_trans_t1n in H. induction H as [k q H|k z q H T IH]; intros N; [apply t_step; auto|].
    apply t_trans with z; [apply t_step; auto|]. apply IH. intros ->. now apply NE in H.
  Qed.

  (** ** Removing a task without predecessors *)
  Lemma net_leave c c' j : clean c -> (forall k, ~ edge c k j) ->
    (forall p, p < pgb -> c' (ST p) = if p =? j then 0 else c (ST p)) ->
    (forall k q, q < k < pgb -> c' (SC k q) = if k =? j then 0 else c (SC k q)) ->
    clean c' /\ teq (minus (net c) [j]) (net c').
  Proof.
    intros C NE HT HC. assert (EE : forall k q, edge c' k q <-> edge c k q /\ k <> j).
    { intros k q. unfold edge. split.
      - intros [L E]. rewrite HC in E by auto. destruct (Nat.eqb_spec k j); [discriminate|]. auto.
      - intros [[L E] N]. split; auto. rewrite HC by auto. destruct (Nat.eqb_spec k j); [contradiction|]. auto. }
    split.
    - intros k q E. apply EE in E as [E N]. assert (Nq : q <> j) by (intros ->; now apply NE in E). destruct (C k q E). destruct E as [L _]. rewrite !HT by lia. destruct (Nat.eqb_spec k j), (Nat.eqb_spec q j); tauto.
    - split; cbn.
      + intros x. split.
        * intros [(p & -> & L & N) D]. exists p. split; auto. split; auto. rewrite HT by auto. destruct (Nat.eqb_spec p j); [congruence|auto].
        * intros (p & -> & L & N). rewrite HT in N by auto. destruct (Nat.eqb_spec p j); [congruence|]. split; [eauto|congruence].
      + intros x [(p & -> & L & N) D]. cbn. rewrite HT by auto. destruct (Nat.eqb_spec p j); [congruence|auto].
      + intros x y. split.
        * intros [(p & q & -> & -> & H) [D1 D2]]. exists p, q. split; auto. split; auto. eapply path_avoid; eauto; [|congruence]. intros k q' N E. apply EE. auto.
        * intros (p & q & -> & -> & H). split.
          -- exists p, q. split; auto. split; auto. eapply path_mono; eauto. intros k q' E. now apply EE.
          -- assert (N1 : p <> j) by (destruct (path_first _ _ _ H) as (z & E & _); now apply EE in E). assert (N2 : q <> j) by (destruct (path_last _ _ _ H) as (z & E); apply EE in E as [E _]; intros ->; now apply NE in E). split; congruence.
  Qed.

  (** ** Moving a task to a free position *)
  Definition relabel (j j' p : nat) : nat := if p =? j then j' else p.
  Lemma net_move c c' j j' : clean c -> clean c' -> j < pgb -> j' < pgb -> j <> j' -> c (ST j) <> 0 -> c (ST j') = 0 ->
    (forall p, p < pgb -> c' (ST p) = if p =? j then 0 else if p =? j' then c (ST j) else c (ST p)) ->
    (forall k q, edge c k q -> edge c' (relabel j j' k) (relabel j j' q)) ->
    (forall k q, edge c' k q -> edge c (relabel j' j k) (relabel j' j q)) ->
    exists f, iso f (net c) (net c').
  Proof.
    intros C C' Lj Lj' D N Z HT E1 E2. set (f := fun x y : tid => exists p, p < pgb /\ c (ST p) <> 0 /\ x = [p] /\ y = [relabel j j' p]). exists f.
    assert (PQ : forall k q, path c k q -> path c' (relabel j j' k) (relabel j j' q)) by (induction 1; [apply t_step; auto|eapply t_trans; eauto]).
    assert (QP : forall k q, path c' k q -> path c (relabel j' j k) (relabel j' j q)) by (induction 1; [apply t_step; auto|eapply t_trans; eauto]).
    assert (RR : forall p, c (ST p) <> 0 -> relabel j' j (relabel j j' p) = p). { intros p X. unfold relabel. destruct (Nat.eqb_spec p j) as [->|]; [now rewrite Nat.eqb_refl|]. destruct (Nat.eqb_spec p j') as [->|]; congruence. }
    split.
    - intros x y (p & L & X & -> & ->). split; cbn; [eauto|]. exists (relabel j j' p). split; auto. unfold relabel. destruct (Nat.eqb_spec p j) as [->|Y]; (split; [auto|]); rewrite HT by auto.
      + destruct (Nat.eqb_spec j' j); [congruence|]. now rewrite Nat.eqb_refl.
      + destruct (Nat.eqb_spec p j); [congruence|]. destruct (Nat.eqb_spec p j'); congruence.
    - intros x (p & -> & L & X). exists [relabel j j' p], p. auto.
    - intros y (p & -> & L & X). rewrite HT in X by auto. destruct (Nat.eqb_spec p j) as [->|Y]; [congruence|]. destruct (Nat.eqb_spec p j') as [->|Y'].
      + exists [j], j. unfold relabel. rewrite Nat.eqb_refl. auto.
      + exists [p], p. unfold relabel. destruct (Nat.eqb_spec p j); [congruence|]. auto.
    - intros x y y' (p & _ & _ & -> & ->) (q & _ & _ & [= <-] & ->). reflexivity.
    - intros x x' y (p & _ & X & -> & ->) (q & _ & Y & -> & [= H]). apply (f_equal (relabel j' j)) in H. rewrite !RR in H by auto. congruence.
    - intros x y (p & L & X & -> & ->). cbn. unfold relabel. destruct (Nat.eqb_spec p j) as [->|Y]; rewrite HT by auto.
      + destruct (Nat.eqb_spec j' j); [congruence|]. now rewrite Nat.eqb_refl.
      + destruct (Nat.eqb_spec p j); [congruence|]. destruct (Nat.eqb_spec p j') as [->|]; congruence.
    - intros x y x' y' (p & L & X & -> & ->) (q & L' & Y & -> & ->). cbn. split.
      + intros (p' & q' & [= <-] & [= <-] & H). eauto 8.
      + intros (p' & q' & [= <-] & [= <-] & H). exists p, q. split; auto. split; auto. apply QP in H. now rewrite !RR in H by auto.
  Qed.

  (** ** Decomposing a task without predecessors *)
  Section Dec.
    Variables (c c' : conf) (j : nat) (m : method).
    Notation nn := (length (m_subs m)).
    Definition pos (a : nat) : nat := if Nat.eq_dec (S a) nn then j else pgb - 1 - a.
    Hypotheses (C : clean c) (N1 : 1 <= nn) (FIT : nn + j <= pgb) (OC : c (ST j) = S (m_task m)) (NE : forall k, ~ edge c k j).
    Hypothesis (OR : forall a b, In (a, b) (m_ord m) -> a < b < nn).
    Hypothesis (FREE : forall a, S a < nn -> c (ST (pgb - 1 - a)) = 0).
    Hypothesis (HT : forall p, p < pgb -> c' (ST p) = if p =? j then S (nth (nn - 1) (m_subs m) 0) else if pgb - nn <? p then S (nth (pgb - 1 - p) (m_subs m) 0) else c (ST p)).
    Hypothesis (HE : forall k q, edge c' k q <-> edge c k q \/ (exists a, a < nn /\ k = pos a /\ edge c j q) \/ (exists a b, In (a, b) (m_ord m) /\ k = pos a /\ q = pos b)).

    Lemma pos_lt a : a < nn -> pos a < pgb. Proof. unfold pos. destruct (Nat.eq_dec (S a) nn); lia. Qed.
    Lemma pos_inj a b : a < nn -> b < nn -> pos a = pos b -> a = b.
    Proof. unfold pos. destruct (Nat.eq_dec (S a) nn), (Nat.eq_dec (S b) nn); lia. Qed.
    Lemma pos_new a : a < nn -> pos a = j \/ c (ST (pos a)) = 0.
    Proof. intros L. unfold pos. destruct (Nat.eq_dec (S a) nn); [auto|]. right. apply FREE. lia. Qed.
    Lemma pos_lab a : a < nn -> c' (ST (pos a)) = S (nth a (m_subs m) 0).
    Proof.
      intros L. rewrite HT by now apply pos_lt. unfold pos. destruct (Nat.eq_dec (S a) nn) as [E|E].
      - rewrite Nat.eqb_refl. do 2 f_equal. lia.
      - destruct (Nat.eqb_spec (pgb - 1 - a) j); [lia|]. destruct (Nat.ltb_spec (pgb - nn) (pgb - 1 - a)); [|lia]. do 2 f_equal. lia.
    Qed.
    Lemma pos_old p : p < pgb -> p <> j -> c (ST p) <> 0 -> c' (ST p) = c (ST p).
    Proof.
      intros L Nj O. rewrite HT by auto. destruct (Nat.eqb_spec p j); [contradiction|]. destruct (Nat.ltb_spec (pgb - nn) p) as [Q|Q]; auto. exfalso. apply O.
      replace p with (pgb - 1 - (pgb - 1 - p)) by lia. apply FREE. lia.
    Qed.
    Lemma dec_occ p : p < pgb -> c' (ST p) <> 0 -> (p <> j /\ c (ST p) <> 0) \/ exists a, a < nn /\ p = pos a.
    Proof.
      intros L O. rewrite HT in O by auto. destruct (Nat.eqb_spec p j) as [->|Q].
      - right. exists (nn - 1). split; [lia|]. unfold pos. destruct (Nat.eq_dec (S (nn - 1)) nn); lia.
      - destruct (Nat.ltb_spec (pgb - nn) p) as [X|X]; auto. right. exists (pgb - 1 - p). split; [lia|]. unfold pos. destruct (Nat.eq_dec (S (pgb - 1 - p)) nn); lia.
    Qed.
    Lemma old_not_pos p a : a < nn -> p <> j -> c (ST p) <> 0 -> p <> pos a.
    Proof. intros L Nj O ->. destruct (pos_new a L); congruence. Qed.

    Definition R k q : Prop := (k <> j /\ path c k q) \/ (exists a, a < nn /\ k = pos a /\ path c j q) \/ (exists a b, a < nn /\ b < nn /\ k = pos a /\ q = pos b /\ m_lt m a b).
    Lemma m_lt_n a b : m_lt m a b -> a < b < nn.
    Proof. induction 1 as [a b H|a b d _ IH1 _ IH2]; [now apply OR|lia]. Qed.
    Lemma to_not_j k q : path c k q -> q <> j.
    Proof. intros H ->. destruct (path_last _ _ _ H) as (z & E). now apply NE in E. Qed.
    Lemma R_trans x y z : R x y -> R y z -> R x z.
    Proof.
      intros [[Nx H]|[(a & La & -> & H)|(a & b & La & Lb & -> & -> & H)]] [[Ny K]|[(a' & La' & E & K)|(a' & b' & La' & Lb' & E & -> & K)]].
      - left. split; auto. eapply t_trans; eauto.
      - exfalso. apply (old_not_pos y a' La'); auto; [eapply to_not_j; eauto|]. now apply (path_occ c x y C).
      - exfalso. apply (old_not_pos y a' La'); auto; [eapply to_not_j; eauto|]. now apply (path_occ c x y C).
      - right. left. exists a. split; auto. split; auto. eapply t_trans; eauto.
      - exfalso. apply (old_not_pos y a' La'); auto; [eapply to_not_j; eauto|]. now apply (path_occ c j y C).
      - exfalso. apply (old_not_pos y a' La'); auto; [eapply to_not_j; eauto|]. now apply (path_occ c j y C).
      - exfalso. apply (old_not_pos (pos b) b Lb); auto. now apply (path_occ c (pos b) z C).
      - right. left. exists a. auto.
      - right. right. apply pos_inj in E; auto. subst. exists a, b'. repeat split; auto. eapply m_lt_trans; eauto.
    Qed.
    Lemma edge_R k q : edge c' k q -> R k q.
    Proof.
      intros E. apply HE in E as [E|[(a & La & -> & E)|(a & b & I & -> & ->)]].
      - destruct (Nat.eq_dec k j) as [->|Nk].
        + right. left. exists (nn - 1). split; [lia|]. split; [|now apply t_step]. unfold pos. destruct (Nat.eq_dec (S (nn - 1)) nn); lia.
        + left. split; auto. now apply t_step.
      - right. left. exists a. split; auto. split; auto. now apply t_step.
      - right. right. exists a, b. assert (X := OR a b I). repeat split; auto; try lia. now apply t_step.
    Qed.
    Lemma path_R k q : path c' k q <-> R k q.
    Proof.
      split; [induction 1; [now apply edge_R|eapply R_trans; eauto]|].
      intros [[Nk H]|[(a & La & -> & H)|(a & b & La & Lb & -> & -> & H)]].
      - eapply path_mono; eauto. intros x y E. apply HE. auto.
      - destruct (path_first _ _ _ H) as (z & E & X). assert (E' : edge c' (pos a) z) by (apply HE; right; left; eauto). destruct X as [->|X]; [now apply t_step|].
        apply t_trans with z; [now apply t_step|]. eapply path_mono; eauto. intros x y E1. apply HE. auto.
      - clear La Lb. induction H as [a b H|a b d _ IH1 _ IH2]; [apply t_step, HE; right; right; eauto|eapply t_trans; eauto].
    Qed.

    Lemma dec_clean : clean c'.
    Proof.
      intros k q E. assert (X : R k q) by now apply edge_R. destruct E as [L _]. destruct X as [[Nk H]|[(a & La & -> & H)|(a & b & La & Lb & -> & -> & H)]].
      - assert (O := path_occ c k q C H). assert (Q := to_not_j _ _ H). rewrite !pos_old by (try tauto; lia). tauto.
      - assert (O := path_occ c j q C H). assert (Q := to_not_j _ _ H). rewrite pos_lab by auto. rewrite pos_old by (try tauto; lia). split; [discriminate|tauto].
      - rewrite !pos_lab by auto. split; discriminate.
    Qed.

    Lemma net_dec : exists f, iso f (decF (net c) [j] m) (net c').
    Proof.
      set (f := fun x y : tid => (exists p, p < pgb /\ p <> j /\ c (ST p) <> 0 /\ x = [p] /\ y = [p]) \/ (exists a, a < nn /\ x = [j; a] /\ y = [pos a])). exists f. split.
      - intros x y [(p & L & Nj & O & -> & ->)|(a & L & -> & ->)]; cbn.
        + split; [left; split; [eauto|congruence]|]. exists p. rewrite pos_old; auto.
        + split; [right; exists a; auto|]. exists (pos a). split; auto. split; [now apply pos_lt|]. rewrite pos_lab by auto. discriminate.
      - intros x [[(p & -> & L & O) Nj]|(a & L & ->)].
        + exists [p]. left. exists p. repeat split; auto. congruence.
        + exists [pos a]. right. exists a. auto.
      - intros y (p & -> & L & O). destruct (dec_occ p L O) as [[Nj O']|(a & La & ->)]; [exists [p]; left; exists p; auto|exists [j; a]; right; exists a; auto].
      - intros x y y' [(p & L & Nj & O & -> & ->)|(a & L & -> & ->)] [(p' & L' & Nj' & O' & [= <-] & ->)|(a' & L' & [=] & ->)]; auto. subst. reflexivity.
      - intros x x' y [(p & L & Nj & O & -> & ->)|(a & L & -> & ->)] [(p' & L' & Nj' & O' & -> & [= E])|(a' & L' & -> & [= E])].
        + congruence.
        + exfalso. now apply (old_not_pos p a').
        + exfalso. symmetry in E. now apply (old_not_pos p' a) in E.
        + apply pos_inj in E; auto. congruence.
      - intros x y [(p & L & Nj & O & -> & ->)|(a & L & -> & ->)]; cbn.
        + rewrite pos_old by auto. reflexivity.
        + rewrite pos_lab by auto. destruct (Nat.eq_dec j j); [|congruence]. cbn. now rewrite Nat.sub_0_r.
      - intros x y x' y' F F'. split.
        + intros H. destruct F as [(p & L & Nj & O & -> & ->)|(a & L & -> & ->)], F' as [(p' & L' & Nj' & O' & -> & ->)|(a' & L' & -> & ->)]; cbn in H.
          * destruct H as [(_ & _ & _ & _ & p1 & q1 & [= <-] & [= <-] & H)|[(? & ? & _ & _ & [=] & _)|[(? & _ & [=] & _)|(? & _ & [=] & _)]]]. exists p, p'. split; auto. split; auto. apply path_R. left. auto.
          * destruct H as [(_ & (? & [=] & _) & _)|[(? & ? & _ & _ & [=] & _)|[(? & _ & [=] & _)|(k & _ & _ & _ & _ & p1 & q1 & [= <-] & [= <-] & H)]]]. exfalso. now apply to_not_j in H.
          * destruct H as [((? & [=] & _) & _)|[(? & ? & _ & _ & _ & [=] & _)|[(k & Lk & [= <-] & _ & _ & p1 & q1 & [= <-] & [= <-] & H)|(? & _ & [=] & _)]]]. exists (pos a), p'. split; auto. split; auto. apply path_R. right. left. eauto.
          * destruct H as [((? & [=] & _) & _)|[(k & l & _ & _ & [= <-] & [= <-] & H)|[(k & Lk & _ & (? & [=] & _) & _)|(k & Lk & _ & (? & [=] & _) & _)]]]. exists (pos a), (pos a'). split; auto. split; auto. apply path_R. right. right. exists a, a'. auto.
        + intros (p1 & q1 & E1 & E2 & H). apply path_R in H. destruct F as [(p & L & Nj & O & -> & ->)|(a & L & -> & ->)], F' as [(p' & L' & Nj' & O' & -> & ->)|(a' & L' & -> & ->)]; injection E1 as <-; injection E2 as <-; cbn.
          * destruct H as [[_ H]|[(a & La & E & _)|(a & b & La & _ & E & _)]]; [|exfalso; now apply (old_not_pos p a) in E|exfalso; now apply (old_not_pos p a) in E].
            left. repeat split; eauto 8; congruence.
          * exfalso. destruct H as [[_ H]|[(a & La & E & _)|(a & b & La & _ & E & _)]]; [|now apply (old_not_pos p a) in E|now apply (old_not_pos p a) in E].
            apply (old_not_pos (pos a') a' L'); auto; [eapply to_not_j; eauto|now apply (path_occ c p (pos a') C)].
          * destruct H as [[Nk H]|[(b & Lb & E & H)|(b & d & Lb & Ld & E & E' & H)]].
            -- exfalso. apply (old_not_pos (pos a) a L); auto. now apply (path_occ c (pos a) p' C).
            -- right. right. left. exists a. repeat split; eauto 8; congruence.
            -- exfalso. now apply (old_not_pos p' d) in E'.
          * destruct H as [[Nk H]|[(b & Lb & E & H)|(b & d & Lb & Ld & E & E' & H)]].
            -- exfalso. apply (old_not_pos (pos a) a L); auto. now apply (path_occ c (pos a) (pos a') C).
            -- exfalso. apply (old_not_pos (pos a') a' L'); auto; [eapply to_not_j; eauto|]. now apply (path_occ c j (pos a') C).
            -- apply pos_inj in E; auto. apply pos_inj in E'; auto. subst. right. left. exists b, d. auto.
    Qed.
  End Dec.
End Net.
