(** Sets of states, maps, and partial executions of tasks. *)
From Verif Require Import Base Htn_problem Htn_spec Htn_proof To_spec To_sem Sas_spec Aut_model.

Lemma bst_eqb_eq s s' : bst_eqb s s' = true <-> s = s'.
Proof.
  revert s'. induction s as [|a s IH]; intros [|b s']; cbn; try (split; (discriminate || reflexivity)).
  rewrite andb_true_iff, eqb_true_iff, IH. split; [intros [-> ->]; reflexivity|]. intros E. injection E as -> ->. auto.
Qed.
Lemma rmem_In x R : rmem x R = true <-> In x R.
Proof.
  unfold rmem. rewrite existsb_exists. split.
  - intros (y & Hy & E). unfold pair_eqb in E. apply andb_true_iff in E as [E1 E2]. apply bst_eqb_eq in E1, E2. destruct x, y. cbn in *. now subst.
  - intros H. exists x. split; auto. unfold pair_eqb. apply andb_true_iff. split; now apply bst_eqb_eq.
Qed.
Lemma rmem_out x R : negb (rmem x R) = true <-> ~ In x R.
Proof. rewrite <- rmem_In, negb_true_iff. destruct (rmem x R); split; intros; congruence. Qed.
Lemma smem_In x l : smem x l = true <-> In x l.
Proof.
  unfold smem. rewrite existsb_exists. split.
  - intros (y & Hy & E). apply bst_eqb_eq in E. now subst.
  - intros H. exists x. split; auto. now apply bst_eqb_eq.
Qed.
Lemma smem_out x l : negb (smem x l) = true <-> ~ In x l.
Proof. rewrite <- smem_In, negb_true_iff. destruct (smem x l); split; intros; congruence. Qed.
Lemma union_In x R R' : In x (union R R') <-> In x R \/ In x R'.
Proof.
  unfold union. rewrite in_app_iff, filter_In, rmem_out. split; [tauto|]. intros [H|H]; [now left|]. destruct (rmem x R) eqn:E; [left; now apply rmem_In|].
  right. split; auto. rewrite <- rmem_In. congruence.
Qed.
Lemma covered_In R' R : covered R' R = true <-> forall x, In x R' -> In x R.
Proof. unfold covered. rewrite forallb_forall. split; intros H x Hx; apply rmem_In; auto. Qed.
Lemma is_zero_nil {A} (l : list A) : is_zero l = true <-> l = [].
Proof. destruct l; cbn; split; congruence. Qed.

Lemma ekey_eq k k' : ekey_eqb k k' = true <-> k = k'.
Proof.
  destruct k as [[[[a b] c] d] e], k' as [[[[a' b'] c'] d'] e']. unfold ekey_eqb. rewrite !andb_true_iff, !Nat.eqb_eq. split; [intros ((((-> & ->) & ->) & ->) & ->); reflexivity|].
  intros E. injection E. intros. subst. auto.
Qed.
Lemma vkey_eq k k' : vkey_eqb k k' = true <-> k = k'.
Proof.
  destruct k as [[a b] c], k' as [[a' b'] c']. unfold vkey_eqb. rewrite !andb_true_iff, !Nat.eqb_eq. split; [intros ((-> & ->) & ->); reflexivity|].
  intros E. injection E. intros. subst. auto.
Qed.
Lemma xkey_eq k k' : xkey_eqb k k' = true <-> k = k'.
Proof.
  destruct k as [[[a b] c] d], k' as [[[a' b'] c'] d']. unfold xkey_eqb. rewrite !andb_true_iff, !Nat.eqb_eq. split; [intros (((-> & ->) & ->) & ->); reflexivity|].
  intros E. injection E. intros. subst. auto.
Qed.

Section Maps.
  Context {K A : Type} (eqk : K -> K -> bool) (EQ : forall k k', eqk k k' = true <-> k = k').
  Lemma look_store m k (x : A) k' : look eqk (store eqk m k x) k' = if eqk k' k then Some x else look eqk m k'.
  Proof.
    induction m as [|(k0, x0) m IH]; cbn.
    - destruct (eqk k' k); reflexivity.
    - destruct (eqk k k0) eqn:E; cbn.
      + apply EQ in E. subst k0. destruct (eqk k' k); reflexivity.
      + rewrite IH. destruct (eqk k' k0) eqn:E0; [|reflexivity]. destruct (eqk k' k) eqn:E1; [|reflexivity]. apply EQ in E0, E1. subst. assert (Q := proj2 (EQ k0 k0) eq_refl). congruence.
  Qed.
  Lemma look_same m k (x : A) : look eqk (store eqk m k x) k = Some x.
  Proof. rewrite look_store. now rewrite (proj2 (EQ k k) eq_refl). Qed.
  Lemma look_other m k (x : A) k' : k' <> k -> look eqk (store eqk m k x) k' = look eqk m k'.
  Proof. intros N. rewrite look_store. destruct (eqk k' k) eqn:E; [|reflexivity]. apply EQ in E. contradiction. Qed.
  Lemma look_in m k (x : A) : look eqk m k = Some x -> In (k, x) m.
  Proof.
    induction m as [|(k0, x0) m IH]; cbn; [discriminate|]. destruct (eqk k k0) eqn:E; [|auto]. apply EQ in E. intros Q. injection Q as ->. subst. now left.
  Qed.
  Lemma look_none m k : look eqk m k = None -> forall x : A, ~ In (k, x) m.
  Proof.
    induction m as [|(k0, x0) m IH]; cbn; [tauto|]. destruct (eqk k k0) eqn:E; [discriminate|]. intros Q x [H|H]; [|now apply (IH Q x)].
    injection H as -> ->. assert (Z := proj2 (EQ k k) eq_refl). congruence.
  Qed.
  Lemma store_keys m k (x : A) k' : In k' (map fst (store eqk m k x)) <-> In k' (map fst m) \/ k' = k.
  Proof.
    induction m as [|(k0, x0) m IH]; cbn; [intuition congruence|]. destruct (eqk k k0) eqn:E; cbn.
    - apply EQ in E. subst k0. intuition congruence.
    - rewrite IH. intuition congruence.
  Qed.
  Lemma store_in m k (x : A) k' x' : In (k', x') (store eqk m k x) -> In (k', x') m \/ (k' = k /\ x' = x).
  Proof.
    induction m as [|(k0, x0) m IH]; cbn; [intros [E|[]]; injection E as <- <-; auto|]. destruct (eqk k k0) eqn:E; cbn.
    - intros [Q|Q]; [injection Q as <- <-; auto|auto].
    - intros [Q|Q]; [auto|]. destruct (IH Q); auto.
  Qed.
  Lemma store_nodup m k (x : A) : NoDup (map fst m) -> NoDup (map fst (store eqk m k x)).
  Proof.
    induction m as [|(k0, x0) m IH]; cbn; intros N; [constructor; [tauto|constructor]|]. inversion N as [|? ? N1 N2]; subst. destruct (eqk k k0) eqn:E; cbn.
    - apply EQ in E. subst k0. constructor; auto.
    - constructor; [|auto]. rewrite store_keys. intros [H|H]; [auto|]. subst k0. assert (Z := proj2 (EQ k k) eq_refl). congruence.
  Qed.
  Lemma look_nodup m k (x : A) : NoDup (map fst m) -> In (k, x) m -> look eqk m k = Some x.
  Proof.
    induction m as [|(k0, x0) m IH]; cbn; intros N I; [destruct I|]. inversion N as [|? ? N1 N2]; subst. destruct I as [E|I].
    - injection E as -> ->. now rewrite (proj2 (EQ k k) eq_refl).
    - destruct (eqk k k0) eqn:E; [|auto]. apply EQ in E. subst k0. exfalso. apply N1. apply in_map_iff. exists (k, x). auto.
  Qed.
End Maps.

Section Sem.
  Variable P : problem.
  Hypothesis WF : wf_problem P.
  Hypothesis AF : actions_first P.

  Definition bstep (a : nat) (s : bst) : option bst :=
    prec <- get (p_prec P) a ;; add <- get (p_add P) a ;; del <- get (p_del P) a ;;
    if all_bits s prec then Some (next_bst s add del) else None.
  Definition brun : list nat -> bst -> option bst := ofold (fun s a => bstep a s).

  Lemma brun_app l l' s : brun (l ++ l') s = s' <- brun l s ;; brun l' s'.
  Proof. revert s. unfold brun. induction l as [|a l IH]; intros s; cbn; [reflexivity|]. destruct (bstep a s) as [s1|]; cbn; [apply IH|reflexivity]. Qed.

  Lemma image_of_In a R next : image_of P a R = Some next -> forall s' q, In (s', q) next <-> exists s, In (s, q) R /\ bstep a s = Some s'.
  Proof.
    unfold image_of, bstep. intros E. apply obind_some in E as (prec & E1 & E). apply obind_some in E as (add & E2 & E). apply obind_some in E as (del & E3 & E). injection E as <-.
    rewrite E1, E2, E3. cbn. intros s' q. rewrite in_map_iff. split.
    - intros ((s, q0) & E & H). apply filter_In in H as [H1 H2]. cbn in *. injection E as <- <-. exists s. rewrite H2. auto.
    - intros (s & H & E). destruct (all_bits s prec) eqn:A; [|discriminate]. injection E as <-. exists (s, q). split; [reflexivity|]. apply filter_In. auto.
  Qed.

  (** Bits and states *)
  Definition rep (s : bst) (S : state) : Prop := length s = p_nfacts P /\ forall f, S f <-> bit s f = true.
  Lemma nth_bits (g : nat -> bool) n f : nth f (map g (seq 0 n)) false = true <-> f < n /\ g f = true.
  Proof.
    destruct (Nat.lt_ge_cases f n) as [L|L].
    - rewrite (nth_indep _ false (g 0)) by (now rewrite map_length, seq_length). rewrite map_nth, seq_nth by auto. cbn. tauto.
    - rewrite nth_overflow by (now rewrite map_length, seq_length). split; [discriminate|lia].
  Qed.
  Lemma rep_s0 : rep (s0_bst P) (initial_state P).
  Proof.
    unfold s0_bst, rep. rewrite map_length, seq_length. split; [reflexivity|]. intros f. unfold initial_state, bit. rewrite nth_bits, memb_In. split; [|tauto].
    intros H. split; [apply (wf_s0 P WF f H)|exact H].
  Qed.
  Lemma bit_lt s f : bit s f = true -> f < length s.
  Proof. unfold bit. intros H. destruct (Nat.lt_ge_cases f (length s)); auto. rewrite nth_overflow in H; [discriminate|auto]. Qed.
  Lemma rep_step a s s' S : rep s S -> bstep a s = Some s' -> applicable P S a /\ rep s' (result P S a).
  Proof.
    intros [L B] E. unfold bstep in E. apply obind_some in E as (prec & E1 & E). apply obind_some in E as (add & E2 & E). apply obind_some in E as (del & E3 & E).
    destruct (all_bits s prec) eqn:A; [|discriminate]. injection E as <-. unfold all_bits in A. rewrite forallb_forall in A. unfold get in *. split.
    - intros f (l & El & Hl). apply B. apply A. congruence.
    - split; [unfold next_bst; now rewrite map_length, seq_length|]. intros f. unfold result, next_bst. unfold bit at 1. rewrite nth_bits, orb_true_iff, andb_true_iff, negb_true_iff, memb_In, memb_false, <- B. split.
      + intros H. split.
        * rewrite L. destruct H as [(l & El & Hl)|[H _]]; [apply (wf_facts P WF l f); auto; right; left; eapply nth_error_In; eauto|].
          rewrite <- L. apply bit_lt. now apply B.
        * destruct H as [(l & El & Hl)|[H D]]; [left; congruence|right]. split; [exact H|]. intros Q. apply D. exists del. auto.
      + intros [_ [H|[H D]]]; [left; exists add; auto|right]. split; [exact H|]. intros (l & El & Hl). apply D. congruence.
  Qed.
  Lemma rep_run plan : forall s s' S, rep s S -> brun plan s = Some s' -> executable P S plan /\ rep s' (after P S plan).
  Proof.
    induction plan as [|a plan IH]; intros s s' S R E; cbn in *; [injection E as <-; auto|]. apply obind_some in E as (s1 & E1 & E).
    destruct (rep_step a s s1 S R E1) as [A R1]. destruct (IH s1 s' _ R1 E) as [X R']. auto.
  Qed.
  Lemma rep_goal s S : rep s S -> all_bits s (p_goal P) = true -> goal_state P S.
  Proof. intros [_ B] A f F. apply B. unfold all_bits in A. rewrite forallb_forall in A. auto. Qed.

  (** The task [t] can be carried out from [s] to [s'] with the given actions. *)
  Definition fin (t : nat) (s s' : bst) (pl : list nat) : Prop := (exists h, derives P h t pl) /\ brun pl s = Some s'.
  (** Carrying out [T] from [S], one can get to the point where [t] alone is left and the state is [s]. *)
  Inductive tail (T : nat) (S : bst) : nat -> bst -> list nat -> Prop :=
  | tail_id : tail T S T S []
  | tail_unit t s pl me u : tail T S t s pl -> In me (p_methods P) -> m_task me = t -> m_subs me = [u] -> total_seq me [0] -> tail T S u s pl
  | tail_two t s pl me a b s' pl' : tail T S t s pl -> In me (p_methods P) -> m_task me = t -> m_subs me = [a; b] -> total_seq me [0; 1] -> fin a s s' pl' ->
      tail T S b s' (pl ++ pl').

  Lemma fin_act a s s' : a < length (p_cost P) -> bstep a s = Some s' -> fin a s s' [a].
  Proof. intros L E. split; [exists 0; left; split; [now apply AF|reflexivity]|]. cbn. now rewrite E. Qed.
  Lemma tail_fin T S t s pl : tail T S t s pl -> forall s' pl', fin t s s' pl' -> fin T S s' (pl ++ pl').
  Proof.
    induction 1 as [|t s pl me u H IH I1 I2 I3 TS|t s pl me a b s1 pl1 H IH I1 I2 I3 TS F1]; intros s' pl' F; [exact F| |].
    - apply IH. destruct F as ((h & D) & R). split; [|exact R]. exists (Datatypes.S h). right. exists me, [0], [pl']. repeat (split; [assumption|]). split; [|cbn; now rewrite app_nil_r].
      constructor; [|constructor]. exists u. rewrite I3. auto.
    - rewrite <- app_assoc. apply IH. destruct F as ((h & D) & R). destruct F1 as ((h1 & D1) & R1). split; [|rewrite brun_app, R1; exact R].
      exists (Datatypes.S (Nat.max h1 h)). right. exists me, [0; 1], [pl1; pl']. repeat (split; [assumption|]). split; [|cbn; now rewrite app_nil_r].
      constructor; [|constructor; [|constructor]].
      + exists a. rewrite I3. split; [reflexivity|]. eapply derives_mono; [|exact D1]. lia.
      + exists b. rewrite I3. split; [reflexivity|]. eapply derives_mono; [|exact D]. lia.
  Qed.
End Sem.
