(** The expansion of a node distributes every method over its children; causes and pointers to causes are inverse to each other. *)
From Coq Require Import Sorting.Sorted.
From Verif Require Import Base Htn_problem Htn_spec To_spec Sog_model Sog_spec Sog_proof Sf_proof Tab_proof Pdt_model Pdt_spec.
From Verif Require Htn_model Htn_proof.

Lemma enum_in {A} (l : list A) i x : In (i, x) (enum l) <-> nth_error l i = Some x.
Proof. unfold enum. rewrite Sat_proof.combine_seq, Nat.sub_0_r. split; [tauto|]. intros H. split; [lia|auto]. Qed.
Lemma enum_snoc {A} (l : list A) x : enum (l ++ [x]) = enum l ++ [(length l, x)].
Proof.
  unfold enum. rewrite app_length. cbn [length]. rewrite Nat.add_1_r, seq_S. cbn [Nat.add]. assert (G : forall (a : list nat) (b : list A) y z, length a = length b -> combine (a ++ [y]) (b ++ [z]) = combine a b ++ [(y, z)]).
  { induction a as [|a0 a IH]; intros [|b0 b] y z H; cbn in *; try discriminate; auto. f_equal. apply IH. lia. }
  apply G. apply seq_length.
Qed.
Lemma enum_length {A} (l : list A) : length (enum l) = length l.
Proof. unfold enum. rewrite combine_length, seq_length. lia. Qed.
Lemma enum_nth {A} (l : list A) i : nth_error (enum l) i = option_map (pair i) (nth_error l i).
Proof.
  destruct (nth_error l i) eqn:E; cbn.
  - assert (L : i < length l) by (apply nth_error_Some; congruence). destruct (nth_error (enum l) i) as [[j y]|] eqn:E2; [|apply nth_error_None in E2; rewrite enum_length in E2; lia].
    unfold enum in E2. assert (N1 := nth_error_nth _ _ (0, a) E2). rewrite combine_nth in N1 by apply seq_length. rewrite seq_nth in N1 by auto. rewrite (nth_error_nth _ _ _ E) in N1. now rewrite <- N1.
  - apply nth_error_None. apply nth_error_None in E. rewrite enum_length. auto.
Qed.
Lemma enum_map_fst {A} (l : list A) : map fst (enum l) = seq 0 (length l).
Proof. unfold enum. assert (G : forall (a : list nat) (b : list A), length a = length b -> map fst (combine a b) = a) by (induction a as [|x a IH]; intros [|y b] H; cbn in *; try discriminate; auto; f_equal; apply IH; lia). apply G, seq_length. Qed.
Lemma enum_map_snd {A} (l : list A) : map snd (enum l) = l.
Proof. unfold enum. assert (G : forall (a : list nat) (b : list A), length a = length b -> map snd (combine a b) = b) by (induction a as [|x a IH]; intros [|y b] H; cbn in *; try discriminate; auto; f_equal; apply IH; lia). apply G, seq_length. Qed.

Lemma nodup_nth {A} (l : list A) i j x : NoDup l -> nth_error l i = Some x -> nth_error l j = Some x -> i = j.
Proof. intros N E1 E2. apply (proj1 (NoDup_nth_error l) N); [apply nth_error_Some; congruence|congruence]. Qed.
Lemma nodup_filter {A} (f : A -> bool) l : NoDup l -> NoDup (filter f l).
Proof. apply NoDup_filter. Qed.

Section Tree.
  Variables (P : problem) (C : sconf).
  Hypothesis WF : wf_problem P.
  Hypothesis CO : conf_ok P C.

  Lemma is_prim_iff t : is_prim P t = true <-> primitive P t.
  Proof.
    unfold is_prim, primitive. destruct (nth_error (p_prim P) t) as [b|] eqn:E.
    - rewrite (nth_error_nth _ _ _ E). split; congruence.
    - rewrite nth_overflow by (now apply nth_error_None). split; discriminate.
  Qed.
  Lemma methods_in t m : In m (methods_of P t) <-> exists me, nth_error (p_methods P) m = Some me /\ m_task me = t.
  Proof.
    unfold methods_of, Htn_model.task_to_methods. rewrite filter_In, in_seq. destruct (nth_error (p_methods P) m) as [me|] eqn:E.
    - rewrite Nat.eqb_eq. split; [intros [_ H]; eauto|]. intros (me' & [= <-] & H). split; auto. split; [lia|]. apply nth_error_Some. congruence.
    - split; [intros [_ H]; discriminate|]. intros (me' & H & _). discriminate.
  Qed.
  Lemma methods_nodup t : NoDup (methods_of P t).
  Proof. apply NoDup_filter, seq_NoDup. Qed.
  Lemma has_method t : nth_error (p_prim P) t = Some false -> nmeth P t <> 0.
  Proof.
    intros H. destruct (ok_covered P C CO t H) as (me & Hm & E). apply In_nth_error in Hm as (m & Hm). assert (I : In m (methods_of P t)) by (apply methods_in; eauto).
    unfold nmeth. destruct (methods_of P t); [destruct I|discriminate].
  Qed.

  (** ** Gathering *)
  Lemma gather_in abs m a mi : In (m, a, mi) (gather P abs) <-> exists t, nth_error abs a = Some t /\ nth_error (methods_of P t) mi = Some m.
  Proof.
    unfold gather. rewrite in_flat_map. split.
    - intros ([a' t] & H1 & H2). apply in_map_iff in H2 as ([mi' m'] & E & H2). injection E as <- <- <-. apply enum_in in H1, H2. eauto.
    - intros (t & H1 & H2). exists (a, t). split; [now apply enum_in|]. apply in_map_iff. exists (mi, m). split; auto. now apply enum_in.
  Qed.
  Lemma nodup_flat {A B} (f : A -> list B) l : (forall x, In x l -> NoDup (f x)) -> (forall i j x y z, nth_error l i = Some x -> nth_error l j = Some y -> In z (f x) -> In z (f y) -> i = j) -> NoDup (flat_map f l).
  Proof.
    induction l as [|a l IH]; intros H1 H2; cbn; [constructor|]. apply nodup_app_iff. split; [apply H1; now left|]. split.
    - apply IH; [intros x Hx; apply H1; now right|]. intros i j x y z E1 E2 I1 I2. specialize (H2 (S i) (S j) x y z E1 E2 I1 I2). lia.
    - intros z Z1 Z2. apply in_flat_map in Z2 as (b & Hb & Z2). apply In_nth_error in Hb as (j & Hj). specialize (H2 0 (S j) a b z eq_refl Hj Z1 Z2). lia.
  Qed.
  Lemma nodup_map_in {A B} (f : A -> B) l : NoDup l -> (forall x y, In x l -> In y l -> f x = f y -> x = y) -> NoDup (map f l).
  Proof.
    induction l as [|a l IH]; intros N H; cbn; [constructor|]. inversion N as [|? ? N1 N2]; subst. constructor.
    - intros I. apply in_map_iff in I as (b & E & I). apply N1. rewrite (H a b); auto; [now left|now right].
    - apply IH; auto. intros x y Hx Hy. apply H; now right.
  Qed.
  Lemma enum_nodup {A} (l : list A) : NoDup (enum l).
  Proof. apply (NoDup_map_inv fst). rewrite enum_map_fst. apply seq_NoDup. Qed.
  Definition key (x : nat * nat * nat) : nat * nat := (snd (fst x), snd x).
  Lemma gather_nodup abs : NoDup (map key (gather P abs)).
  Proof.
    apply nodup_map_in.
    - unfold gather. apply nodup_flat.
      + intros [a t] _. apply nodup_map_in; [apply enum_nodup|]. intros [x1 x2] [y1 y2] _ _ E. now injection E as <- <-.
      + intros i j [a t] [b u] z E1 E2 I1 I2. rewrite enum_nth in E1, E2. destruct (nth_error abs i) as [t'|]; [|discriminate]. destruct (nth_error abs j) as [u'|]; [|discriminate].
        cbn in E1, E2. injection E1 as <- <-. injection E2 as <- <-. apply in_map_iff in I1 as ([? ?] & <- & _). apply in_map_iff in I2 as ([? ?] & E & _). congruence.
    - intros [[m a] mi] [[m' a'] mi'] I1 I2 E. cbn in E. injection E as <- <-. apply gather_in in I1 as (t & E1 & E2). apply gather_in in I2 as (t' & E3 & E4).
      rewrite E1 in E3. injection E3 as <-. rewrite E2 in E4. now injection E4 as <-.
  Qed.

  (** ** Child tasks *)
  Lemma sins_in t l x : In x (sins t l) <-> x = t \/ In x l.
  Proof.
    assert (SY : x = t <-> t = x) by (split; auto). rewrite SY. clear SY. induction l as [|u r IH]; cbn [sins In]; [tauto|]. destruct (Nat.ltb t u); [cbn [In]; tauto|]. destruct (Nat.eqb_spec t u); cbn [In]; [subst; tauto|]. rewrite IH. tauto.
  Qed.
  Lemma sins_nodup t l : NoDup l -> StronglySorted lt l -> NoDup (sins t l) /\ StronglySorted lt (sins t l).
  Proof.
    intros N S. assert (S' : StronglySorted lt (sins t l)).
    { clear N. induction l as [|u r IH]; cbn [sins]; [repeat constructor|]. inversion S as [|? ? S1 S2]; subst. destruct (Nat.ltb_spec t u).
      - constructor; auto. constructor; [auto|]. rewrite Forall_forall in *. intros x Hx. specialize (S2 x Hx). lia.
      - destruct (Nat.eqb_spec t u); [auto|]. constructor; auto. rewrite Forall_forall in *. intros x Hx. apply sins_in in Hx as [->|Hx]; [lia|auto]. }
    split; auto. clear -S'. induction S' as [|a l' S IH F]; constructor; auto. intros I. rewrite Forall_forall in F. specialize (F a I). lia.
  Qed.
  Notation occs := (list (nat * nat * (nat * nat))).
  Lemma child_tasks_spec (occ : occs) c : (forall t, In t (child_tasks occ c) <-> exists k, In (c, t, k) occ) /\ NoDup (child_tasks occ c).
  Proof.
    unfold child_tasks. assert (G : forall l, NoDup l -> StronglySorted lt l -> (forall t, In t (fold_left (fun l '(v, t, _) => if Nat.eqb v c then sins t l else l) occ l) <-> In t l \/ exists k, In (c, t, k) occ) /\
      NoDup (fold_left (fun l '(v, t, _) => if Nat.eqb v c then sins t l else l) occ l)).
    { induction occ as [|[[v t] k] occ IH]; intros l N S; cbn [fold_left].
      - split; auto. intros t. split; auto. intros [H|(k & [])]; auto.
      - destruct (Nat.eqb_spec v c) as [->|NE].
        + destruct (sins_nodup t l N S) as [N' S']. destruct (IH _ N' S') as [I1 I2]. split; auto. intros u. rewrite I1, sins_in. split.
          * intros [[->|H]|(k' & H)]; [right; exists k; now left|auto|right; exists k'; now right].
          * intros [H|(k' & [E|H])]; [auto|injection E as -> ->; auto|right; eauto].
        + destruct (IH _ N S) as [I1 I2]. split; auto. intros u. rewrite I1. split; intros [H|(k' & H)]; auto; right; exists k'; [now right|]. destruct H as [E|H]; auto. congruence. }
    destruct (G []) as [G1 G2]; [constructor|constructor|]. split; auto. intros t. rewrite G1. cbn. tauto.
  Qed.
  Lemma child_causes_in (occ : occs) c t k : In k (child_causes occ c t) <-> In (c, t, k) occ.
  Proof.
    unfold child_causes. rewrite in_flat_map. split.
    - intros ([[v u] k'] & H & I). destruct (Nat.eqb_spec v c) as [->|]; [|destruct I]. destruct (Nat.eqb_spec u t) as [->|]; [|destruct I]. destruct I as [->|[]]. auto.
    - intros H. exists (c, t, k). split; auto. rewrite !Nat.eqb_refl. now left.
  Qed.
  Definition ckey (x : nat * nat * (nat * nat)) : nat * (nat * nat) := (fst (fst x), snd x).
  Lemma child_causes_nodup (occ : occs) c t : NoDup (map ckey occ) -> NoDup (child_causes occ c t).
  Proof.
    intros N. unfold child_causes. induction occ as [|[[v u] k] occ IH]; cbn; [constructor|]. cbn in N. inversion N as [|? ? N1 N2]; subst. specialize (IH N2).
    destruct (Nat.eqb_spec v c) as [->|]; auto. destruct (Nat.eqb_spec u t) as [->|]; auto. cbn. constructor; auto. intros I. apply child_causes_in in I. apply N1. apply in_map_iff. exists (c, t, k). auto.
  Qed.
  Lemma ckey_fun (occ : occs) v t t' k : NoDup (map ckey occ) -> In (v, t, k) occ -> In (v, t', k) occ -> t = t'.
  Proof.
    intros N I1 I2. apply In_nth_error in I1 as (i & I1). apply In_nth_error in I2 as (j & I2). assert (E : i = j).
    { apply (nodup_nth (map ckey occ) i j (v, k) N); rewrite nth_error_map; [rewrite I1|rewrite I2]; reflexivity. }
    subst j. congruence.
  Qed.

  (** ** Pointers *)
  Definition tasks_of (occ : occs) (c : nat) (pr : bool) : list nat := if pr then child_prims P occ c else child_abs P occ c.
  Lemma tasks_of_in occ c pr t : In t (tasks_of occ c pr) <-> is_prim P t = pr /\ exists k, In (c, t, k) occ.
  Proof.
    unfold tasks_of, child_prims, child_abs. destruct pr; rewrite filter_In, (proj1 (child_tasks_spec occ c) t); [tauto|]. destruct (is_prim P t); cbn; intuition congruence.
  Qed.
  Lemma tasks_of_nodup occ c pr : NoDup (tasks_of occ c pr).
  Proof. unfold tasks_of. destruct pr; apply NoDup_filter; apply child_tasks_spec. Qed.
  Lemma ptr_in n occ a m c k : In ((a, m, c), k) (ptr_table P n occ) <->
    c < n /\ exists t, nth_error (tasks_of occ c (cp_prim k)) (cp_task k) = Some t /\ nth_error (child_causes occ c t) (cp_cause k) = Some (a, m).
  Proof.
    unfold ptr_table. rewrite in_flat_map.
    assert (W : forall c pr ts, In ((a, m, c), k) (ptr_writes c pr ts occ) <-> cp_prim k = pr /\ exists t, nth_error ts (cp_task k) = Some t /\ nth_error (child_causes occ c t) (cp_cause k) = Some (a, m)).
    { intros c0 pr ts. unfold ptr_writes. rewrite in_flat_map. split.
      - intros ([ti t] & H1 & H2). apply in_map_iff in H2 as ([ci [a' m']] & E & H2). injection E as <- <- <-. apply enum_in in H1, H2. cbn. eauto.
      - intros (E & t & H1 & H2). exists (cp_task k, t). split; [now apply enum_in|]. apply in_map_iff. exists (cp_cause k, (a, m)). split; [destruct k; cbn in *; now subst|now apply enum_in]. }
    assert (W' : forall c' pr ts, In ((a, m, c), k) (ptr_writes c' pr ts occ) -> c' = c).
    { intros c0 pr ts H. unfold ptr_writes in H. apply in_flat_map in H as ([ti t] & _ & H). apply in_map_iff in H as ([ci [a' m']] & E & _). congruence. }
    split.
    - intros (c' & Hc & H). apply in_seq in Hc. assert (c' = c) by (apply in_app_or in H as [H|H]; eapply W'; eauto). subst c'. split; [lia|].
      apply in_app_or in H as [H|H]; apply W in H as [-> H]; exact H.
    - intros (Lc & H). exists c. split; [apply in_seq; lia|]. apply in_or_app. unfold tasks_of in H. destruct (cp_prim k) eqn:Ek; [left|right]; apply W; auto.
  Qed.
  Lemma ptr_fun n occ a m c k k' : NoDup (map ckey occ) -> In ((a, m, c), k) (ptr_table P n occ) -> In ((a, m, c), k') (ptr_table P n occ) -> k = k'.
  Proof.
    intros N H H'. apply ptr_in in H as (_ & t & T1 & T2). apply ptr_in in H' as (_ & t' & T1' & T2').
    assert (t' = t) by (eapply ckey_fun; eauto; apply child_causes_in; eapply nth_error_In; eauto). subst t'.
    assert (Q : cp_prim k = cp_prim k'). { assert (I1 := nth_error_In _ _ T1). assert (I2 := nth_error_In _ _ T1'). apply tasks_of_in in I1, I2. destruct I1, I2. congruence. }
    rewrite <- Q in T1'. assert (Q2 := nodup_nth _ _ _ _ (tasks_of_nodup occ c (cp_prim k)) T1 T1'). assert (Q3 := nodup_nth _ _ _ _ (child_causes_nodup occ c t N) T2 T2').
    destruct k, k'; cbn in *; congruence.
  Qed.
  Lemma find_ptr_iff d n occ a m c k : pn_ptr d = ptr_table P n occ -> NoDup (map ckey occ) -> (find_ptr d a m c = Some k <-> In ((a, m, c), k) (ptr_table P n occ)).
  Proof.
    intros E N. unfold find_ptr. rewrite E. destruct (find _ (rev (ptr_table P n occ))) as [[[[a' m'] c'] k']|] eqn:F.
    - apply find_some in F as [F1 F2]. apply in_rev in F1. apply andb_true_iff in F2 as [F2 F3]. apply andb_true_iff in F2 as [F2 F4]. apply Nat.eqb_eq in F2, F3, F4. subst a' m' c'.
      split; [intros [= <-]; auto|]. intros H. f_equal. eapply ptr_fun; eauto.
    - split; [discriminate|]. intros H. apply in_rev in H. apply (find_none _ _ F) in H. cbn in H. rewrite !Nat.eqb_refl in H. discriminate.
  Qed.

  (** ** Occurrences of subtasks at the children *)
  Lemma placed_inj n m asg : placed P (s_mto C) n m asg -> exists me o, nth_error (p_methods P) m = Some me /\ total_seq me o /\ length asg = length (m_subs me) /\
    placement n o (map (fun j => nth j asg 0) o) /\ (forall v, In v asg -> v < n) /\ NoDup asg.
  Proof.
    intros (me & o & E1 & E2 & E3 & (L & B & M)). exists me, o. destruct (ok_mto P C CO m me E1) as (o' & E4 & TS). unfold get in E2. rewrite E2 in E4. injection E4 as <-. repeat split; auto; try apply TS.
    - intros v Hv. apply In_nth_error in Hv as (j & Hj). assert (J : j < length (m_subs me)) by (rewrite <- E3; apply nth_error_Some; congruence). apply TS in J. apply B. apply in_map_iff. exists j. split; auto. now apply nth_error_nth.
    - apply NoDup_nth with (d := 0). intros i j Hi Hj E. rewrite E3 in Hi, Hj. apply TS in Hi, Hj. apply In_nth with (d := 0) in Hi as (x & Lx & Nx). apply In_nth with (d := 0) in Hj as (y & Ly & Ny).
      rewrite map_length in M. assert (Q : forall z, z < length o -> nth z (map (fun j => nth j asg 0) o) 0 = nth (nth z o 0) asg 0).
      { intros z Lz. rewrite (nth_indep _ 0 (nth 0 asg 0)) by (now rewrite map_length). apply (map_nth (fun j => nth j asg 0)). }
      destruct (lt_eq_lt_dec x y) as [[X|X]|X].
      + specialize (M x y X Ly). rewrite !Q, Nx, Ny in M by auto. lia.
      + congruence.
      + specialize (M y x X Lx). rewrite !Q, Nx, Ny in M by auto. lia.
  Qed.
  Lemma combine_in {A B} (l : list A) (r : list B) x y : In (x, y) (combine l r) <-> exists i, nth_error l i = Some x /\ nth_error r i = Some y.
  Proof.
    revert r. induction l as [|a l IH]; intros [|b r]; cbn [combine In].
    - split; [intros []|]. intros ([|i] & H & _); discriminate.
    - split; [intros []|]. intros ([|i] & H & _); discriminate.
    - split; [intros []|]. intros ([|i] & _ & H); discriminate.
    - rewrite IH. split.
      + intros [E|(i & H)]; [injection E as <- <-; exists 0; auto|exists (S i); auto].
      + intros ([|i] & H1 & H2); [injection H1 as <-; injection H2 as <-; now left|right; exists i; auto].
  Qed.
  Lemma forall2_nth {A B} (R : A -> B -> Prop) l r i x y : Forall2 R l r -> nth_error l i = Some x -> nth_error r i = Some y -> R x y.
  Proof. intros F. revert i. induction F as [|a b l r H F IH]; intros [|i] E1 E2; cbn in *; try discriminate; [congruence|eauto]. Qed.
  Lemma forall2_len {A B} (R : A -> B -> Prop) l r : Forall2 R l r -> length l = length r.
  Proof. induction 1; cbn; auto. Qed.
  Lemma forall2_nth_l {A B} (R : A -> B -> Prop) l r i x : Forall2 R l r -> nth_error l i = Some x -> exists y, nth_error r i = Some y /\ R x y.
  Proof. intros F. revert i. induction F as [|a b l r H F IH]; intros [|i] E1; cbn in *; try discriminate; [injection E1 as <-; eauto|eauto]. Qed.
  Lemma forall2_nth_r {A B} (R : A -> B -> Prop) l r i y : Forall2 R l r -> nth_error r i = Some y -> exists x, nth_error l i = Some x /\ R x y.
  Proof. intros F. revert i. induction F as [|a b l r H F IH]; intros [|i] E1; cbn in *; try discriminate; [injection E1 as <-; eauto|eauto]. Qed.

  (** Every subtask of the method has its own vertex. *)
  Definition fits (n m : nat) (asg : list nat) : Prop := exists me, nth_error (p_methods P) m = Some me /\ length asg = length (m_subs me) /\ (forall v, In v asg -> v < n) /\ NoDup asg.
  Lemma placed_fits n m asg : placed P (s_mto C) n m asg -> fits n m asg.
  Proof. intros H. destruct (placed_inj n m asg H) as (me & o & Em & _ & L & _ & B & ND). exists me. auto. Qed.

  Section Occ.
    Variables (n : nat) (ms : list (nat * nat * nat)) (asgs : list (list nat)).
    Hypothesis MN : NoDup (map key ms).
    Hypothesis PL : Forall2 (fits n) (map (fun '(m, _, _) => m) ms) asgs.

    Lemma pl_at m a mi asg : In ((m, a, mi), asg) (combine ms asgs) -> fits n m asg.
    Proof. intros H. apply combine_in in H as (i & H1 & H2). eapply (forall2_nth _ _ _ i m asg PL); auto. rewrite nth_error_map, H1. reflexivity. Qed.
    Lemma occ_of_ok m a mi asg : In ((m, a, mi), asg) (combine ms asgs) -> exists os me, occ_of P n ((m, a, mi), asg) = Some os /\ nth_error (p_methods P) m = Some me /\
      (forall v t k, In (v, t, k) os <-> k = (a, mi) /\ exists sub, nth_error (m_subs me) sub = Some t /\ nth_error asg sub = Some v) /\ NoDup (map ckey os).
    Proof.
      intros H. apply pl_at in H. destruct H as (me & Em & L & B & ND).
      unfold occ_of. unfold get at 1. rewrite Em. cbn [obind].
      destruct (omap_ok (fun '(sub, task) => v <- get asg sub ;; if Nat.ltb v n then Some (v, task, (a, mi)) else None) (enum (m_subs me))) as (os & Eo).
      { intros [sub t] Hs. apply enum_in in Hs. assert (Ls : sub < length asg) by (rewrite L; apply nth_error_Some; congruence). apply get_some in Ls as (v & Ev). rewrite Ev. cbn [obind].
        assert (Lv : v < n) by (apply B; eapply nth_error_In; exact Ev). apply Nat.ltb_lt in Lv. rewrite Lv. eauto. }
      exists os, me. split; auto. split; auto. apply omap_some in Eo.
      assert (SP : forall v t k, In (v, t, k) os <-> k = (a, mi) /\ exists sub, nth_error (m_subs me) sub = Some t /\ nth_error asg sub = Some v).
      { intros v t k. split.
        - intros I. destruct (forall2_in_r _ _ _ _ Eo I) as ([sub u] & Is & E). apply enum_in in Is. apply obind_some in E as (w & Ew & E). destruct (Nat.ltb w n); [|discriminate]. injection E as <- <- <-. split; auto. exists sub. auto.
        - intros (-> & sub & E1 & E2). destruct (forall2_in_l _ _ _ (sub, t) Eo) as (z & Iz & E); [now apply enum_in|]. unfold get in E. rewrite E2 in E. cbn [obind] in E. destruct (Nat.ltb v n); [|discriminate]. injection E as <-. auto. }
      split; auto. apply NoDup_nth_error. intros i j Li E. rewrite !nth_error_map in E. rewrite map_length in Li. destruct (nth_error os i) as [[[v t] k]|] eqn:Ei; [|apply nth_error_None in Ei; lia].
      destruct (nth_error os j) as [[[v' t'] k']|] eqn:Ej; [|discriminate]. cbn in E. injection E as <- <-.
      destruct (forall2_nth_r _ _ _ _ _ Eo Ei) as ([s1 u1] & N1 & F1). destruct (forall2_nth_r _ _ _ _ _ Eo Ej) as ([s2 u2] & N2 & F2). rewrite enum_nth in N1, N2.
      destruct (nth_error (m_subs me) i); [|discriminate]. destruct (nth_error (m_subs me) j); [|discriminate]. cbn in N1, N2. injection N1 as <- <-. injection N2 as <- <-.
      apply obind_some in F1 as (w1 & W1 & F1). apply obind_some in F2 as (w2 & W2 & F2). destruct (Nat.ltb w1 n); [|discriminate]. destruct (Nat.ltb w2 n); [|discriminate].
      injection F1 as E1 E2 E3. injection F2 as E4 E5 E6. subst. eapply nodup_nth; eauto.
    Qed.
    Lemma occurrences_ok : exists occ, occurrences P n ms asgs = Some occ /\ NoDup (map ckey occ) /\
      forall c t a mi, In (c, t, (a, mi)) occ <-> exists m asg me sub, In ((m, a, mi), asg) (combine ms asgs) /\ nth_error (p_methods P) m = Some me /\ nth_error (m_subs me) sub = Some t /\ nth_error asg sub = Some c.
    Proof.
      unfold occurrences. destruct (omap_ok (occ_of P n) (combine ms asgs)) as (os & Eo); [intros [[[m a] mi] asg] H; destruct (occ_of_ok m a mi asg H) as (x & _ & E & _); eauto|].
      rewrite Eo. cbn [obind]. exists (concat os). split; auto. apply omap_some in Eo.
      assert (SP : forall c t a mi, In (c, t, (a, mi)) (concat os) <-> exists m asg me sub, In ((m, a, mi), asg) (combine ms asgs) /\ nth_error (p_methods P) m = Some me /\ nth_error (m_subs me) sub = Some t /\ nth_error asg sub = Some c).
      { intros c t a mi. rewrite in_concat. split.
        - intros (o & Ho & I). destruct (forall2_in_r _ _ _ _ Eo Ho) as ([[[m a'] mi'] asg] & Ic & E). destruct (occ_of_ok m a' mi' asg Ic) as (x & me & Ex & Em & SP & _). assert (x = o) by congruence. subst x.
          apply SP in I as (E' & sub & H1 & H2). injection E' as <- <-. exists m, asg, me, sub. auto.
        - intros (m & asg & me & sub & Ic & Em & H1 & H2). destruct (forall2_in_l _ _ _ _ Eo Ic) as (o & Ho & E). destruct (occ_of_ok m a mi asg Ic) as (x & me' & Ex & Em' & SP & _). assert (x = o) by congruence. assert (me' = me) by congruence. subst x me'.
          exists o. split; auto. apply SP. split; auto. exists sub. auto. }
      split; auto. clear SP. rewrite concat_map, <- flat_map_concat_map. apply nodup_flat.
      - intros o Ho. destruct (forall2_in_r _ _ _ _ Eo Ho) as ([[[m a'] mi'] asg] & Ic & E). destruct (occ_of_ok m a' mi' asg Ic) as (x & me & Ex & Em & _ & N). assert (x = o) by congruence. now subst x.
      - intros i j o o' z Ei Ej I1 I2. destruct (forall2_nth_r _ _ _ _ _ Eo Ei) as ([[[m a] mi] asg] & N1 & F1). destruct (forall2_nth_r _ _ _ _ _ Eo Ej) as ([[[m' a'] mi'] asg'] & N2 & F2).
        destruct (occ_of_ok m a mi asg) as (x & me & Ex & _ & SP & _); [eapply nth_error_In; exact N1|]. destruct (occ_of_ok m' a' mi' asg') as (x' & me' & Ex' & _ & SP' & _); [eapply nth_error_In; exact N2|].
        assert (x = o) by congruence. assert (x' = o') by congruence. subst x x'. apply in_map_iff in I1 as ([[v t] k] & <- & I1). apply in_map_iff in I2 as ([[v' t'] k'] & E & I2). cbn in E. injection E as -> ->.
        apply SP in I1 as [-> _]. apply SP' in I2 as [E _]. injection E as -> ->.
        assert (K : forall i m a mi asg, nth_error (combine ms asgs) i = Some (m, a, mi, asg) -> nth_error (map key ms) i = Some (a, mi)).
        { clear. intros i. revert i asgs. induction ms as [|x l IH]; intros [|i] [|b r] m a mi asg H; cbn in *; try discriminate; [now injection H as -> ->|eauto]. }
        apply (nodup_nth (map key ms) i j (a', mi') MN); eapply K; eauto.
    Qed.
  End Occ.

  (** ** Inheritance of primitives *)
  Lemma index_of_ok t l : In t l -> exists i, index_of t l = Some i /\ nth_error l i = Some t.
  Proof.
    induction l as [|u r IH]; intros H; [destruct H|]. cbn [index_of]. destruct (Nat.eqb_spec t u) as [->|N]; [exists 0; auto|]. destruct H as [E|H]; [congruence|]. destruct (IH H) as (i & -> & E). exists (S i). auto.
  Qed.
  Section Inherit.
    Variables (n : nat) (occ : occs) (L : list nat).
    Hypothesis NP : 0 < n.
    Hypothesis ON : NoDup (map ckey occ).
    Hypothesis OB : forall c t k, In (c, t, k) occ -> c < n.
    Hypothesis LN : NoDup L.
    Hypothesis LP : forall p, In p L -> is_prim P p = true.
    Variable pick : picker.
    Hypothesis PK : forall p, exists c, pick n occ p = Some c /\ c < n.
    Definition base (c i : nat) : list cause := match nth_error (child_prims P occ c) i with Some t => causes_of occ c t | None => [] end.
    Definition blank (u : pnode) : Prop := pn_exp u = false /\ pn_ptr u = [] /\ pn_pos u = [] /\ pn_none u = None /\ pn_pvar u = [] /\ pn_avar u = [] /\ pn_mvar u = [].
    Record child_ok (k c : nat) (pos : list (nat * nat * nat)) (u : pnode) : Prop := {
      ch_abs : pn_abs u = child_abs P occ c;
      ch_ca : pn_ca u = map (causes_of occ c) (child_abs P occ c);
      ch_blank : blank u;
      ch_ext : exists ext, pn_prims u = child_prims P occ c ++ ext /\ forall x, In x ext -> exists i, i < k /\ nth_error L i = Some x;
      ch_nodup : NoDup (pn_prims u);
      ch_len : length (pn_cp u) = length (pn_prims u);
      ch_cp : forall i cs, nth_error (pn_cp u) i = Some cs -> exists inh, cs = base c i ++ inh /\
         forall j x, nth_error inh j = Some x -> exists p, x = (None, p) /\ nth_error pos p = Some (c, i, length (base c i) + j) }.
    Record inh_ok (k : nat) (chs : list pnode) (pos : list (nat * nat * nat)) : Prop := {
      ih_len : length chs = n;
      ih_ch : forall c u, nth_error chs c = Some u -> child_ok k c pos u;
      ih_pos : forall p c i j, nth_error pos p = Some (c, i, j) -> exists u cs, nth_error chs c = Some u /\ nth_error (pn_prims u) i = nth_error L p /\ nth_error (pn_cp u) i = Some cs /\ nth_error cs j = Some (None, p) }.
    Definition nonempty_but (chs : list pnode) (ex : option (nat * nat)) : Prop :=
      forall c u i cs, nth_error chs c = Some u -> nth_error (pn_cp u) i = Some cs -> ex <> Some (c, i) -> cs <> [].

    Lemma causes_of_length c t : length (causes_of occ c t) = length (child_causes occ c t).
    Proof. unfold causes_of. apply map_length. Qed.
    Lemma inh_start : inh_ok 0 (map (new_child P occ) (seq 0 n)) [] /\ nonempty_but (map (new_child P occ) (seq 0 n)) None.
    Proof.
      assert (G : forall c u, nth_error (map (new_child P occ) (seq 0 n)) c = Some u -> c < n /\ u = new_child P occ c).
      { intros c u E. rewrite nth_error_map in E. destruct (nth_error (seq 0 n) c) as [x|] eqn:Ex; [|discriminate]. injection E as <-. assert (Lc : c < n) by (rewrite <- (seq_length n 0); apply nth_error_Some; congruence).
        rewrite (nth_error_nth' _ 0) in Ex by (now rewrite seq_length). rewrite seq_nth in Ex by auto. injection Ex as <-. auto. }
      split; [constructor|].
      - now rewrite map_length, seq_length.
      - intros c u E. apply G in E as [Lc ->]. constructor; auto.
        + repeat split.
        + exists []. cbn. rewrite app_nil_r. split; auto. intros x [].
        + apply (tasks_of_nodup occ c true).
        + cbn. apply map_length.
        + intros i cs E. cbn in E. rewrite nth_error_map in E. unfold base. destruct (nth_error (child_prims P occ c) i); [|discriminate]. injection E as <-. exists []. rewrite app_nil_r. split; auto. intros [|j] x E; discriminate.
      - intros [|p] c i j E; discriminate.
      - intros c u i cs E1 E2 _. apply G in E1 as [Lc ->]. cbn in E2. rewrite nth_error_map in E2. destruct (nth_error (child_prims P occ c) i) as [t|] eqn:E; [|discriminate]. injection E2 as <-.
        assert (I : In t (tasks_of occ c true)) by (eapply nth_error_In; exact E). apply tasks_of_in in I as (_ & k & I). apply child_causes_in in I. intros Q. assert (Z := causes_of_length c t). rewrite Q in Z. destruct (child_causes occ c t); [destruct I|discriminate].
    Qed.
    Lemma child_ok_mono k k' c pos u : k <= k' -> child_ok k c pos u -> child_ok k' c pos u.
    Proof. intros H [A1 A2 A3 (ext & E & A4) A5 A6 A7]. constructor; auto. exists ext. split; auto. intros x Hx. destruct (A4 x Hx) as (i & Hi & E'). exists i. split; auto. lia. Qed.
    Lemma set_cases {A} (l l' : list A) i v j x : set l i v = Some l' -> nth_error l' j = Some x -> (j = i /\ x = v) \/ (j <> i /\ nth_error l j = Some x).
    Proof.
      intros S E. destruct (Nat.eq_dec j i) as [->|N]; [left; split; auto; assert (Q := get_set_eq _ _ _ _ S); unfold get in Q; congruence|right; split; auto].
      assert (Q := get_set_neq _ _ _ _ _ S (fun e => N (eq_sym e))). unfold get in Q. congruence.
    Qed.
    Lemma add_ok k chs pos p x0 d0 chs' : x0 < n -> inh_ok k chs pos -> nonempty_but chs None -> nth_error L k = Some p -> (forall c, c < n -> ~ In p (child_tasks occ c)) ->
      get chs x0 = Some d0 -> set chs x0 (add_prim d0 p) = Some chs' ->
      inh_ok (S k) chs' pos /\ nonempty_but chs' (Some (x0, length (pn_prims d0))) /\ nth_error chs' x0 = Some (add_prim d0 p) /\ index_of p (pn_prims (add_prim d0 p)) = Some (length (pn_prims d0)).
    Proof.
      intros X0 [I1 I2 I3] NE Lk NI G0 S0. unfold get in G0. assert (Z := get_set_eq _ _ _ _ S0). unfold get in Z.
      destruct (I2 x0 d0 G0) as [A1 A2 A3 (ext & E & A4) A5 A6 A7].
      assert (NP' : ~ In p (pn_prims d0)).
      { rewrite E. intros H. apply in_app_or in H as [H|H]; [apply filter_In in H as [H _]; exact (NI x0 X0 H)|]. destruct (A4 p H) as (i & Hi & E'). assert (i = k) by exact (nodup_nth L i k p LN E' Lk). lia. }
      assert (ND : NoDup (pn_prims d0 ++ [p])). { apply nodup_app_iff. split; auto. split; [repeat constructor; intros []|]. intros x H [<-|[]]; auto. }
      split; [constructor|split; [|split; auto]].
      - rewrite (set_length _ _ _ _ S0); auto.
      - intros c u Eu. destruct (set_cases _ _ _ _ _ _ S0 Eu) as [[-> ->]|[Nc Eu']]; [|apply (child_ok_mono k); [lia|auto]]. constructor; cbn; auto.
        + exists (ext ++ [p]). rewrite E, app_assoc. split; auto. intros x Hx. apply in_app_or in Hx as [Hx|[<-|[]]]; [destruct (A4 x Hx) as (i & Hi & E'); exists i; split; auto; lia|exists k; split; auto; lia].
        + rewrite !app_length. cbn. lia.
        + intros i cs Ec. destruct (lt_dec i (length (pn_cp d0))) as [Li|Li]; [rewrite nth_error_app1 in Ec by auto; auto|]. rewrite nth_error_app2 in Ec by lia. destruct (i - length (pn_cp d0)) eqn:Ei; [|destruct n0; discriminate].
          injection Ec as <-. exists []. rewrite app_nil_r. split; [|intros [|j] x E'; discriminate]. unfold base. assert (LE : nth_error (child_prims P occ x0) i = None) by (apply nth_error_None; assert (Z2 := f_equal (@length nat) E); rewrite app_length in Z2; lia). now rewrite LE.
      - intros q c i j Eq. destruct (I3 q c i j Eq) as (u & cs & U1 & U2 & U3 & U4). destruct (Nat.eq_dec c x0) as [->|Nc].
        + assert (u = d0) by congruence. subst u. exists (add_prim d0 p), cs. cbn. assert (Li : i < length (pn_cp d0)) by (apply nth_error_Some; congruence). rewrite !nth_error_app1 by lia. auto.
        + assert (Q := get_set_neq _ _ _ _ _ S0 (fun e => Nc (eq_sym e))). unfold get in Q. exists u, cs. rewrite Q. auto.
      - intros c u i cs Eu Ec X. destruct (set_cases _ _ _ _ _ _ S0 Eu) as [[-> ->]|[Nc Eu']]; [|apply (NE c u i cs); auto; discriminate]. cbn in Ec.
        destruct (lt_dec i (length (pn_cp d0))) as [Li|Li]; [rewrite nth_error_app1 in Ec by auto; apply (NE x0 d0 i cs); auto; discriminate|]. exfalso. rewrite nth_error_app2 in Ec by lia. destruct (i - length (pn_cp d0)) eqn:Ei; [|destruct n0; discriminate]. apply X. repeat f_equal. lia.
      - cbn. clear -NP'. induction (pn_prims d0) as [|x l IH]; cbn; [now rewrite Nat.eqb_refl|]. destruct (Nat.eqb_spec p x) as [->|]; [exfalso; apply NP'; now left|]. rewrite IH; auto. intros H. apply NP'. now right.
    Qed.
    Lemma update_ok k chs pos p c d i cs cp chs' ex : length pos = k -> inh_ok (S k) chs pos -> nonempty_but chs ex -> (ex = None \/ ex = Some (c, i)) -> nth_error L k = Some p ->
      nth_error chs c = Some d -> nth_error (pn_prims d) i = Some p -> get (pn_cp d) i = Some cs -> set (pn_cp d) i (cs ++ [(None, k)]) = Some cp -> set chs c (set_cp d cp) = Some chs' ->
      inh_ok (S k) chs' (pos ++ [(c, i, length cs)]) /\ nonempty_but chs' None.
    Proof.
      intros LPs [I1 I2 I3] NE EX Lk Ec Ei Gc Sc Su. unfold get in Gc.
      assert (PM : forall q x, nth_error pos q = Some x -> nth_error (pos ++ [(c, i, length cs)]) q = Some x). { intros q x H. rewrite nth_error_app1; auto. apply nth_error_Some. congruence. }
      destruct (I2 c d Ec) as [A1 A2 A3 A4 A5 A6 A7].
      assert (Zc := get_set_eq _ _ _ _ Sc). unfold get in Zc. assert (Zu := get_set_eq _ _ _ _ Su). unfold get in Zu.
      split; [constructor|].
      - rewrite (set_length _ _ _ _ Su); auto.
      - intros c' u Eu. assert (B : child_ok (S k) c' pos u \/ (c' = c /\ u = set_cp d cp)). { destruct (set_cases _ _ _ _ _ _ Su Eu) as [[-> ->]|[Nc Eu']]; auto. }
        destruct B as [[B1 B2 B3 B4 B5 B6 B7]|[-> ->]].
        + constructor; auto. intros i' cs' E'. destruct (B7 i' cs' E') as (inh & Ei' & Hi). exists inh. split; auto. intros j x Hj. destruct (Hi j x Hj) as (q & -> & Hq). exists q. auto.
        + constructor; cbn; auto.
          * rewrite (set_length _ _ _ _ Sc); auto.
          * intros i' cs' E'. destruct (set_cases _ _ _ _ _ _ Sc E') as [[-> ->]|[Ni E2]].
            { destruct (A7 i cs Gc) as (inh & Ei' & Hi). exists (inh ++ [(None, k)]). split; [rewrite Ei', app_assoc; auto|]. intros j x Hj. destruct (lt_dec j (length inh)) as [Lj|Lj].
              - rewrite nth_error_app1 in Hj by auto. destruct (Hi j x Hj) as (q & -> & Hq). exists q. auto.
              - rewrite nth_error_app2 in Hj by lia. destruct (j - length inh) eqn:Ej; [|destruct n0; discriminate]. injection Hj as <-. exists k. split; auto. rewrite nth_error_app2 by lia. replace (k - length pos) with 0 by lia. cbn. do 2 f_equal. rewrite Ei', app_length. lia. }
            { destruct (A7 i' cs' E2) as (inh & Ei' & Hi). exists inh. split; auto. intros j x Hj. destruct (Hi j x Hj) as (q & -> & Hq). exists q. auto. }
      - intros q c' i' j Eq. destruct (lt_dec q (length pos)) as [Lq|Lq].
        + rewrite nth_error_app1 in Eq by auto. destruct (I3 q c' i' j Eq) as (u & cs' & U1 & U2 & U3 & U4). destruct (Nat.eq_dec c' c) as [->|Nc].
          * assert (u = d) by congruence. subst u. exists (set_cp d cp). cbn. destruct (Nat.eq_dec i' i) as [->|Ni].
            { assert (cs' = cs) by congruence. subst cs'. exists (cs ++ [(None, k)]). rewrite nth_error_app1 by (apply nth_error_Some; congruence). auto. }
            { exists cs'. assert (Q := get_set_neq _ _ _ _ _ Sc (fun e => Ni (eq_sym e))). unfold get in Q. rewrite Q. auto. }
          * exists u, cs'. assert (Q := get_set_neq _ _ _ _ _ Su (fun e => Nc (eq_sym e))). unfold get in Q. rewrite Q. auto.
        + rewrite nth_error_app2 in Eq by lia. destruct (q - length pos) eqn:Ej; [|destruct n0; discriminate]. injection Eq as <- <- <-. assert (q = k) by lia. subst q. exists (set_cp d cp), (cs ++ [(None, k)]). cbn. rewrite Lk. repeat split; auto. rewrite nth_error_app2, Nat.sub_diag by lia. reflexivity.
      - intros c' u i' cs' Eu E' _. destruct (set_cases _ _ _ _ _ _ Su Eu) as [[-> ->]|[Nc Eu']].
        + cbn in E'. destruct (set_cases _ _ _ _ _ _ Sc E') as [[-> ->]|[Ni E2]]; [destruct cs; discriminate|]. apply (NE c d i' cs'); auto. destruct EX as [->| ->]; congruence.
        + apply (NE c' u i' cs'); auto. destruct EX as [->| ->]; congruence.
    Qed.
    Lemma inherit_one_ok k chs pos p : length pos = k -> inh_ok k chs pos -> nonempty_but chs None -> nth_error L k = Some p ->
      exists chs' pos', inherit_pick pick n occ (chs, pos) (k, p) = Some (chs', pos') /\ length pos' = S k /\ inh_ok (S k) chs' pos' /\ nonempty_but chs' None.
    Proof.
      intros LPs IO NE Lk. unfold inherit_pick.
      assert (PP : is_prim P p = true) by (apply LP; eapply nth_error_In; exact Lk).
      assert (MID : exists c chs1 d i ex, match find (fun c => memb p (child_tasks occ c)) (seq 0 n) with Some c => Some (c, chs) | None => c <- pick n occ p ;; d0 <- get chs c ;; chs' <- set chs c (add_prim d0 p) ;; Some (c, chs') end = Some (c, chs1) /\
         inh_ok (S k) chs1 pos /\ nonempty_but chs1 ex /\ (ex = None \/ ex = Some (c, i)) /\ nth_error chs1 c = Some d /\ index_of p (pn_prims d) = Some i /\ nth_error (pn_prims d) i = Some p).
      { destruct (find _ (seq 0 n)) as [c|] eqn:F.
        - apply find_some in F as [Hc M]. apply in_seq in Hc. apply memb_In in M. assert (Lc : c < length chs) by (rewrite (ih_len _ _ _ IO); lia). apply get_some in Lc as (d & Ed). unfold get in Ed.
          assert (IP : In p (pn_prims d)). { destruct (ch_ext _ _ _ _ (ih_ch _ _ _ IO c d Ed)) as (ext & -> & _). apply in_or_app. left. apply filter_In. auto. }
          apply index_of_ok in IP as (i & E1 & E2). exists c, chs, d, i, None. split; auto. split; [|auto 10]. constructor; [apply (ih_len _ _ _ IO)|intros c' u Eu; apply (child_ok_mono k); [lia|now apply (ih_ch _ _ _ IO)]|apply (ih_pos _ _ _ IO)].
        - assert (NI : forall c, c < n -> ~ In p (child_tasks occ c)). { intros c Lc H. apply memb_In in H. assert (Hc : In c (seq 0 n)) by (apply in_seq; lia). apply (find_none _ _ F) in Hc. cbn in Hc. congruence. }
          destruct (PK p) as (x0 & Ex & X0). rewrite Ex. cbn [obind]. assert (L0 : x0 < length chs) by (rewrite (ih_len _ _ _ IO); auto). destruct (get_some chs x0 L0) as (d0 & E0). destruct (set_some chs x0 (add_prim d0 p) L0) as (chs' & Es). rewrite E0. cbn [obind]. rewrite Es. cbn [obind].
          destruct (add_ok k chs pos p x0 d0 chs' X0 IO NE Lk NI E0 Es) as (H1 & H2 & H3 & H4). exists x0, chs', (add_prim d0 p), (length (pn_prims d0)), (Some (x0, length (pn_prims d0))). split; auto. split; auto. split; auto. split; auto. split; auto. split; auto.
          cbn. rewrite nth_error_app2, Nat.sub_diag by lia. reflexivity. }
      destruct MID as (c & chs1 & d & i & ex & -> & IO1 & NE1 & EX & Ed & Ei & Ni). cbn [obind]. unfold get at 1. rewrite Ed. cbn [obind]. rewrite Ei. cbn [obind].
      assert (Li : i < length (pn_cp d)) by (rewrite (ch_len _ _ _ _ (ih_ch _ _ _ IO1 c d Ed)); apply nth_error_Some; congruence). destruct (get_some _ _ Li) as (cs & Ecs). rewrite Ecs. cbn [obind].
      destruct (set_some _ _ (cs ++ [(None, k)]) Li) as (cp & Ecp). rewrite Ecp. cbn [obind]. assert (Lc : c < length chs1) by (apply nth_error_Some; congruence). destruct (set_some _ _ (set_cp d cp) Lc) as (chs' & Es). rewrite Es. cbn [obind].
      exists chs', (pos ++ [(c, i, length cs)]). split; auto. split; [rewrite app_length; cbn; lia|]. exact (update_ok k chs1 pos p c d i cs cp chs' ex LPs IO1 NE1 EX Lk Ed Ni Ecs Ecp Es).
    Qed.
    Lemma inherit_ok : exists chs pos, ofold (inherit_pick pick n occ) (enum L) (map (new_child P occ) (seq 0 n), []) = Some (chs, pos) /\ length pos = length L /\ inh_ok (length L) chs pos /\ nonempty_but chs None.
    Proof.
      assert (G : forall l r, L = l ++ r -> exists chs pos, ofold (inherit_pick pick n occ) (enum l) (map (new_child P occ) (seq 0 n), []) = Some (chs, pos) /\ length pos = length l /\ inh_ok (length l) chs pos /\ nonempty_but chs None).
      { induction l as [|x l IH] using rev_ind; intros r E.
        - destruct inh_start as [S1 S2]. exists (map (new_child P occ) (seq 0 n)), []. cbn. auto.
        - rewrite <- app_assoc in E. destruct (IH _ E) as (chs & pos & E1 & E2 & E3 & E4). rewrite enum_snoc, ofold_app, E1. cbn [obind ofold].
          destruct (inherit_one_ok (length l) chs pos x E2 E3 E4) as (chs' & pos' & E5 & E6 & E7 & E8); [rewrite E, nth_error_app2, Nat.sub_diag by lia; reflexivity|].
          exists chs', pos'. rewrite E5. cbn [obind]. rewrite app_length. cbn [length]. rewrite Nat.add_1_r. auto. }
      apply (G L []). now rewrite app_nil_r.
    Qed.
  End Inherit.
End Tree.
