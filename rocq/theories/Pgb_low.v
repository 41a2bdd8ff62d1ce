(** Proofs about Pgb_model: the orders of the methods, the values as lower bounds, their exactness, and the search. *)
From Coq Require Import ZArith.
From Verif Require Import Base Htn_problem Htn_model Htn_spec Htn_sem To_spec To_sem Tab_model Tab_thm Mix_model Mix_spec Mix_proof Mix_thm Sas_model Sas_spec Sas_proof Sas_ops Sas_run Pgb_model Pgb_spec Pgb_proof Pgb_run.
Local Open Scope Z_scope.

(** ** The orders of the subtasks *)
Lemma picks_length n ord j : forall subs l, picks n ord j subs = Some l -> length l = (length subs + j)%nat.
Proof.
  induction j as [|j IH]; intros subs l H; cbn [picks] in H; [injection H as <-; lia|]. apply obind_some in H as (k & _ & H). apply IH in H. rewrite app_length in H. cbn in H. lia.
Qed.
Lemma omap_len {A B} (f : A -> option B) l : forall r, omap f l = Some r -> length r = length l.
Proof.
  induction l as [|a l IH]; intros r H; cbn in H; [injection H as <-; auto|]. apply obind_some in H as (x & _ & H). apply obind_some in H as (y & E & H). injection H as <-. cbn. f_equal. auto.
Qed.
Lemma lead_le prim l : forall f, lead_prims prim l = Some f -> (f <= length l)%nat.
Proof.
  induction l as [|t l IH]; intros f H; cbn in H; [injection H as <-; lia|]. apply obind_some in H as (b & _ & H). destruct b; [|injection H as <-; lia]. apply obind_some in H as (n & E & H). injection H as <-. apply IH in E. cbn. lia.
Qed.
Lemma reorder_shape prim m s f : reorder prim m = Some (s, f) -> length s = length (m_subs m) /\ (f <= length s)%nat /\ forall x, In x s -> In x (m_subs m).
Proof.
  unfold reorder. intros H. destruct (m_subs m) as [|t [|t2 r]] eqn:E.
  - injection H as <- <-. auto.
  - apply obind_some in H as (b & _ & H). injection H as <- <-. split; auto. split; auto. destruct b; cbn; lia.
  - remember (t :: t2 :: r) as l. clear Heql E. destruct (m_ord m).
    + injection H as <- <-. rewrite rev_length. split; auto. split; [lia|]. intros x I. now apply in_rev.
    + apply obind_some in H as (subs & E1 & H). apply obind_some in H as (s' & E2 & H). apply obind_some in H as (f' & E3 & H). injection H as <- <-.
      apply picks_length in E1. apply lead_le in E3. assert (L := omap_len _ _ _ E2). cbn in E1. split; [lia|]. split; [lia|]. intros x I. destruct (omap_in _ _ _ _ E2 I) as (k & _ & G). unfold get in G. eapply nth_error_In; eauto.
Qed.
Lemma omap_nth {A B} (f : A -> option B) l : forall r i x, omap f l = Some r -> nth_error l i = Some x -> exists y, nth_error r i = Some y /\ f x = Some y.
Proof.
  induction l as [|a l IH]; intros r i x H E; destruct i; try discriminate; cbn in H; apply obind_some in H as (y & Ey & H); apply obind_some in H as (ys & Es & H); injection H as <-; cbn in *; [injection E as <-; eauto|eauto].
Qed.
Lemma order_shape P to rs : order_methods P to = Some rs -> forall m md, nth_error (p_methods P) m = Some md ->
  exists s off, get rs m = Some (s, off) /\ length s = length (m_subs md) /\ (off <= length s)%nat /\ forall x, In x s -> In x (m_subs md).
Proof.
  unfold order_methods. intros E m md Em. destruct (omap_nth _ _ _ _ _ E Em) as ([s off] & G & X). apply obind_some in X as ([s' f] & R & X). injection X as <- <-. destruct (reorder_shape _ _ _ _ R) as (A & B & C).
  exists s', (if to then f else O). split; auto. split; auto. split; auto. destruct to; lia.
Qed.
Lemma leading_unique P m p1 r1 p2 r2 : leading P m p1 -> leading P m p2 -> m_subs m = p1 ++ r1 -> m_subs m = p2 ++ r2 -> p1 = p2 /\ r1 = r2.
Proof.
  intros (r & E & HP & HN) (r' & E' & HP' & HN') E1 E2. rewrite E1 in E. apply app_inv_head in E. subst r. rewrite E2 in E'. apply app_inv_head in E'. subst r'. rewrite E1 in E2. clear E1.
  revert p2 HP' E2. induction p1 as [|a l IH]; intros [|b l'] HP' E; cbn in E; auto.
  - subst r1. exfalso. apply (HN b (l' ++ r2)); auto. apply HP'. now left.
  - subst r2. exfalso. apply (HN' a (l ++ r1)); auto. apply HP. now left.
  - injection E as -> E. destruct (IH (fun t J => HP t (or_intror J)) l') as [-> ->]; auto. intros; apply HP'; now right.
Qed.
Lemma order_total P : wf_problem P -> listed_in_order P -> exists rs, order_methods P true = Some rs /\
  forall m md prims rest, nth_error (p_methods P) m = Some md -> m_subs md = prims ++ rest -> leading P md prims -> get rs m = Some (rev (m_subs md), length prims).
Proof.
  intros WF LO. assert (X : forall i m, nth_error (p_methods P) i = Some m -> exists prims rest, m_subs m = prims ++ rest /\ leading P m prims /\ reorder (p_prim P) m = Some (rev (m_subs m), length prims)) by (exact (meth_lead P 1 WF LO (le_n 1))).
  destruct (omap_some (fun m => '(s, f) <- reorder (p_prim P) m ;; Some (s, f)) (p_methods P)) as (rs & E).
  { intros m I. apply In_nth_error in I as (i & E). destruct (X i m E) as (? & ? & _ & _ & ->). cbn. eauto. }
  exists rs. split; auto. intros m md prims rest Em Es LD. destruct (X m md Em) as (p' & r' & Es' & LD' & R). destruct (leading_unique P md _ _ _ _ LD LD' Es Es') as [-> ->].
  destruct (omap_nth _ _ _ _ _ E Em) as (y & G & Y). rewrite R in Y. cbn in Y. injection Y as <-. exact G.
Qed.
Lemma leading_ex P m : wf_method P m -> exists prims rest, m_subs m = prims ++ rest /\ leading P m prims.
Proof.
  intros WM. destruct (lead_some (p_prim P) (m_subs m) (wfm_subs P m WM)) as (f & Ef). destruct (lead_spec P _ _ Ef) as (A & B & C). exists (firstn f (m_subs m)), (skipn f (m_subs m)). split; [symmetry; apply firstn_skipn|]. exists (skipn f (m_subs m)). split; [symmetry; apply firstn_skipn|]. auto.
Qed.
Lemma places_rest (prims rest : list nat) i x : In (i, x) (places (rev (prims ++ rest)) (length prims)) <-> exists r1 r2, rest = r1 ++ x :: r2 /\ length r2 = i.
Proof.
  unfold places. rewrite rev_length, app_length. replace (length prims + length rest - length prims)%nat with (length rest) by lia. rewrite rev_app_distr, firstn_app, rev_length, Nat.sub_diag, firstn_O, app_nil_r.
  rewrite <- (rev_length rest), firstn_all. rewrite combine_seq_nth, Nat.sub_0_r. split.
  - intros [_ E]. apply nth_error_split in E as (l1 & l2 & E & <-). exists (rev l2), (rev l1). rewrite rev_length. split; auto. rewrite <- (rev_involutive rest), E, rev_app_distr. cbn. now rewrite <- app_assoc.
  - intros (r1 & r2 & -> & <-). split; [lia|]. rewrite rev_app_distr. cbn [rev]. rewrite <- app_assoc. cbn [app]. rewrite <- (rev_length r2). now rewrite nth_error_app2, Nat.sub_diag by lia.
Qed.

(** ** Bounds *)
Section Total.
Variable P : problem.
Hypothesis WP : wf_problem P.
Hypothesis AF : Mix_spec.actions_first P.
Variable rs : list (list nat * nat).
Hypothesis RT : forall m md prims rest, nth_error (p_methods P) m = Some md -> m_subs md = prims ++ rest -> leading P md prims -> get rs m = Some (rev (m_subs md), length prims).
Notation inv := (inv P rs).

Lemma lower T M q : inv T M q -> (forall t k p, carried P t k p -> at0 T t <= Z.of_nat k) /\
  (forall ts k p, stack P ts k p -> (length ts <= k \/ ts = [])%nat /\ forall r1 t r2, ts = r1 ++ t :: r2 -> at0 T t + Z.of_nat (length r2) <= Z.of_nat k).
Proof.
  intros I. apply carried_stack_min.
  - intros t k Pt L. rewrite (i_act _ _ _ _ _ I) by (now apply wf_prim). lia.
  - intros m prims rest k p Im Es LD Lk ST [IL IH]. apply In_nth_error in Im as (i & Em). assert (X := i_lo _ _ _ _ _ I i m Em). assert (G := RT i m prims rest Em Es LD). assert (Y := i_up _ _ _ _ _ I i m _ _ Em G).
    assert (LR : (length rest <= k)%nat) by (destruct IL as [| ->]; cbn; lia).
    unfold fval in Y. rewrite Es in Y. rewrite rev_length, app_length in Y. replace (length prims + length rest - length prims)%nat with (length rest) in Y by lia.
    destruct (mval_case T (m_task m) (length prims + length rest) (length prims) (places (rev (prims ++ rest)) (length prims)) 0) as [E|(j & x & J & E)]; [rewrite E in Y; lia|].
    apply places_rest in J as (r1 & r2 & Er & <-). assert (Z := IH r1 x r2 Er). destruct E as [E|[-> E]]; [|lia]. rewrite E in Y. assert (length rest = length r1 + S (length r2))%nat by (rewrite Er, app_length; reflexivity). lia.
  - intros k. split; auto. intros [|] ? ?; discriminate.
  - intros t ts k p q' L C IHC S [IL IHS]. split; [left; cbn; lia|]. intros [|u r1] x r2 E; cbn in E; injection E as <- E.
    + subst ts. lia.
    + eauto.
Qed.

Lemma stack_build (T : list Z) k : forall rest, (forall r1 t r2, rest = r1 ++ t :: r2 -> (length r2 < k)%nat /\ exists p, carried P t (k - length r2) p) -> exists p, stack P rest k p.
Proof.
  induction rest as [|t ts IH]; intros H; [exists []; constructor|]. destruct (H [] t ts eq_refl) as (L & p & C). destruct IH as (q & S). { intros r1 u r2 E. apply (H (t :: r1) u r2). cbn. now rewrite E. }
  exists (p ++ q). constructor; auto.
Qed.

(** Without recursion and empty methods the values are attained. *)
Lemma attained T M : inv T M [] -> acyclic_hierarchy P -> (forall m, In m (p_methods P) -> m_subs m <> []) -> (forall t, (t < length (p_prim P))%nat -> primitive P t \/ has_method P t) ->
  forall t, (t < length (p_prim P))%nat -> 1 <= at0 T t /\ exists p, carried P t (Z.to_nat (at0 T t)) p.
Proof.
  intros I (rank & AC) NE ALL. assert (X : forall n t, (rank t < n)%nat -> (t < length (p_prim P))%nat -> 1 <= at0 T t /\ exists p, carried P t (Z.to_nat (at0 T t)) p).
  2:{ intros t. apply (X (S (rank t))). lia. }
  induction n as [|n IH]; intros t Ln Lt; [lia|]. destruct (ALL t Lt) as [Pt|HM].
  - rewrite (i_act _ _ _ _ _ I) by (now apply wf_prim). split; [lia|]. exists [t]. constructor; auto.
  - assert (VAL : exists m md, nth_error (p_methods P) m = Some md /\ m_task md = t /\ at0 T t = at0 M m).
    { destruct (i_t _ _ _ _ _ I t HM) as [[]|E]. destruct (minv_in M (task_to_methods P t) int_max) as [Q|(m & Im & Q)].
      - destruct HM as (md & Im & <-). apply In_nth_error in Im as (m & Em). exists m, md. split; auto. split; auto. assert (B := i_bM _ _ _ _ _ I m). assert (LO := i_lo _ _ _ _ _ I m md Em). lia.
      - apply (Mix_proof.ttm_spec P) in Im as (md & Em & Et). exists m, md. split; auto. split; auto. congruence. }
    destruct VAL as (m & md & Em & Et & EV). assert (Im : In md (p_methods P)) by (eapply nth_error_In; eauto). assert (WM := wf_methods P WP md Im). destruct (leading_ex P md WM) as (prims & rest & Es & LD). assert (G := RT m md prims rest Em Es LD).
    assert (SUB : forall x, In x (m_subs md) -> 1 <= at0 T x /\ exists p, carried P x (Z.to_nat (at0 T x)) p) by (intros x Hx; apply IH; [specialize (AC md x Im Hx); rewrite Et in AC; lia|now apply (wfm_subs P md WM)]).
    destruct (i_m _ _ _ _ _ I m md _ _ Em G) as [[]|[F|[_ Z0]]].
    2:{ exfalso. specialize (NE md Im). destruct (m_subs md) as [|x l]; [congruence|]. specialize (SUB x (or_introl eq_refl)). specialize (Z0 x (or_introl eq_refl)). lia. }
    assert (F1 := fval_pos T (m_task md) (rev (m_subs md)) (length prims)). rewrite EV, F. split; auto. set (K := fval T (m_task md) (rev (m_subs md)) (length prims)) in *.
    assert (KR : Z.of_nat (length rest) <= K /\ forall r1 x r2, rest = r1 ++ x :: r2 -> at0 T x + Z.of_nat (length r2) <= K).
    { unfold K, fval. rewrite Es, rev_length, app_length. replace (length prims + length rest - length prims)%nat with (length rest) by lia. set (mv := mval T (m_task md) _ _ _ _). assert (M0 : 0 <= mv) by apply mval_ge. split; [lia|]. intros r1 x r2 Er.
      assert (Y : at0 T x - Z.of_nat (length prims + length rest) + Z.of_nat (length r2) + Z.of_nat (length prims) <= mv) by (apply mval_in, places_rest; eauto). lia. }
    destruct KR as [KL KR]. destruct (stack_build T (Z.to_nat K) rest) as (p & S).
    { intros r1 x r2 Er. specialize (KR r1 x r2 Er). destruct (SUB x) as (S1 & p & C); [rewrite Es, Er; apply in_or_app; right; apply in_or_app; right; now left|]. split; [lia|]. exists p. apply (proj1 (carried_mono P) _ _ _ C). lia. }
    exists (prims ++ p). rewrite <- Et. eapply c_meth; eauto. lia.
Qed.

(** Values in the range of int *)
Lemma fval_small T M q c : inv T M q -> small_refinements P int_max c -> forall m md s off, nth_error (p_methods P) m = Some md -> get rs m = Some (s, off) -> fval T (m_task md) s off <= int_max.
Proof.
  intros I (SR & SM) m md s off Em Es. assert (Im : In md (p_methods P)) by (eapply nth_error_In; eauto). assert (WM := wf_methods P WP md Im). destruct (leading_ex P md WM) as (prims & rest & Esub & LD). rewrite (RT m md prims rest Em Esub LD) in Es. injection Es as <- <-.
  unfold fval. rewrite rev_length. rewrite !Esub, !app_length. replace (length prims + length rest - length prims)%nat with (length rest) by lia.
  destruct (mval_case T (m_task md) (length prims + length rest) (length prims) (places (rev (prims ++ rest)) (length prims)) 0) as [E|(j & x & J & E)].
  - rewrite E. destruct rest as [|x rest]; [cbn; unfold int_max; lia|]. specialize (SM md x Im ltac:(rewrite Esub; apply in_or_app; right; now left)). rewrite Esub, app_length in SM. cbn [length] in *. lia.
  - apply places_rest in J as (r1 & r2 & Er & <-). assert (Hx : In x (m_subs md)) by (rewrite Esub, Er; apply in_or_app; right; apply in_or_app; right; now left). specialize (SM md x Im Hx). rewrite Esub, app_length in SM.
    assert (LR : length rest = (length r1 + S (length r2))%nat) by (rewrite Er, app_length; reflexivity).
    assert (TX : at0 T x <= Z.of_nat (c x) \/ at0 T x <= 1).
    { destruct (Nat.lt_ge_cases x (length (p_cost P))) as [L|L]; [right; rewrite (i_act _ _ _ _ _ I) by auto; lia|]. destruct (in_dec Nat.eq_dec x (map m_task (p_methods P))) as [H|H].
      - apply in_map_iff in H as (m' & Et & Im'). left. destruct (SR x) as (p & C); [exists m'; auto|]. exact (proj1 (lower T M q I) _ _ _ C).
      - right. rewrite (i_no _ _ _ _ _ I); auto; [lia|]. intros (m' & Im' & Et). apply H. apply in_map_iff. eauto. }
    destruct E as [E|[_ E]]; rewrite E; lia.
Qed.
End Total.
