(** Absence of undefined behaviour and termination of the progression operations: with enough fuel, [apply], [decompose] and a
    search with any number of iterations are defined. *)
From Coq Require Import Relations.
From Verif Require Import Base Rel Htn_model Htn_spec Htn_sem Htn_iso Htn_rep Htn_proof Htn_search Htn_hist.

(** ** More fuel does not change a result *)
Lemma elim_loop_mono h f f' pf pp dn r : f <= f' -> elim_loop f h pf pp dn = Some r -> elim_loop f' h pf pp dn = Some r.
Proof.
  revert f' pf pp dn. induction f as [|f IH]; intros f' pf pp dn L H; destruct f' as [|f']; try lia; auto;
  destruct pf as [|a pf]; auto; destruct pp as [|b pp]; auto; simpl in *; try discriminate.
  apply obind_some in H as (ss & E & H). rewrite E. simpl. apply IH; auto. lia.
Qed.
Lemma new_firsts_mono perm f f' h n t ps r : f <= f' -> new_firsts perm f h n t ps = Some r -> new_firsts perm f' h n t ps = Some r.
Proof.
  intros L H. unfold new_firsts in *. inv_opt. rewrite E. simpl. rewrite E0. simpl. rewrite E1. simpl.
  rewrite (elim_loop_mono _ _ _ _ _ _ _ L E2). simpl. congruence.
Qed.
Lemma apply1_mono P perm pe f f' w n t r : f <= f' -> apply1 P perm pe f w n t = Some r -> apply1 P perm pe f' w n t = Some r.
Proof.
  intros L H. unfold apply1 in *.
  apply obind_some in H as (x & E & H). rewrite E. simpl.
  apply obind_some in H as (ps & E0 & H). rewrite E0. simpl.
  apply obind_some in H as (s' & E1 & H). rewrite E1. simpl.
  apply obind_some in H as (nf & E2 & H). rewrite (new_firsts_mono _ _ _ _ _ _ _ _ L E2). exact H.
Qed.

Lemma apply_mono P C f :
  (forall f' w n t r, f <= f' -> apply P C f w n t = Some r -> apply P C f' w n t = Some r) /\
  (forall f' w n a r, f <= f' -> eff_loop P C f w n a = Some r -> eff_loop P C f' w n a = Some r).
Proof.
  induction f as [|f (IA & IE)]; split.
  - intros f' w n t r L H. discriminate.
  - intros [|f'] w n [i|] r L H; auto. simpl in H. discriminate.
  - intros [|f'] w n t r L H; [lia|]. cbn [apply] in *.
    apply obind_some in H as ((w1 & r1) & E1 & H).
    rewrite (apply1_mono _ _ _ f f' _ _ _ _ ltac:(lia) E1). cbn [obind].
    apply obind_some in H as ((w2 & r2) & E2 & H).
    assert (E2' : (if c_eff C then let '(w1', ac) := eff_first w1 in eff_loop P C f' w1' r1 ac else Some (w1, r1)) = Some (w2, r2)).
    { destruct (c_eff C); auto. destruct (eff_first w1) as [w1' ac]. eapply IE; [|exact E2]. lia. }
    rewrite E2'. cbn [obind]. destruct (c_one C); auto. destruct (n_abs r2); auto. destruct (n_prim r2); auto.
    apply obind_some in H as (o & E3 & H). rewrite E3. cbn [obind]. destruct o; auto. eapply IA; [|exact H]. lia.
  - intros [|f'] w n [i|] r L H; [lia|lia| |auto].
    cbn [eff_loop] in *. apply obind_some in H as ((w1 & r1) & E1 & H).
    rewrite (IA f' _ _ _ _ ltac:(lia) E1). cbn [obind]. destruct (eff_next w1) as [w2 ac']. eapply IE; [|exact H]. lia.
Qed.

Lemma one_mod_mono P C f f' w n r : f <= f' -> one_mod P C f w n = Some r -> one_mod P C f' w n = Some r.
Proof.
  intros L H. unfold one_mod in *. destruct (c_one C); auto. destruct (n_abs n); auto. destruct (n_prim n); auto.
  apply obind_some in H as (o & E3 & H). rewrite E3. cbn [obind]. destruct o; auto. eapply (proj1 (apply_mono P C f)); eauto.
Qed.

Lemma decompose_mono P C f f' w n t mi r : f <= f' -> decompose P C f w n t mi = Some r -> decompose P C f' w n t mi = Some r.
Proof.
  intros L H. unfold decompose in *.
  apply obind_some in H as ((w1 & r1) & E1 & H). rewrite E1. cbn [obind].
  apply obind_some in H as ((w2 & r2) & E2 & H).
  assert (E2' : (if c_eff C then let '(w1', ac) := eff_first w1 in eff_loop P C f' w1' r1 ac else Some (w1, r1)) = Some (w2, r2)).
  { destruct (c_eff C); auto. destruct (eff_first w1) as [w1' ac]. eapply (proj2 (apply_mono P C f)); eauto. }
  rewrite E2'. cbn [obind]. eapply one_mod_mono; eauto.
Qed.

(** ** The loop computing the new first tasks *)
Definition undone (h : list pstep) (dn : list nat) : nat := length (filter (fun i => negb (memb i dn)) (seq 0 (length h))).

Lemma filter_lt {A} (p q : A -> bool) l x : (forall y, In y l -> q y = true -> p y = true) -> In x l -> p x = true -> q x = false ->
  length (filter q l) < length (filter p l).
Proof.
  induction l as [|a l IH]; intros I Hx Px Qx; [destruct Hx|]. simpl.
  assert (LE : length (filter q l) <= length (filter p l)).
  { clear IH Hx. assert (I' : forall y, In y l -> q y = true -> p y = true) by (intros; apply I; simpl; auto). clear I.
    induction l as [|b l IH]; simpl; auto. assert (H : length (filter q l) <= length (filter p l)) by (apply IH; intros; apply I'; simpl; auto).
    destruct (q b) eqn:Q; [rewrite (I' b); simpl; auto; lia|]. destruct (p b); simpl; lia. }
  destruct Hx as [->|Hx].
  - rewrite Px, Qx. simpl. lia.
  - assert (H : length (filter q l) < length (filter p l)) by (apply IH; auto; intros; apply I; simpl; auto).
    destruct (q a) eqn:Q; [rewrite (I a); simpl; auto; lia|]. destruct (p a); simpl; lia.
Qed.

Lemma undone_lt h dn x : x < length h -> ~ In x dn -> undone h (x :: dn) < undone h dn.
Proof.
  intros Hx N. unfold undone. apply filter_lt with (x := x).
  - intros y _ H. simpl in *. destruct (Nat.eqb y x); simpl in *; [discriminate|exact H].
  - apply in_seq. lia.
  - rewrite (proj2 (memb_false x dn) N). reflexivity.
  - simpl. now rewrite Nat.eqb_refl.
Qed.
Lemma undone_eq h dn x : In x dn -> undone h (x :: dn) = undone h dn.
Proof.
  intros Hx. unfold undone. f_equal. apply filter_ext. intros y. simpl.
  destruct (Nat.eqb y x) eqn:E; simpl; auto. apply Nat.eqb_eq in E. subst. now rewrite (proj2 (memb_In x dn) Hx).
Qed.

Definition stack_ok (h : list pstep) (pp dn : list nat) : Prop :=
  forall a x b, pp = a ++ x :: b -> In x dn -> forall z, edge h x z -> In z dn \/ In z a.

Lemma elim_loop_total h : (forall i j, edge h i j -> j < length h) ->
  forall pf pp dn, (forall x, In x pp -> x < length h) -> stack_ok h pp dn ->
  exists f r, elim_loop f h pf pp dn = Some r.
Proof.
  intros HC pf pp dn. remember (undone h dn) as u eqn:Eu. revert pf pp dn Eu.
  induction u as [u IU] using lt_wf_ind. intros pf pp dn Eu HL HS. remember (length pp) as k eqn:Ek.
  revert pf pp dn Eu Ek HL HS. induction k as [|k IK]; intros pf pp dn Eu Ek HL HS.
  - destruct pp; [|discriminate]. exists 0, pf. destruct pf; reflexivity.
  - destruct pp as [|x pp]; [discriminate|]. destruct pf as [|p0 pf]; [exists 0, []; reflexivity|].
    destruct (get_some h x) as (ps & Gx); [apply HL; simpl; auto|].
    assert (SX : succ_of h x = Some (ps_succ ps)) by (unfold succ_of; now rewrite Gx).
    set (pf' := filter (fun y => negb (Nat.eqb y x)) (p0 :: pf)).
    set (new := filter (fun y => negb (memb y (x :: dn))) (ps_succ ps)).
    assert (HN : forall y, In y new <-> edge h x y /\ ~ In y (x :: dn)).
    { intros y. unfold new. rewrite filter_In, negb_true_iff, memb_false. unfold edge. rewrite Gx. split.
      - intros [H1 H2]. eauto.
      - intros [(q & [= <-] & H1) H2]. auto. }
    assert (HL' : forall y, In y (rev new ++ pp) -> y < length h).
    { intros y Hy. apply in_app_or in Hy as [Hy|Hy]; [|apply HL; simpl; auto]. apply in_rev in Hy. apply HN in Hy. eapply HC, Hy. }
    assert (STEP : exists f r, elim_loop f h pf' (rev new ++ pp) (x :: dn) = Some r).
    { destruct (in_dec Nat.eq_dec x dn) as [Hd|Hd].
      - assert (NE : new = []).
        { destruct new as [|y l] eqn:En; auto. exfalso. destruct (proj1 (HN y)) as [E1 E2]; [simpl; auto|].
          destruct (HS [] x pp eq_refl Hd y E1) as [F|[]]. apply E2. simpl; auto. }
        apply (IK pf' (rev new ++ pp) (x :: dn)).
        + now rewrite undone_eq.
        + rewrite NE. simpl in *. lia.
        + exact HL'.
        + rewrite NE. simpl. intros a y b E Hy z Ez. destruct (HS (x :: a) y b) with (z := z) as [Q|[Q|Q]]; simpl; auto.
          * now rewrite E.
          * destruct Hy as [->|]; auto.
      - apply (IU (undone h (x :: dn))) with (3 := HL'); auto.
        + rewrite Eu. apply undone_lt; auto. apply HL; simpl; auto.
        + intros a y b E Hy z Ez.
          assert (CASE : (exists c, a = rev new ++ c /\ pp = c ++ y :: b) \/ In y new).
          { assert (Q : forall l a, l ++ pp = a ++ y :: b -> (exists c, a = l ++ c /\ pp = c ++ y :: b) \/ In y l).
            { clear. induction l as [|p l IH]; intros a E; [left; exists a; auto|].
              destruct a as [|q a]; simpl in E; injection E as -> E; [simpl; auto|].
              destruct (IH a E) as [(c & -> & E')|H]; simpl; auto. left. exists c. auto. }
            destruct (Q _ _ E) as [H|H]; auto. right. now apply in_rev. }
          destruct CASE as [(c & -> & E2)|Hn].
          * destruct Hy as [<-|Hy].
            -- destruct (in_dec Nat.eq_dec z (x :: dn)); auto. right. apply in_or_app. left. apply in_rev. rewrite rev_involutive. apply HN. auto.
            -- destruct (HS (x :: c) y b) with (z := z) as [Q|[Q|Q]]; simpl; auto.
               ++ now rewrite E2.
               ++ right. apply in_or_app; auto.
          * apply HN in Hn as [_ Hn]. contradiction. }
    destruct STEP as (f & r & HF). exists (S f), r. simpl. rewrite SX. cbn [obind]. exact HF.
Qed.

(** ** Single operations *)
Lemma push_succs_total h l acc : (forall i, In i l -> i < length h) -> exists r, push_succs h l acc = Some r.
Proof.
  unfold push_succs. revert acc. induction l as [|x l IH]; intros acc H; simpl; eauto.
  destruct (get_some h x) as (ps & G); [apply H; simpl; auto|]. unfold succ_of at 1. rewrite G. simpl. apply IH.
  intros; apply H; simpl; auto.
Qed.

Lemma push_succs_lt h l acc r : (forall i j, edge h i j -> j < length h) -> push_succs h l acc = Some r ->
  (forall y, In y acc -> y < length h) -> forall y, In y r -> y < length h.
Proof.
  intros HC H HA y Hy. apply (push_succs_in _ _ _ _ H) in Hy as [Hy|(i & _ & Hy)]; eauto.
Qed.

Lemma remove_at_incl {A} i (l : list A) x : In x (remove_at i l) -> In x l.
Proof.
  unfold remove_at. intros H. rewrite <- (firstn_skipn i l). apply in_or_app.
  apply in_app_or in H as [H|H]; auto. right.
  destruct (skipn i l) as [|a r] eqn:E.
  - assert (L : length l <= i). { rewrite <- (firstn_skipn i l), E, app_nil_r. apply firstn_le_length. }
    rewrite skipn_all2 in H by lia. destruct H.
  - assert (SK : skipn (S i) l = r).
    { clear H. revert l E. induction i as [|i IH]; intros [|b l] E; simpl in *; try discriminate; [congruence|].
      apply (IH l E). }
    rewrite SK in H. simpl; auto.
Qed.

Lemma new_firsts_total P perm h n t ps : wf_heap P h -> (forall i, In i (heads n) -> i < length h) ->
  (exists x, get h x = Some ps) ->
  exists f r, new_firsts perm f h n t ps = Some r.
Proof.
  intros W HH (x & Gx).
  assert (HS : forall i, In i (ps_succ ps) -> i < length h).
  { intros i Hi. apply (wh_closed _ _ W x). exists ps. auto. }
  destruct (push_succs_total h (ps_succ ps) []) as (p1 & E1); auto.
  destruct (push_succs_total h (n_abs n) p1) as (p2 & E2); [intros; apply HH; apply in_or_app; auto|].
  destruct (push_succs_total h (remove_at t (n_prim n)) p2) as (p3 & E3).
  { intros i Hi. apply remove_at_incl in Hi. apply HH. apply in_or_app; auto. }
  pose proof (wh_closed _ _ W) as HC.
  destruct (elim_loop_total h HC (fold_left set_insert (ps_succ ps) []) p3 []) as (f & r & E).
  - apply (push_succs_lt _ _ _ _ HC E3), (push_succs_lt _ _ _ _ HC E2), (push_succs_lt _ _ _ _ HC E1). intros y [].
  - intros a y b _ [].
  - exists f, (perm r). unfold new_firsts. rewrite E1. simpl. rewrite E2. simpl. rewrite E3. simpl. rewrite E. reflexivity.
Qed.

Lemma split_prim_total P h l : wf_heap P h -> (forall i, In i l -> i < length h) -> exists a b, split_prim P h l = Some (a, b).
Proof.
  intros W. induction l as [|x l IH]; intros H; simpl; eauto.
  destruct (get_some h x) as (ps & G); [apply H; simpl; auto|]. unfold task_of at 1. rewrite G. simpl.
  destruct (get_some (p_prim P) (ps_task ps)) as (b & Gb); [eapply (wh_task _ _ W); eauto|]. rewrite Gb. simpl.
  destruct IH as (u & v & E); [intros; apply H; simpl; auto|]. rewrite E. simpl. destruct b; eauto.
Qed.

Lemma get_in {A} (l : list A) i x : get l i = Some x -> In x l.
Proof. apply nth_error_In. Qed.

Lemma isApplicable_total P s a : wf_problem P -> length s = p_nfacts P -> primitive P a -> exists b, isApplicable P s a = Some b.
Proof.
  intros WP L Pa. unfold isApplicable. pose proof (wf_prim _ WP _ Pa).
  destruct (get_some (p_prec P) a) as (pl & E); [rewrite (wf_prec _ WP); auto|]. rewrite E. simpl.
  apply all_true_total. intros f Hf. rewrite L. eapply (wf_facts _ WP); eauto. left. eapply get_in; eauto.
Qed.

Lemma apply_effects_total P s a : wf_problem P -> length s = p_nfacts P -> primitive P a -> exists s', apply_effects P a s = Some s'.
Proof.
  intros WP L Pa. unfold apply_effects. pose proof (wf_prim _ WP _ Pa).
  destruct (get_some (p_del P) a) as (dl & E); [rewrite (wf_del _ WP); auto|]. rewrite E. simpl.
  destruct (write_all_total false dl s) as (s1 & E1).
  { intros f Hf. rewrite L. eapply (wf_facts _ WP); eauto. right; right. eapply get_in; eauto. }
  rewrite E1. simpl. destruct (write_all_spec _ _ _ _ E1) as [L1 _].
  destruct (get_some (p_add P) a) as (al & E2); [rewrite (wf_add _ WP); auto|]. rewrite E2. simpl.
  apply write_all_total. intros f Hf. rewrite L1, L. eapply (wf_facts _ WP); eauto. right; left. eapply get_in; eauto.
Qed.

Lemma eff_indices_total P h s from l : wf_problem P -> length s = p_nfacts P ->
  (forall i, In i l -> exists ps, get h i = Some ps /\ primitive P (ps_task ps)) ->
  exists r, eff_indices P h s from l = Some r.
Proof.
  intros WP L. revert from. induction l as [|x l IH]; intros from H; simpl; eauto.
  destruct (H x) as (ps & G & Pa); [simpl; auto|]. unfold task_of at 1. rewrite G. simpl.
  assert (EA : exists b, effectless_applicable P s (ps_task ps) = Some b).
  { unfold effectless_applicable. pose proof (wf_prim _ WP _ Pa).
    destruct (get_some (p_add P) (ps_task ps)) as (al & E2); [rewrite (wf_add _ WP); auto|]. rewrite E2. simpl.
    destruct (get_some (p_del P) (ps_task ps)) as (dl & E3); [rewrite (wf_del _ WP); auto|]. rewrite E3. simpl.
    destruct al; eauto. destruct dl; eauto. now apply isApplicable_total. }
  destruct EA as (b & EA). rewrite EA. simpl. destruct (IH (S from)) as (r & E); [intros; apply H; simpl; auto|].
  rewrite E. simpl. destruct b; eauto.
Qed.

Lemma one_applicable_total P h s i l acc : wf_problem P -> length s = p_nfacts P ->
  (forall i, In i l -> exists ps, get h i = Some ps /\ primitive P (ps_task ps)) ->
  exists r, one_applicable P h s i l acc = Some r.
Proof.
  intros WP L. revert i acc. induction l as [|x l IH]; intros i acc H; simpl; eauto.
  destruct (H x) as (ps & G & Pa); [simpl; auto|]. unfold task_of at 1. rewrite G. simpl.
  destruct (isApplicable_total P s (ps_task ps) WP L Pa) as (b & Eb). rewrite Eb. simpl.
  assert (H' : forall i, In i l -> exists ps, get h i = Some ps /\ primitive P (ps_task ps)) by (intros; apply H; simpl; auto).
  destruct b; eauto. destruct acc; eauto.
Qed.

Section Total.
  Variables (P : problem) (C : config).
  Hypothesis WP : wf_problem P.
  Hypothesis HP : forall l, Permutation l (c_perm C l).

  Lemma rep_prim_get h n s tn pi i : Rep P h n s tn pi -> In i (n_prim n) ->
    exists ps, get h i = Some ps /\ primitive P (ps_task ps).
  Proof.
    intros R Hi. destruct (get_some h i) as (ps & G); [apply (r_lt _ _ _ _ _ _ R), in_or_app; auto|].
    exists ps. split; auto. eapply (r_prim _ _ _ _ _ _ R); eauto.
  Qed.

  Lemma apply1_total w n t s tn pi i : wf_heap P (w_heap w) -> Rep P (w_heap w) n s tn pi ->
    get (n_prim n) t = Some i -> n_sol n <> [] ->
    exists f r, apply1 P (c_perm C) (c_eff C) f w n t = Some r.
  Proof.
    intros W R Gi NS. destruct (rep_prim_get _ _ _ _ _ i R) as (ps & Gp & Pa); [eapply get_in; eauto|].
    destruct (apply_effects_total P (n_state n) (ps_task ps) WP (r_len _ _ _ _ _ _ R) Pa) as (s' & Es).
    destruct (new_firsts_total P (c_perm C) (w_heap w) n t ps W (r_lt _ _ _ _ _ _ R)) as (f & nf & En); [eauto|].
    destruct (new_firsts_spec _ _ _ _ _ _ _ _ HP (r_nodup _ _ _ _ _ _ R) Gi Gp En) as [_ NF].
    destruct (split_prim_total P (w_heap w) nf W) as (a & b & Esp).
    { intros y Hy. apply NF in Hy as [Hy _]. eapply (wh_closed _ _ W); eauto. }
    destruct (get_some (p_cost P) (ps_task ps)) as (c & Ec); [now apply (wf_prim _ WP)|].
    destruct (split_prim_spec _ _ _ _ _ Esp) as (_ & SP1 & _).
    assert (EI : exists eff, (if c_eff C then eff_indices P (w_heap w) s' 0 (remove_at t (n_prim n) ++ a) else Some (w_eff w)) = Some eff).
    { destruct (c_eff C); eauto. apply eff_indices_total; auto.
      - destruct (apply_effects_spec _ _ _ _ s Es (r_state _ _ _ _ _ _ R)) as [L _]. rewrite L. apply R.
      - intros y Hy. apply in_app_or in Hy as [Hy|Hy]; [|apply SP1; auto]. apply remove_at_incl in Hy. eapply rep_prim_get; eauto. }
    destruct EI as (eff & EI).
    exists f. unfold apply1. rewrite Gi. cbn [obind]. rewrite Gp. cbn [obind]. rewrite Es. cbn [obind]. rewrite En. cbn [obind].
    rewrite Esp. cbn [obind]. rewrite Ec. cbn [obind]. rewrite EI. cbn [obind]. destruct (n_sol n); [congruence|]. eauto.
  Qed.

  Lemma decompose1_total w n t s tn pi i ps m mi : wf_heap P (w_heap w) -> Rep P (w_heap w) n s tn pi ->
    get (n_abs n) t = Some i -> get (w_heap w) i = Some ps -> nth_error (p_methods P) mi = Some m ->
    exists r, decompose1 P (c_eff C) w n t mi = Some r.
  Proof.
    intros W R Gi Gp Gm. unfold decompose1. rewrite Gi. cbn [obind]. rewrite Gp. cbn [obind].
    unfold get at 1. rewrite Gm. cbn [obind].
    pose proof (wf_methods _ WP m (nth_error_In _ _ Gm)) as WM.
    assert (FB : forallb (fun o => (fst o <? length (m_subs m)) && (snd o <? length (m_subs m)))%bool (m_ord m) = true).
    { apply forallb_forall. intros (a & b) Hab. simpl. destruct (wfm_ord _ _ WM a b Hab). apply andb_true_intro. split; now apply Nat.ltb_lt. }
    rewrite FB. set (h' := w_heap w ++ method_steps m (length (w_heap w)) (w_inst w) (ps_succ ps)).
    assert (W' : wf_heap P h').
    { apply dec_wf_heap with (x := i); auto; [|apply WM]. split; [|apply WM]. intros j k Hjk. apply (wfm_ord _ _ WM). exact Hjk. }
    assert (LEN : length h' = length (w_heap w) + length (m_subs m)).
    { unfold h'. rewrite app_length, method_steps_length. reflexivity. }
    destruct (split_prim_total P h' (map (fun j => length (w_heap w) + j) (first_tasks m)) W') as (fp & fa & Es).
    { intros y Hy. apply in_map_iff in Hy as (j & <- & Hj). apply filter_In in Hj as [Hj _]. apply in_seq in Hj. lia. }
    rewrite Es. cbn [obind].
    destruct (split_prim_spec _ _ _ _ _ Es) as (_ & SP1 & _).
    assert (EI : exists eff, (if c_eff C then eff_indices P h' (n_state n) (length (n_prim n)) fp else Some (w_eff w)) = Some eff).
    { destruct (c_eff C); eauto. apply eff_indices_total; auto. apply R. }
    destruct EI as (eff & EI). rewrite EI. cbn [obind]. eauto.
  Qed.

  (** Finite networks. *)
  Definition atmost (tn : tnet) (k : nat) : Prop :=
    forall l, NoDup l -> (forall x, In x l -> t_in tn x) -> length l <= k.

  Lemma Rep_atmost h n s tn pi : wf_heap P h -> Rep P h n s tn pi -> atmost tn (length h).
  Proof.
    intros W R l N H. rewrite <- (seq_length (length h) 0), <- (map_length pi). apply NoDup_incl_length; auto.
    intros x Hx. apply H in Hx. apply (r_in _ _ _ _ _ _ R) in Hx as (i & Hi & <-). apply in_map, in_seq.
    split; [lia|]. simpl. eapply live_lt; eauto. apply R.
  Qed.
  Lemma minus_atmost tn x k : t_in tn x -> atmost tn (S k) -> atmost (minus tn x) k.
  Proof.
    intros Hx A l N H. assert (length (x :: l) <= S k); [|simpl in *; lia]. apply A.
    - constructor; auto. intros F. apply H in F as [_ F]. congruence.
    - intros y [<-|Hy]; auto. now apply H.
  Qed.
  Lemma atmost_0 tn x : t_in tn x -> ~ atmost tn 0.
  Proof.
    intros Hx A. assert (length [x] <= 0); [|simpl in *; lia]. apply A.
    - repeat constructor. auto.
    - intros y [<-|[]]. auto.
  Qed.

  Lemma one_mod_apply f w r : one_mod P C f w r = 
    (if c_one C then
    match n_abs r, n_prim r with
    | [], _ :: _ =>
        o <- one_applicable P (w_heap w) (n_state r) 0 (n_prim r) OneNone ;;
        match o with
        | OneIdx i => apply P C f w r i
        | OneNone => Some (w, set_unreachable r)
        | OneMany => Some (w, r)
        end
    | _, _ => Some (w, r)
    end else Some (w, r)).
  Proof. reflexivity. Qed.

  Lemma apply_nsol f :
    (forall w n t w' n', apply P C f w n t = Some (w', n') -> n_sol n' <> []) /\
    (forall w n a w' n', eff_loop P C f w n a = Some (w', n') -> n_sol n <> [] -> n_sol n' <> []).
  Proof.
    induction f as [|f (IA & IE)]; split; intros w n a w' n' H.
    - discriminate.
    - destruct a; [discriminate|]. injection H as <- <-. auto.
    - cbn [apply] in H. apply obind_some in H as ((w1 & r1) & E1 & H). apply obind_some in H as ((w2 & r2) & E2 & H).
      apply apply1_fields in E1 as (i & ps & st & _ & _ & NS & NS' & _).
      assert (N2 : n_sol r2 <> []).
      { destruct (c_eff C); [|injection E2 as <- <-; rewrite NS'; discriminate].
        destruct (eff_first w1) as [w1' ac]. eapply IE; [exact E2|]. rewrite NS'; discriminate. }
      assert (Some (w2, r2) = Some (w', n') -> n_sol n' <> []) by (intros [= <- <-]; auto).
      destruct (c_one C); auto. destruct (n_abs r2); auto. destruct (n_prim r2); auto.
      apply obind_some in H as (o & E3 & H). destruct o; auto.
      + injection H as <- <-. exact N2.
      + eapply IA; eauto.
    - destruct a as [i|]; [|injection H as <- <-; auto]. cbn [eff_loop] in H.
      apply obind_some in H as ((w1 & r1) & E1 & H). destruct (eff_next w1) as [w2 ac']. intros NS.
      eapply IE; [exact H|]. eapply IA; eauto.
  Qed.

  Lemma decompose_nsol f w n t mi w' n' : decompose P C f w n t mi = Some (w', n') -> n_sol n' <> [].
  Proof.
    intros H. unfold decompose in H. apply obind_some in H as ((w1 & r1) & E1 & H). apply obind_some in H as ((w2 & r2) & E2 & H).
    apply decompose1_fields in E1 as (st & NS' & _).
    assert (N2 : n_sol r2 <> []).
    { destruct (c_eff C); [|injection E2 as <- <-; rewrite NS'; discriminate].
      destruct (eff_first w1) as [w1' ac]. eapply (proj2 (apply_nsol f)); [exact E2|]. rewrite NS'; discriminate. }
    assert (Some (w2, r2) = Some (w', n') -> n_sol n' <> []) by (intros [= <- <-]; auto).
    unfold one_mod in H. destruct (c_one C); auto. destruct (n_abs r2); auto. destruct (n_prim r2); auto.
    apply obind_some in H as (o & E3 & H). destruct o; auto.
    - injection H as <- <-. exact N2.
    - eapply (proj1 (apply_nsol f)); eauto.
  Qed.

  (** The remaining part of apply, after the raw step. *)
  Lemma apply_total k : forall w n t s tn pi i ps, wf_heap P (w_heap w) -> Rep P (w_heap w) n s tn pi ->
    get (n_prim n) t = Some i -> get (w_heap w) i = Some ps -> applicable P s (ps_task ps) -> n_sol n <> [] -> atmost tn k ->
    exists f w' n', apply P C f w n t = Some (w', n') /\
      exists s' tn', Rep P (w_heap w') n' s' tn' pi /\ atmost tn' (pred k) /\ w_heap w' = w_heap w.
  Proof.
    induction k as [|k IH]; intros w n t s tn pi i ps W R Gi Gp Ap NS AM.
    { exfalso. eapply atmost_0; [|exact AM]. apply (r_min _ _ _ _ _ _ R i). apply in_or_app. right. eapply get_in; eauto. }
    destruct (apply1_total w n t s tn pi i W R Gi NS) as (f1 & (w1 & r1) & E1).
    destruct (apply1_rep P C f1 w n t w1 r1 s tn pi HP W R E1) as (i' & ps' & Gi' & Gp' & Lab & Min & Prm & Hh & R1).
    rewrite Gi in Gi'; injection Gi' as <-. rewrite Gp in Gp'; injection Gp' as <-.
    destruct (apply1_fields _ _ _ _ _ _ _ _ _ E1) as (_ & _ & st & _ & _ & _ & NS1 & _ & _ & _ & _ & _ & EI).
    assert (W1 : wf_heap P (w_heap w1)) by (now rewrite Hh).
    assert (AM1 : atmost (minus tn (pi i)) k) by (apply minus_atmost; auto; apply Min).
    set (s1 := result P s (ps_task ps)) in *. set (tn1 := minus tn (pi i)) in *.
    assert (NS1' : n_sol r1 <> []) by (rewrite NS1; discriminate).
    (* effectless loop *)
    assert (EL : exists f2 w2 r2,
               (if c_eff C then let '(w1', ac) := eff_first w1 in eff_loop P C f2 w1' r1 ac else Some (w1, r1)) = Some (w2, r2) /\
               n_sol r2 <> [] /\ w_heap w2 = w_heap w1 /\
               exists s2 tn2, Rep P (w_heap w2) r2 s2 tn2 pi /\ atmost tn2 k).
    { destruct (c_eff C) eqn:Ce; [|exists 0, w1, r1; eauto 8].
      specialize (EI eq_refl). unfold eff_first. destruct (w_eff w1) as [|j0 rest] eqn:We.
      - exists 0, w1, r1. simpl. split; auto. split; auto. split; auto. exists s1, tn1. auto.
      - destruct (eff_indices_spec _ _ _ _ _ _ EI j0) as (_ & a & tk & Ga & Ta & Ea); [simpl; auto|].
        rewrite Nat.sub_0_r in Ga. unfold task_of in Ta. apply obind_some in Ta as (pa & Gpa & [= <-]).
        destruct (effectless_applicable_spec _ _ _ s1 Ea (r_state _ _ _ _ _ _ R1)) as [_ Apa].
        destruct (IH (set_iter w1 0) r1 j0 s1 tn1 pi a pa) as (f2 & w2 & r2 & E2 & s2 & tn2 & R2 & A2 & H2); auto.
        destruct (proj1 (apply_ok P C WP HP f2) (set_iter w1 0) r1 j0 w2 r2 s1 tn1 pi a pa) as (? & ? & ? & _ & _ & _ & _ & _ & _ & _ & EF); auto.
        exists (S f2). exists (set_iter w2 (S (w_iter w2))), r2. cbn [eff_loop]. rewrite E2. cbn [obind].
        unfold eff_next. rewrite (EF Ce). replace (nth_error [] (S (w_iter w2))) with (@None nat) by reflexivity.
        split; [destruct f2; reflexivity|]. split; [eapply (proj1 (apply_nsol f2)); eauto|]. split; [exact H2|].
        exists s2, tn2. split; auto. intros l Nl Hl. specialize (A2 l Nl Hl). lia. }
    destruct EL as (f2 & w2 & r2 & E2 & NS2 & H2 & s2 & tn2 & R2 & AM2).
    assert (W2 : wf_heap P (w_heap w2)) by (now rewrite H2).
    (* one-modification step *)
    assert (OM : exists f3 w3 r3, one_mod P C f3 w2 r2 = Some (w3, r3) /\ w_heap w3 = w_heap w2 /\
               exists s3 tn3, Rep P (w_heap w3) r3 s3 tn3 pi /\ atmost tn3 k).
    { setoid_rewrite one_mod_apply.
      assert (DONE : exists s3 tn3, Rep P (w_heap w2) r2 s3 tn3 pi /\ atmost tn3 k) by eauto.
      destruct (c_one C); [|exists 0, w2, r2; auto].
      destruct (n_abs r2) eqn:NA; [|exists 0, w2, r2; auto]. destruct (n_prim r2) as [|p0 pr] eqn:NP; [exists 0, w2, r2; auto|].
      rewrite <- NP.
      destruct (one_applicable_total P (w_heap w2) (n_state r2) 0 (n_prim r2) OneNone WP (r_len _ _ _ _ _ _ R2)) as (o & Eo).
      { intros y Hy. eapply rep_prim_get; eauto. }
      rewrite Eo. cbn [obind].
      pose proof (one_applicable_spec P (w_heap w2) (n_state r2) s2 (n_prim r2) (r_state _ _ _ _ _ _ R2) 0 OneNone o Eo) as SO.
      destruct o as [|q|].
      - exists 0, w2, (set_unreachable r2). split; auto. split; auto. exists s2, tn2. split; auto. destruct R2. split; auto.
      - destruct SO as [[F _]|(_ & _ & x & tk & Gx & Tx & Ax & _)]; [discriminate|]. rewrite Nat.sub_0_r in Gx.
        unfold task_of in Tx. apply obind_some in Tx as (px & Gpx & [= <-]).
        destruct (IH w2 r2 q s2 tn2 pi x px) as (f3 & w3 & r3 & E3 & s3 & tn3 & R3 & A3 & H3); auto.
        exists f3, w3, r3. split; auto. split; auto. exists s3, tn3. split; auto.
        intros l Nl Hl. specialize (A3 l Nl Hl). lia.
      - exists 0, w2, r2. auto. }
    destruct OM as (f3 & w3 & r3 & E3 & H3 & s3 & tn3 & R3 & AM3).
    exists (S (f1 + f2 + f3)), w3, r3. split.
    { cbn [apply]. rewrite (apply1_mono _ _ _ f1 (f1 + f2 + f3) _ _ _ _ ltac:(lia) E1). cbn [obind].
      assert (E2' : (if c_eff C then let '(w1', ac) := eff_first w1 in eff_loop P C (f1 + f2 + f3) w1' r1 ac else Some (w1, r1)) = Some (w2, r2)).
      { destruct (c_eff C); auto. destruct (eff_first w1) as [w1' ac]. eapply (proj2 (apply_mono P C f2)); [|exact E2]. lia. }
      rewrite E2'. cbn [obind]. apply (one_mod_mono P C f3 (f1 + f2 + f3)); [lia|exact E3]. }
    exists s3, tn3. split; auto. split; auto. congruence.
  Qed.

  Lemma decompose_total w n t mi s tn pi i ps m : wf_heap P (w_heap w) -> Rep P (w_heap w) n s tn pi ->
    get (n_abs n) t = Some i -> get (w_heap w) i = Some ps -> nth_error (p_methods P) mi = Some m -> ps_task ps = m_task m ->
    exists f r, decompose P C f w n t mi = Some r.
  Proof.
    intros W R Gi Gp Gm Tm.
    destruct (decompose1_total w n t s tn pi i ps m mi W R Gi Gp Gm) as ((w1 & r1) & E1).
    destruct (decompose1_rep P C w n t mi w1 r1 s tn pi (wf_methods _ WP) W R E1) as
      (i' & ps' & m' & pi' & e & Gi' & Gp' & Gm' & Min & Hh1 & W1 & D & R1).
    { intros i0 ps0 m0 G1 G2 G3. congruence. }
    destruct (decompose1_fields _ _ _ _ _ _ _ _ E1) as (st & NS & _ & _ & _ & EI).
    set (tn1 := decF tn (pi i') m') in *.
    pose proof (Rep_atmost _ _ _ _ _ W1 R1) as AM. set (k := length (w_heap w1)) in *.
    assert (NS1' : n_sol r1 <> []) by (rewrite NS; discriminate).
    assert (EL : exists f2 w2 r2,
               (if c_eff C then let '(w1', ac) := eff_first w1 in eff_loop P C f2 w1' r1 ac else Some (w1, r1)) = Some (w2, r2) /\
               n_sol r2 <> [] /\ w_heap w2 = w_heap w1 /\
               exists s2 tn2, Rep P (w_heap w2) r2 s2 tn2 pi' /\ atmost tn2 k).
    { destruct (c_eff C) eqn:Ce; [|exists 0, w1, r1; eauto 8].
      destruct (EI eq_refl) as (fp & NP & EF0). unfold eff_first. destruct (w_eff w1) as [|j0 rest] eqn:We.
      - exists 0, w1, r1. simpl. split; auto. split; auto. split; auto. exists s, tn1. auto.
      - destruct (eff_indices_spec _ _ _ _ _ _ EF0 j0) as (LL & a & tk & Ga & Ta & Ea); [simpl; auto|].
        assert (Ga' : get (n_prim r1) j0 = Some a).
        { rewrite NP. unfold get. rewrite nth_error_app2 by lia. exact Ga. }
        unfold task_of in Ta. apply obind_some in Ta as (pa & Gpa & [= <-]).
        destruct (effectless_applicable_spec _ _ _ s Ea (r_state _ _ _ _ _ _ R1)) as [_ Apa].
        destruct (apply_total k (set_iter w1 0) r1 j0 s tn1 pi' a pa) as (f2 & w2 & r2 & E2 & s2 & tn2 & R2 & A2 & H2); auto.
        destruct (proj1 (apply_ok P C WP HP f2) (set_iter w1 0) r1 j0 w2 r2 s tn1 pi' a pa) as (? & ? & ? & _ & _ & _ & _ & _ & _ & _ & EF); auto.
        exists (S f2). exists (set_iter w2 (S (w_iter w2))), r2. cbn [eff_loop]. rewrite E2. cbn [obind].
        unfold eff_next. rewrite (EF Ce). replace (nth_error [] (S (w_iter w2))) with (@None nat) by reflexivity.
        split; [destruct f2; reflexivity|]. split; [eapply (proj1 (apply_nsol f2)); eauto|]. split; [exact H2|].
        exists s2, tn2. split; auto. intros l Nl Hl. specialize (A2 l Nl Hl). lia. }
    destruct EL as (f2 & w2 & r2 & E2 & NS2 & H2 & s2 & tn2 & R2 & AM2).
    assert (W2 : wf_heap P (w_heap w2)) by (now rewrite H2).
    assert (OM : exists f3 r3, one_mod P C f3 w2 r2 = Some r3).
    { setoid_rewrite one_mod_apply.
      destruct (c_one C); [|exists 0; eauto].
      destruct (n_abs r2) eqn:NA; [|exists 0; eauto]. destruct (n_prim r2) as [|p0 pr] eqn:NP; [exists 0; eauto|].
      rewrite <- NP.
      destruct (one_applicable_total P (w_heap w2) (n_state r2) 0 (n_prim r2) OneNone WP (r_len _ _ _ _ _ _ R2)) as (o & Eo).
      { intros y Hy. eapply rep_prim_get; eauto. }
      rewrite Eo. cbn [obind].
      pose proof (one_applicable_spec P (w_heap w2) (n_state r2) s2 (n_prim r2) (r_state _ _ _ _ _ _ R2) 0 OneNone o Eo) as SO.
      destruct o as [|q|]; [exists 0; eauto| |exists 0; eauto].
      destruct SO as [[F _]|(_ & _ & x & tk & Gx & Tx & Ax & _)]; [discriminate|]. rewrite Nat.sub_0_r in Gx.
      unfold task_of in Tx. apply obind_some in Tx as (px & Gpx & [= <-]).
      destruct (apply_total k w2 r2 q s2 tn2 pi' x px) as (f3 & w3 & r3 & E3 & _); auto. eauto. }
    destruct OM as (f3 & r3 & E3). exists (f2 + f3), r3. unfold decompose. rewrite E1. cbn [obind].
    assert (E2' : (if c_eff C then let '(w1', ac) := eff_first w1 in eff_loop P C (f2 + f3) w1' r1 ac else Some (w1, r1)) = Some (w2, r2)).
    { destruct (c_eff C); auto. destruct (eff_first w1) as [w1' ac]. eapply (proj2 (apply_mono P C f2)); [|exact E2]. lia. }
    rewrite E2'. cbn [obind]. apply (one_mod_mono P C f3 (f2 + f3)); [lia|exact E3].
  Qed.
End Total.

(** ** Whole searches *)
Section SearchTotal.
  Context {V : Type}.
  Variables (P : problem) (C : config) (E : search_env V).
  Hypothesis WP : wf_problem P.
  Hypothesis HP : forall l, Permutation l (c_perm C l).
  Hypothesis pop_some : forall fr n fr', e_pop E fr = Some (n, fr') -> Permutation fr (n :: fr').
  Hypothesis push_perm : forall n fr, Permutation (e_push E n fr) (n :: fr).

  (** A node with a ready action has been created by a decomposition. *)
  Definition PS (n : node) : Prop := n_sol n = [] -> n_prim n = [].
  Definition TInv (st : sstate V) : Prop :=
    GInv P E (fun _ _ => True) st [] /\ forall n, In n (s_fringe st) -> PS n.

  Lemma treat_total st w n2 s tn pi : TInv st -> extends (s_world st) w -> wf_heap P (w_heap w) ->
    NInv P w n2 s tn pi -> n_sol n2 <> [] ->
    match treat_successor P E st w n2 with
    | GStop _ _ => True
    | GCont st' => TInv st' /\ s_world st' = w
    | GCrash => False
    end.
  Proof.
    intros (G & F) X W N NS.
    assert (T : match treat_successor P E st w n2 with
                | GStop w' n' => w' = w /\ n' = n2 /\ isGoal P n2 = Some true
                | GCont st' => exists L', Ext P E False (fun _ _ => True) st [] st' L' /\ s_world st' = w /\
                     (False -> n_reach n2 = true -> forall k plan, solvesk P s tn k plan -> Cov P st' L' k)
                | GCrash => True end).
    { eapply (treat_ok P E WP push_perm False (fun _ _ => True)); eauto; try tauto. }
    assert (FR : match treat_successor P E st w n2 with
                 | GCont st' => forall n, In n (s_fringe st') -> n = n2 \/ In n (s_fringe st)
                 | GCrash => False | _ => True end).
    { unfold treat_successor. destruct (n_reach n2); simpl; auto.
      destruct (if subopt E then v_insert E w (s_vis st) n2 else (true, s_vis st)) as [[|] v']; simpl; auto.
      destruct (h_dead E w n2); simpl; auto.
      destruct (if subopt E then isGoal P n2 else Some false) as [[|]|] eqn:Gq; simpl; auto.
      - intros n Hn. apply (Permutation_in _ (push_perm n2 (s_fringe st))) in Hn. destruct Hn; auto.
      - destruct (subopt E); [|discriminate]. destruct (isGoal_total P WP _ _ _ _ _ N) as (b & Eb). congruence. }
    destruct (treat_successor P E st w n2) as [w' n'|st'|]; auto.
    destruct T as (L' & EX & WS & _). split; auto. split.
    - destruct (ex_inv _ _ _ _ _ _ _ _ EX) as ((A & B) & _). split; [split; auto|split; auto]. intros ? ? [].
    - intros n Hn. destruct (FR n Hn) as [->|Hn']; auto. intros F'. congruence.
  Qed.

  Lemma TInv_world st : TInv st -> wf_heap P (w_heap (s_world st)).
  Proof. intros (((W & _) & _) & _). exact W. Qed.

  Lemma expand_actions_total n s tn pi l i st : TInv st -> NInv P (s_world st) n s tn pi -> PS n -> n_abs n = [] ->
    (forall j, get l j = get (n_prim n) (i + j)) ->
    exists F r, (forall f, F <= f -> expand_actions P C E f st n i l = r) /\
      match r with GCrash => False | GStop _ _ => True | GCont st' => TInv st' end.
  Proof.
    revert i st. induction l as [|x l IH]; intros i st T N PSn NA HL.
    - exists 0, (GCont st). simpl. auto.
    - pose proof N as (R & _). pose proof (TInv_world _ T) as W.
      assert (HL' : forall j, get l j = get (n_prim n) (S i + j)).
      { intros j. replace (S i + j) with (i + S j) by lia. rewrite <- (HL (S j)). reflexivity. }
      assert (Gx : get (n_prim n) i = Some x).
      { specialize (HL 0). rewrite Nat.add_0_r in HL. rewrite <- HL. reflexivity. }
      destruct (rep_prim_get P _ _ _ _ _ x R) as (ps & Gp & Pa); [eapply get_in; eauto|].
      destruct (isApplicable_total P (n_state n) (ps_task ps) WP (r_len _ _ _ _ _ _ R) Pa) as (b & Eb).
      assert (EQ : (tk <- task_of (w_heap (s_world st)) x;; isApplicable P (n_state n) tk) = Some b).
      { unfold task_of. rewrite Gp. cbn [obind]. exact Eb. }
      cbn [expand_actions]. rewrite EQ. destruct b; [|apply IH; auto].
      pose proof (proj1 (isApplicable_spec _ _ _ _ s Eb (r_state _ _ _ _ _ _ R)) eq_refl) as AP.
      destruct (apply_total P C WP HP (length (w_heap (s_world st))) (s_world st) n i s tn pi x ps W R Gx Gp AP) as (f1 & w1 & n2 & E1 & _).
      { intros F'. apply PSn in F'. rewrite F' in Gx. destruct i; discriminate. }
      { eapply Rep_atmost; eauto. }
      destruct (proj1 (apply_ok P C WP HP f1) (s_world st) n i w1 n2 s tn pi x ps W R Gx Gp AP E1)
          as (s' & tn' & acts & Hh & R' & PL & CO & SO & SN & CM & _).
      assert (Min : minimal tn (pi x)).
      { apply (r_min _ _ _ _ _ _ R). unfold heads. apply in_or_app. right. eapply get_in; exact Gx. }
      assert (Lab : t_lab tn (pi x) = ps_task ps).
      { eapply (r_lab _ _ _ _ _ _ R); eauto. apply live_head. unfold heads. apply in_or_app. right. eapply get_in; exact Gx. }
      assert (N2 : NInv P w1 n2 s' tn' pi).
      { eapply NInv_succ; eauto. intros k plan HS. destruct (SN _ _ HS) as (k' & HS').
        exists (S k'). rewrite <- Lab in *. simpl. apply solvesk_act; auto; [apply wf_acyclic; auto|apply (r_wf _ _ _ _ _ _ R)]. }
      assert (X1 : extends (s_world st) w1) by (exists []; now rewrite app_nil_r).
      assert (W1 : wf_heap P (w_heap w1)) by (now rewrite Hh).
      pose proof (treat_total st w1 n2 s' tn' pi T X1 W1 N2 (proj1 (apply_nsol P C f1) _ _ _ _ _ E1)) as TT.
      destruct (treat_successor P E st w1 n2) as [w' n'|st'|] eqn:ET; [| |destruct TT].
      + exists f1, (GStop w' n'). split; auto. intros f Hf. rewrite (proj1 (apply_mono P C f1) f _ _ _ _ Hf E1). now rewrite ET.
      + destruct TT as [T' WS].
        destruct (IH (S i) st' T') as (F & r & HF & Hr); auto.
        { rewrite WS. apply (NInv_ext P (s_world st) w1 []); auto. now rewrite app_nil_r. }
        exists (f1 + F), r. split; auto. intros f Hf. rewrite (proj1 (apply_mono P C f1) f _ _ _ _ ltac:(lia) E1). rewrite ET. apply HF. lia.
  Qed.

  Lemma expand_methods_total n s tn pi step x ps ms st : TInv st -> NInv P (s_world st) n s tn pi ->
    get (n_abs n) step = Some x -> get (w_heap (s_world st)) x = Some ps ->
    (forall mi, In mi ms -> exists m, nth_error (p_methods P) mi = Some m /\ ps_task ps = m_task m) ->
    exists F r, (forall f, F <= f -> expand_methods P C E f st n step ms = r) /\
      match r with GCrash => False | GStop _ _ => True | GCont st' => TInv st' end.
  Proof.
    revert st. induction ms as [|mi ms IH]; intros st T N Gx Gp HM.
    - exists 0, (GCont st). simpl. auto.
    - pose proof N as (R & _). pose proof (TInv_world _ T) as W.
      destruct (HM mi) as (m & Gm & Tm); [simpl; auto|].
      destruct (decompose_total P C WP HP (s_world st) n step mi s tn pi x ps m W R Gx Gp Gm Tm) as (f1 & (w1 & n2) & E1).
      destruct (decompose_ok P C WP HP f1 (s_world st) n step mi w1 n2 s tn pi x ps m W R Gx Gp Gm Tm E1)
        as (e & pi' & s' & tn' & acts & Hh & W1 & R' & PL & CO & SO & SN & CM).
      assert (N2 : NInv P w1 n2 s' tn' pi') by (eapply NInv_succ; eauto).
      assert (X1 : extends (s_world st) w1) by (exists e; exact Hh).
      pose proof (treat_total st w1 n2 s' tn' pi' T X1 W1 N2 (decompose_nsol P C _ _ _ _ _ _ _ E1)) as TT.
      destruct (treat_successor P E st w1 n2) as [w' n'|st'|] eqn:ET; [| |destruct TT].
      + exists f1, (GStop w' n'). split; auto. intros f Hf. cbn [expand_methods]. rewrite (decompose_mono P C f1 f _ _ _ _ _ Hf E1). now rewrite ET.
      + destruct TT as [T' WS].
        destruct (IH st' T') as (F & r & HF & Hr); auto.
        { rewrite WS. apply (NInv_ext P (s_world st) w1 e); auto. }
        { rewrite WS, Hh, get_app_l; auto. eapply get_lt; eauto. }
        { intros q Hq. apply HM. simpl; auto. }
        exists (f1 + F), r. split; auto. intros f Hf. cbn [expand_methods]. rewrite (decompose_mono P C f1 f _ _ _ _ _ ltac:(lia) E1). rewrite ET. apply HF. lia.
  Qed.

  Lemma expand_total n s tn pi st : TInv st -> NInv P (s_world st) n s tn pi -> PS n ->
    exists F r, (forall f, F <= f -> expand P C E f st n = r) /\
      match r with GCrash => False | GStop _ _ => True | GCont st' => TInv st' end.
  Proof.
    intros T N PSn. pose proof N as (R & _). unfold expand. destruct (n_abs n) as [|a0 ar] eqn:NA.
    - eapply expand_actions_total; eauto.
    - set (step := rnd E (s_rnd st) mod length (a0 :: ar)).
      destruct (get_some (a0 :: ar) step) as (x & Gx).
      { unfold step. apply Nat.mod_upper_bound. simpl. lia. }
      destruct (get_some (w_heap (s_world st)) x) as (ps & Gp).
      { apply (r_lt _ _ _ _ _ _ R). unfold heads. rewrite NA. apply in_or_app. left. eapply get_in; eauto. }
      rewrite Gx. cbn [obind]. unfold task_of. rewrite Gp. cbn [obind].
      eapply expand_methods_total with (x := x) (ps := ps); eauto.
      + now rewrite NA.
      + intros mi Hm. unfold task_to_methods in Hm. apply filter_In in Hm as [_ Hm].
        destruct (nth_error (p_methods P) mi) as [m|]; [|discriminate]. apply Nat.eqb_eq in Hm. eauto.
  Qed.

  Lemma loop_total fuel st : TInv st ->
    exists F r, (forall af, F <= af -> search_loop P C E af fuel st = r) /\ r <> Crash.
  Proof.
    revert st. induction fuel as [|fuel IH]; intros st T; cbn [search_loop].
    - exists 0. destruct (e_pop E (s_fringe st)) as [(n & fr)|]; eexists; split; [reflexivity|discriminate|reflexivity|discriminate].
    - destruct (e_pop E (s_fringe st)) as [(n & fr)|] eqn:EP; [|exists 0; eexists; split; [reflexivity|discriminate]].
      destruct T as (((W & FI) & HV & HL) & FP). pose proof (pop_some _ _ _ EP) as PM.
      assert (IN : forall q, In q (s_fringe st) <-> q = n \/ In q fr).
      { intros q. rewrite (Permutation_in' eq_refl PM). simpl. intuition. }
      destruct (FI n) as ((s & tn & pi & N) & NG); [apply IN; auto|].
      destruct (if subopt E then (true, s_vis st) else v_insert E (s_world st) (s_vis st) n) as [ok v'].
      set (st1 := {| s_world := s_world st; s_fringe := fr; s_vis := v'; s_rnd := s_rnd st |}).
      assert (T1 : TInv st1).
      { split; [split; [split; [exact W|]|split; [exact I|]]|].
        - simpl. intros q Hq. apply FI, IN. auto.
        - intros ? ? [].
        - simpl. intros q Hq. apply FP, IN. auto. }
      destruct ok; [|apply IH; auto].
      assert (G : exists b, (if subopt E then Some false else isGoal P n) = Some b).
      { destruct (subopt E); eauto. eapply isGoal_total; eauto. }
      destruct G as ([|] & G); rewrite G.
      + exists 0. eexists. split; [reflexivity|discriminate].
      + destruct (expand_total n s tn pi st1 T1 N) as (F & r & HF & Hr); [apply FP, IN; auto|].
        destruct r as [w' n'|st2|]; [| |destruct Hr].
        * exists F. eexists. split; [intros af Haf; rewrite (HF af Haf); reflexivity|discriminate].
        * destruct (IH st2 Hr) as (F2 & r & HF2 & Hr2). exists (F + F2), r. split; auto.
          intros af Haf. rewrite (HF af) by lia. apply HF2. lia.
  Qed.

  Lemma search_total v0 fuel : exists F r, (forall af, F <= af -> search P C E v0 af fuel = r) /\ r <> Crash.
  Proof.
    unfold search.
    destruct (write_all_total true (p_s0 P) (repeat false (p_nfacts P))) as (s & Es).
    { intros f Hf. rewrite repeat_length. now apply (wf_s0 _ WP). }
    assert (EI : exists w n, init_node P = Some (w, n)) by (unfold init_node; rewrite Es; cbn [obind]; eauto).
    destruct EI as (w & n & EI). rewrite EI.
    destruct (init_rep P WP w n EI) as (Wh & N & NA).
    assert (NP : n_prim n = []).
    { unfold init_node in EI. rewrite Es in EI. cbn [obind] in EI. injection EI as <- <-. reflexivity. }
    apply loop_total.
    assert (IN : forall q, In q (e_push E n []) -> q = n).
    { intros q Hq. apply (Permutation_in _ (push_perm n [])) in Hq. destruct Hq as [|[]]; auto. }
    split; [split; [split; [exact Wh|]|split; [exact I|]]|]; simpl.
    - intros q Hq. apply IN in Hq. subst q. split; [eauto|]. intros _. unfold isGoal. rewrite NA. discriminate.
    - intros ? ? [].
    - intros q Hq. apply IN in Hq. subst q. intros _. exact NP.
  Qed.
End SearchTotal.
