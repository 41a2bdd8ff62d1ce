(** Proofs about the order of the leafs: transitive edges, successor sets and the composition of graphs. *)
From Coq Require Import Relation_Operators Operators_Properties.
From Verif Require Import Base Htn_problem Posog_model Posog_spec Posog_merge.

Lemma prec_trans adj x y z : precedes adj x y -> precedes adj y z -> precedes adj x z.
Proof. apply t_trans. Qed.
Lemma prec_mono (a b : list (list nat)) : (forall x y, edge a x y -> precedes b x y) -> forall x y, precedes a x y -> precedes b x y.
Proof. intros H x y Q. induction Q; [auto|eapply t_trans; eauto]. Qed.
Lemma prec_lt adj x y : wf_graph adj -> precedes adj x y -> x < length adj /\ y < length adj.
Proof.
  intros W Q. induction Q as [x y (l & G & I)|x y z _ [A1 A2] _ [B1 B2]]; [|auto]. split; [apply nth_error_Some; congruence|]. apply (W x y). exists l. auto.
Qed.
Lemma edge_dec adj x y : {edge adj x y} + {~ edge adj x y}.
Proof.
  unfold edge. destruct (nth_error adj x) as [l|] eqn:G; [|right; intros (l & E & _); discriminate].
  destruct (in_dec Nat.eq_dec y l) as [I|I]; [left; eauto|]. right. intros (l' & E & I'). apply some_eq in E. now subst.
Qed.

(** ** removeTransitiveOrderings *)
Lemma mset_false (t : matrix) x y a b : mset t x y false a b = true <-> t a b = true /\ ~ (a = x /\ b = y).
Proof.
  unfold Order_model.mset. destruct (Nat.eqb_spec a x), (Nat.eqb_spec b y); cbn [andb]; subst; split; intros H; try discriminate; try tauto; try (destruct H as [H1 H2]; tauto).
Qed.

Lemma rt_fill_ok adj : wf_graph adj -> exists t, rt_fill adj = Some t /\ forall x y, t x y = true <-> edge adj x y.
Proof.
  intros W. unfold rt_fill.
  assert (IN : forall j ns t0, (forall y, In y ns -> y < length adj) -> exists t,
     ofold (fun (t : matrix) nei => if Nat.ltb nei (length adj) then Some (mset t j nei true) else None) ns t0 = Some t /\
     forall x y, t x y = true <-> t0 x y = true \/ (x = j /\ In y ns)).
  { intros j ns. induction ns as [|a r IH]; intros t0 R; cbn [ofold].
    - exists t0. split; auto. cbn [In]. intros; tauto.
    - destruct (Nat.ltb_spec a (length adj)) as [L|L]; [|specialize (R a (or_introl eq_refl)); lia]. cbn [obind].
      destruct (IH (mset t0 j a true)) as (t & E & F). { intros y Hy. apply R. now right. } exists t. split; auto. intros x y. rewrite F, mset_true. cbn [In]. intuition congruence. }
  assert (G : forall js t0, (forall j, In j js -> j < length adj) -> exists t,
     ofold (fun t j => ns <- get adj j ;; ofold (fun (t : matrix) nei => if Nat.ltb nei (length adj) then Some (mset t j nei true) else None) ns t) js t0 = Some t /\
     forall x y, t x y = true <-> t0 x y = true \/ (In x js /\ edge adj x y)).
  { induction js as [|j r IH]; intros t0 R; cbn [ofold].
    - exists t0. split; auto. cbn [In]. intros; tauto.
    - destruct (get_some adj j) as (ns & Gn). { apply R. now left. } rewrite Gn. cbn [obind]. unfold get in Gn.
      destruct (IN j ns t0) as (t1 & E1 & F1). { intros y Hy. apply (W j). exists ns. auto. } rewrite E1. cbn [obind].
      destruct (IH t1) as (t & E & F). { intros y Hy. apply R. now right. } exists t. split; auto. intros x y. rewrite F, F1. cbn [In]. split.
      + intros [[Q|[-> Q]]|Q]; auto; [right; split; [now left|exists ns; auto]|tauto].
      + intros [Q|[[<-|Q] Z]]; auto. left. right. split; auto. destruct Z as (l & G & I). rewrite Gn in G. apply some_eq in G. now subst. }
  destruct (G (seq 0 (length adj)) empty_matrix) as (t & E & F). { intros j Hj. apply in_seq in Hj. lia. }
  exists t. split; auto. intros x y. rewrite F. unfold empty_matrix. split; [intros [Q|[_ Q]]; [discriminate|auto]|]. intros Q. right. split; auto.
  apply in_seq. split; [lia|]. destruct Q as (l & Gl & _). cbn. apply nth_error_Some. congruence.
Qed.

Lemma rt_clear_ok adj t0 : exists t, rt_clear adj t0 = Some t /\
  forall x y, x < length adj -> y < length adj -> (t x y = true <-> t0 x y = true /\ ~ exists k, k < length adj /\ edge adj x k /\ edge adj k y).
Proof.
  unfold rt_clear.
  assert (IN : forall k, k < length adj -> forall ps t0, (forall x y, In (x, y) ps -> x < length adj) -> exists t,
     ofold (fun (t : matrix) '(x, y) => ax <- get adj x ;; ak <- get adj k ;; Some (if memb k ax && memb y ak then mset t x y false else t)) ps t0 = Some t /\
     forall x y, t x y = true <-> t0 x y = true /\ ~ (In (x, y) ps /\ edge adj x k /\ edge adj k y)).
  { intros k Lk. induction ps as [|[a b] r IH]; intros t1 R; cbn [ofold].
    - exists t1. split; auto. cbn [In]. intros; tauto.
    - destruct (get_some adj a) as (ax & Ga). { apply (R a b). now left. } destruct (get_some adj k Lk) as (ak & Gk). rewrite Ga, Gk. cbn [obind].
      destruct (IH (if memb k ax && memb b ak then mset t1 a b false else t1)) as (t & E & F). { intros x y Q. apply (R x y). now right. }
      rewrite Gk in E. unfold get in Ga, Gk. exists t. split; auto. intros x y. rewrite F. cbn [In].
      assert (EB : memb k ax && memb b ak = true <-> edge adj a k /\ edge adj k b).
      { rewrite andb_true_iff, !memb_In. split; [intros [A B]; split; [exists ax|exists ak]; auto|]. intros [(l & G & I) (l' & G' & I')]. rewrite Ga in G. rewrite Gk in G'. apply some_eq in G. apply some_eq in G'. subst. auto. }
      destruct (memb k ax && memb b ak).
      + rewrite mset_false. split.
        * intros [[Q1 Q2] Q3]. split; auto. intros [[Z|Z] Z2]; [apply pair_equal_spec in Z as [-> ->]; tauto|tauto].
        * intros [Q1 Q2]. split; [split; auto|]; [|tauto]. intros [-> ->]. apply Q2. split; [now left|]. now apply EB.
      + split.
        * intros [Q1 Q2]. split; auto. intros [[Z|Z] Z2]; [apply pair_equal_spec in Z as [-> ->]|tauto]. apply EB in Z2. discriminate.
        * tauto. }
  assert (G : forall ks t0, (forall k, In k ks -> k < length adj) -> exists t,
     ofold (fun (t : matrix) k => ofold (fun (t : matrix) '(x, y) => ax <- get adj x ;; ak <- get adj k ;; Some (if memb k ax && memb y ak then mset t x y false else t)) (grid (length adj)) t) ks t0 = Some t /\
     forall x y, x < length adj -> y < length adj -> (t x y = true <-> t0 x y = true /\ ~ exists k, In k ks /\ edge adj x k /\ edge adj k y)).
  { assert (IG : forall x y, In (x, y) (grid (length adj)) <-> x < length adj /\ y < length adj). { intros x y. unfold Order_model.grid. rewrite in_prod_iff, !in_seq. lia. }
    induction ks as [|k r IH]; intros t1 R; cbn [ofold].
    - exists t1. split; auto. intros x y _ _. split; [|tauto]. intros Q. split; auto. intros (k & [] & _).
    - destruct (IN k (R k (or_introl eq_refl)) (grid (length adj)) t1) as (t2 & E2 & F2). { intros x y Q. now apply IG in Q. } rewrite E2. cbn [obind].
      destruct (IH t2) as (t & E & F). { intros j Hj. apply R. now right. } exists t. split; auto. intros x y Lx Ly. rewrite F by auto. rewrite F2. split.
      + intros [[Q1 Q2] Q3]. split; auto. intros (k' & [<-|I] & Z); [apply Q2; split; [now apply IG|auto]|]. apply Q3. eauto.
      + intros [Q1 Q2]. split; [split; auto|].
        * intros [_ Z]. apply Q2. exists k. split; [now left|auto].
        * intros (k' & I & Z). apply Q2. exists k'. split; [now right|auto]. }
  destruct (G (seq 0 (length adj)) t0) as (t & E & F). { intros j Hj. apply in_seq in Hj. lia. } exists t. split; auto. intros x y Lx Ly. rewrite F by auto.
  split; intros [A B]; (split; [auto|]); intros (k & L & Z); apply B; exists k; (split; [|auto]); [apply in_seq; lia|apply in_seq in L; lia].
Qed.

Lemma map_seq_nth {A} (f : nat -> A) n i x : nth_error (map f (seq 0 n)) i = Some x <-> i < n /\ x = f i.
Proof.
  rewrite nth_error_map. destruct (nth_error (seq 0 n) i) as [v|] eqn:E; cbn.
  - apply nth_error_seq in E as [-> L]. split; [intros Q; apply some_eq in Q; auto|intros [_ ->]; auto].
  - split; [discriminate|]. intros [L _]. apply nth_error_None in E. rewrite seq_length in E. lia.
Qed.

Lemma remove_ok adj : wf_graph adj -> exists adj', remove_transitive adj = Some adj' /\ length adj' = length adj /\
  forall x y, edge adj' x y <-> edge adj x y /\ ~ exists k, edge adj x k /\ edge adj k y.
Proof.
  intros W. unfold remove_transitive. destruct (rt_fill_ok adj W) as (t & E & F). rewrite E. cbn [obind]. destruct (rt_clear_ok adj t) as (t' & E' & F'). rewrite E'. cbn [obind].
  eexists. split; [reflexivity|]. split; [now rewrite map_length, seq_length|]. intros x y. unfold edge at 1. split.
  - intros (l & G & I). apply map_seq_nth in G as [L ->]. apply filter_In in I as [I Q]. apply in_seq in I. apply F' in Q; [|auto|lia]. destruct Q as [Q1 Q2]. split; [now apply F|].
    intros (k & K1 & K2). apply Q2. exists k. split; auto. exact (W x k K1).
  - intros [Q N]. assert (Lx : x < length adj). { destruct Q as (l & G & _). apply nth_error_Some. congruence. } assert (Ly := W x y Q).
    eexists. split; [apply map_seq_nth; split; [auto|reflexivity]|]. apply filter_In. split; [apply in_seq; lia|]. apply F'; auto. split; [now apply F|]. intros (k & _ & K). apply N. eauto.
Qed.

Lemma middle_dec adj x y : {k | edge adj x k /\ edge adj k y} + {forall k, ~ (edge adj x k /\ edge adj k y)}.
Proof.
  destruct (nth_error adj x) as [l|] eqn:G; [|right; intros k [(l & E & _) _]; congruence].
  destruct (find (fun k => if edge_dec adj k y then true else false) l) as [k|] eqn:Fd.
  - left. exists k. apply find_some in Fd as [I Q]. destruct (edge_dec adj k y); [|discriminate]. split; auto. exists l. auto.
  - right. intros k [(l' & E & I) K]. rewrite G in E. apply some_eq in E. subst l'. pose proof (find_none _ _ Fd k I) as Q. cbn in Q. destruct (edge_dec adj k y); [discriminate|auto].
Qed.

(** C47 for the relation *)
Lemma reduction_closure adj adj' : wf_graph adj -> dag adj -> (forall x y, edge adj' x y <-> edge adj x y /\ ~ exists k, edge adj x k /\ edge adj k y) ->
  forall x y, precedes adj' x y <-> precedes adj x y.
Proof.
  intros W D H.
  assert (G : forall m x y, edge adj x y -> (forall l, NoDup l -> (forall k, In k l -> precedes adj x k /\ precedes adj k y) -> length l <= m) -> precedes adj' x y).
  { induction m as [|m IH]; intros x y E B.
    - destruct (middle_dec adj x y) as [(k & K1 & K2)|N].
      + assert (Q : length [k] <= 0); [|cbn in Q; lia]. apply B; [repeat constructor; auto|]. intros j [<-|[]]. split; now apply t_step.
      + apply t_step. apply H. split; auto. intros (k & K). exact (N k K).
    - destruct (middle_dec adj x y) as [(k & K1 & K2)|N].
      + assert (P1 : precedes adj x k) by now apply t_step. assert (P2 : precedes adj k y) by now apply t_step.
        apply t_trans with k; apply IH; auto; intros l ND Q.
        * assert (Z : length (k :: l) <= S m); [|cbn in Z; lia]. apply B.
          -- constructor; auto. intros I. destruct (Q k I) as [_ Z]. exact (D k Z).
          -- intros j [<-|I]; auto. destruct (Q j I). split; auto. eapply prec_trans; eauto.
        * assert (Z : length (k :: l) <= S m); [|cbn in Z; lia]. apply B.
          -- constructor; auto. intros I. destruct (Q k I) as [Z _]. exact (D k Z).
          -- intros j [<-|I]; auto. destruct (Q j I). split; auto. eapply prec_trans; eauto.
      + apply t_step. apply H. split; auto. intros (k & K). exact (N k K). }
  intros x y. split; apply prec_mono.
  - intros a b Q. apply t_step. now apply H.
  - intros a b Q. apply (G (length adj)); auto. intros l ND Q2. rewrite <- (seq_length (length adj) 0). apply NoDup_incl_length; auto. intros k Ik. destruct (Q2 k Ik) as [Z _].
    apply in_seq. apply prec_lt in Z; auto. lia.
Qed.

(** ** Successor sets *)
Lemma union_In a b x : In x (union a b) <-> In x a \/ In x b.
Proof.
  unfold union. revert a. induction b as [|y b IH]; intros a; cbn [fold_left In]; [tauto|]. rewrite IH. destruct (memb y a) eqn:M; cbn [In]; [apply memb_In in M|]; intuition (subst; auto).
Qed.
Definition unvis (v : list bool) : nat := length (filter negb v).
Lemma unvis_set v n v' : nth_error v n = Some false -> set v n true = Some v' -> unvis v = S (unvis v').
Proof.
  revert n v'. induction v as [|b v IH]; intros [|n] v' G E; cbn in G; try discriminate.
  - apply some_eq in G. subst b. cbn in E. apply some_eq in E. now subst.
  - cbn in E. apply obind_some in E as (t & E & Q). apply some_eq in Q. subst v'. specialize (IH n t G E). unfold unvis in *. cbn. destruct b; cbn; lia.
Qed.
Lemma unvis_le v v' : length v = length v' -> (forall i, nth_error v i = Some true -> nth_error v' i = Some true) -> unvis v' <= unvis v.
Proof.
  revert v'. induction v as [|b v IH]; intros [|b' v'] L H; cbn in L; try lia. specialize (IH v'). unfold unvis in *. cbn.
  assert (length (filter negb v') <= length (filter negb v)). { apply IH; [lia|]. intros i. exact (H (S i)). }
  destruct b, b'; cbn; try lia. specialize (H 0 eq_refl). discriminate.
Qed.

Section Dfs.
Context (adj : list (list nat)) (W : wf_graph adj) (D : dag adj).
Definition reaches (x y : nat) : Prop := (x = y /\ x < length adj) \/ precedes adj x y.
Definition exact (l : list nat) (x : nat) : Prop := forall y, In y l <-> reaches x y.

Record dinv (s : ds) (K : list nat) : Prop := {
  di_lv : length (d_vis s) = length adj;
  di_ls : length (d_set s) = length adj;
  di_done : forall x, nth_error (d_vis s) x = Some true -> ~ In x K -> exists l, nth_error (d_set s) x = Some l /\ exact l x;
  di_new : forall x, nth_error (d_vis s) x = Some false -> nth_error (d_set s) x = Some [] }.

Lemma dfs_ok : forall fuel n s K, dinv s K -> n < length adj -> unvis (d_vis s) < fuel -> (forall k, In k K -> precedes adj k n) ->
  exists s', dfs fuel adj n s = Some s' /\ dinv s' K /\ nth_error (d_vis s') n = Some true /\
    (forall x, nth_error (d_vis s) x = Some true -> nth_error (d_vis s') x = Some true) /\
    (forall k, In k K -> nth_error (d_vis s) k = Some true -> nth_error (d_set s') k = nth_error (d_set s) k).
Proof.
  induction fuel as [|f IH]; intros n s K I Ln LF HK; [lia|]. cbn [dfs].
  destruct (get_some (d_vis s) n) as (b & Gb). { rewrite (di_lv _ _ I). auto. } rewrite Gb. cbn [obind]. unfold get in Gb. destruct b.
  - exists s. auto 8.
  - assert (NK : ~ In n K). { intros Q. exact (D n (HK n Q)). }
    destruct (set_some (d_vis s) n true) as (vis' & Ev). { rewrite (di_lv _ _ I). auto. } rewrite Ev. cbn [obind].
    unfold get at 1. rewrite (di_new _ _ I n Gb). cbn [obind].
    destruct (set_some (d_set s) n (union [] [n])) as (set' & Es). { rewrite (di_ls _ _ I). auto. } rewrite Es. cbn [obind].
    destruct (get_some adj n Ln) as (ns & Gn). rewrite Gn. cbn [obind]. unfold get in Gn.
    pose proof (unvis_set _ _ _ Gb Ev) as UV. pose proof (set_length _ _ _ _ Ev) as LV. pose proof (set_length _ _ _ _ Es) as LS.
    assert (LOOP : forall r done s1, ns = done ++ r -> dinv s1 (n :: K) -> unvis (d_vis s1) < f -> nth_error (d_vis s1) n = Some true ->
        (exists l, nth_error (d_set s1) n = Some l /\ forall y, In y l <-> y = n \/ exists m, In m done /\ reaches m y) ->
        exists s', ofold (fun s nei => s' <- dfs f adj nei s ;; ln <- get (d_set s') nei ;; l <- get (d_set s') n ;; st <- set (d_set s') n (union l ln) ;; Some {| d_vis := d_vis s'; d_set := st |}) r s1 = Some s' /\
          dinv s' (n :: K) /\ nth_error (d_vis s') n = Some true /\
          (forall x, nth_error (d_vis s1) x = Some true -> nth_error (d_vis s') x = Some true) /\
          (forall k, In k K -> nth_error (d_vis s1) k = Some true -> nth_error (d_set s') k = nth_error (d_set s1) k) /\
          (exists l, nth_error (d_set s') n = Some l /\ forall y, In y l <-> y = n \/ exists m, In m ns /\ reaches m y)).
    { induction r as [|nei r IHr]; intros done s1 En I1 U1 V1 (l & Gl & Fl); cbn [ofold].
      - exists s1. split; auto. split; auto. split; auto. split; auto. split; auto. rewrite app_nil_r in En. subst done. eauto.
      - assert (EN : edge adj n nei). { exists ns. split; auto. rewrite En. apply in_app_iff. right. now left. }
        assert (LE : nei < length adj) by exact (W n nei EN).
        destruct (IH nei s1 (n :: K) I1 LE U1) as (s2 & E2 & I2 & V2 & M2 & K2).
        { intros k [<-|Q]; [now apply t_step|]. eapply prec_trans; [apply HK; auto|now apply t_step]. }
        rewrite E2. cbn [obind].
        assert (NN : ~ In nei (n :: K)). { intros [Q|Q]; [subst nei; apply (D n); now apply t_step|]. apply (D n). eapply prec_trans; [now apply t_step; eauto|auto]. }
        destruct (di_done _ _ I2 nei V2 NN) as (ln & G2 & X2). unfold get at 1. rewrite G2. cbn [obind]. unfold get at 1. rewrite (K2 n (or_introl eq_refl) V1), Gl. cbn [obind].
        destruct (set_some (d_set s2) n (union l ln)) as (st & Est). { rewrite (di_ls _ _ I2). auto. } rewrite Est. cbn [obind].
        pose proof (set_length _ _ _ _ Est) as LST. pose proof (get_set_eq _ _ _ _ Est) as GE. assert (GO : forall x, x <> n -> nth_error st x = nth_error (d_set s2) x).
        { intros x Hx. exact (get_set_neq _ _ _ _ _ Est (not_eq_sym Hx)). }
        destruct (IHr (done ++ [nei]) {| d_vis := d_vis s2; d_set := st |}) as (s3 & E3 & I3 & V3 & M3 & K3 & F3).
        + rewrite <- app_assoc. exact En.
        + constructor; cbn [d_vis d_set].
          * apply I2.
          * rewrite LST. apply I2.
          * intros x Vx NX. rewrite GO. { now apply (di_done _ _ I2). } intros ->. apply NX. now left.
          * intros x Vx. rewrite GO. { now apply (di_new _ _ I2). } intros ->. apply M2 in V1. congruence.
        + cbn [d_vis]. eapply Nat.le_lt_trans; [apply unvis_le; [|apply M2]|exact U1]. rewrite (di_lv _ _ I1), (di_lv _ _ I2). auto.
        + cbn [d_vis]. now apply M2.
        + cbn [d_set]. exists (union l ln). split; [exact GE|]. intros y. rewrite union_In, Fl, (X2 y). split.
          * intros [[->|(m & Im & R)]|R]; auto; right; [exists m|exists nei]; (split; [apply in_app_iff|auto]); [auto|right; now left].
          * intros [->|(m & Im & R)]; auto. apply in_app_iff in Im as [Im|[<-|[]]]; [left; right; eauto|auto].
        + exists s3. split; auto. split; auto. split; auto. cbn [d_vis d_set] in M3, K3. split; [|split; auto].
          * intros x Vx. apply M3. now apply M2.
          * intros k Ik Vk. rewrite K3 by auto. rewrite GO. { apply K2; auto. now right. } intros ->. contradiction. }
    assert (GV : forall x, x <> n -> nth_error vis' x = nth_error (d_vis s) x). { intros x Hx. exact (get_set_neq _ _ _ _ _ Ev (not_eq_sym Hx)). }
    assert (GS : forall x, x <> n -> nth_error set' x = nth_error (d_set s) x). { intros x Hx. exact (get_set_neq _ _ _ _ _ Es (not_eq_sym Hx)). }
    pose proof (get_set_eq _ _ _ _ Ev) as GVn. pose proof (get_set_eq _ _ _ _ Es) as GSn. unfold get in GVn, GSn.
    destruct (LOOP ns [] {| d_vis := vis'; d_set := set' |}) as (s' & E & I' & V' & M' & K' & (l & Gl & Fl)).
    + reflexivity.
    + constructor; cbn [d_vis d_set].
      * rewrite LV. apply I.
      * rewrite LS. apply I.
      * intros x Vx NX. assert (x <> n) by (intros ->; apply NX; now left). rewrite GS by auto. rewrite GV in Vx by auto. apply (di_done _ _ I); auto. intros Q. apply NX. now right.
      * intros x Vx. assert (x <> n) by (intros ->; congruence). rewrite GS by auto. rewrite GV in Vx by auto. now apply (di_new _ _ I).
    + cbn [d_vis]. lia.
    + cbn [d_vis]. auto.
    + cbn [d_set]. exists (union [] [n]). split; auto. intros y. rewrite union_In. cbn [In]. split; [intros [[]|[->|[]]]; auto|]. intros [->|(m & [] & _)]. auto.
    + cbn [d_vis d_set] in M', K'. exists s'. split; auto. split; [|split; [auto|split]].
      * destruct I' as [A1 A2 A3 A4]. constructor; auto. intros x Vx NX. destruct (Nat.eq_dec x n) as [->|NE]; [|apply A3; auto; intros [Q|Q]; auto].
        exists l. split; auto. intros y. rewrite Fl. unfold reaches. split.
        -- intros [->|(m & Im & [[-> Lm]|R])]; auto; right; [apply t_step; exists ns; auto|]. apply t_trans with m; [apply t_step; exists ns; auto|auto].
        -- intros [[-> _]|R]; auto. right. apply clos_trans_t1n in R. destruct R as [m (l' & G & Q)|m z (l' & G & Q) R]; rewrite Gn in G; apply some_eq in G; subst l'.
           ++ exists m. split; auto. left. split; auto. apply (W n). exists ns. auto.
           ++ exists m. split; auto. right. now apply clos_t1n_trans.
      * intros x Vx. apply M'. destruct (Nat.eq_dec x n) as [->|NE]; auto. rewrite GV; auto.
      * intros k Ik Vk. assert (k <> n) by (intros ->; contradiction). rewrite K'; auto. rewrite GV; auto.
Qed.

Lemma reach_sets_ok : exists sets, reach_sets adj = Some sets /\ length sets = length adj /\ forall x l, nth_error sets x = Some l -> exact l x.
Proof.
  unfold reach_sets.
  assert (G : forall l s, dinv s [] -> (forall x, In x l -> x < length adj) -> exists s', ofold (fun s i => dfs (S (length adj)) adj i s) l s = Some s' /\ dinv s' [] /\
     (forall x, nth_error (d_vis s) x = Some true -> nth_error (d_vis s') x = Some true) /\ forall x, In x l -> nth_error (d_vis s') x = Some true).
  { induction l as [|a r IH]; intros s I R; cbn [ofold].
    - exists s. split; auto. split; auto. split; auto. intros x [].
    - destruct (dfs_ok (S (length adj)) a s [] I) as (s1 & E1 & I1 & V1 & M1 & _).
      + apply R. now left.
      + assert (F : forall v, unvis v <= length v). { unfold unvis. induction v as [|[] v IHv]; cbn; lia. } specialize (F (d_vis s)). rewrite (di_lv _ _ I) in F. lia.
      + intros k [].
      + rewrite E1. cbn [obind]. destruct (IH s1 I1) as (s2 & E2 & I2 & M2 & V2). { intros x Hx. apply R. now right. }
        exists s2. split; auto. split; auto. split; auto. intros x [<-|Hx]; auto. }
  destruct (G (seq 0 (length adj)) {| d_vis := repeat false (length adj); d_set := repeat [] (length adj) |}) as (s' & E & I & _ & V).
  - assert (RP : forall A (a : A) n x b, nth_error (repeat a n) x = Some b -> b = a). { intros A a n x b Q. apply nth_error_In in Q. now apply repeat_spec in Q. }
    constructor; cbn [d_vis d_set].
    + apply repeat_length.
    + apply repeat_length.
    + intros x Q. apply RP in Q. discriminate.
    + intros x Q. assert (L : x < length adj). { rewrite <- (repeat_length false (length adj)). apply nth_error_Some. congruence. }
      destruct (nth_error (repeat (A:=list nat) [] (length adj)) x) as [z|] eqn:Z; [apply RP in Z; now subst|]. apply nth_error_None in Z. rewrite repeat_length in Z. lia.
  - intros x Hx. apply in_seq in Hx. lia.
  - rewrite E. cbn [obind]. eexists. split; [reflexivity|]. split; [apply I|]. intros x l Gx.
    assert (L : x < length adj). { rewrite <- (di_ls _ _ I). apply nth_error_Some. congruence. }
    destruct (di_done _ _ I x) as (l' & Gl & X). { apply V. apply in_seq. lia. } { intros []. } rewrite Gx in Gl. apply some_eq in Gl. now subst.
Qed.
End Dfs.
