(** Proofs about the composition of ordering graphs along a decomposition tree. *)
From Coq Require Import Relation_Operators Operators_Properties.
From Verif Require Import Base Htn_problem Posog_model Posog_spec Posog_merge Posog_order.

(** ** The numbering of the vertices *)
Definition at_ (sizes : list nat) (cur i j u : nat) : Prop := exists mi, nth_error (ex_mapping sizes cur) i = Some mi /\ nth_error mi j = Some u.
Lemma seq_nth_error n c j u : nth_error (seq c n) j = Some u <-> j < n /\ u = c + j.
Proof.
  split.
  - intros G. assert (L : j < n). { rewrite <- (seq_length n c). apply nth_error_Some. congruence. } split; auto.
    rewrite (nth_error_nth' _ 0) in G by now rewrite seq_length. rewrite seq_nth in G by auto. congruence.
  - intros [L ->]. rewrite (nth_error_nth' _ 0) by now rewrite seq_length. rewrite seq_nth; auto.
Qed.
Lemma at_0 n r cur j u : at_ (n :: r) cur 0 j u <-> j < n /\ u = cur + j.
Proof.
  unfold at_. cbn. split; [intros (mi & E & G); apply some_eq in E; subst mi; now apply seq_nth_error in G|]. intros H. exists (seq cur n). split; auto. now apply seq_nth_error.
Qed.
Lemma at_S n r cur i j u : at_ (n :: r) cur (S i) j u <-> at_ r (cur + n) i j u.
Proof. unfold at_. cbn. tauto. Qed.
Lemma at_nil cur i j u : ~ at_ [] cur i j u.
Proof. intros (mi & E & _). destruct i; discriminate. Qed.
Lemma at_range sizes : forall cur i j u, at_ sizes cur i j u -> cur <= u < cur + list_sum sizes.
Proof.
  induction sizes as [|n r IH]; intros cur i j u A; [now apply at_nil in A|]. change (list_sum (n :: r)) with (n + list_sum r).
  destruct i; [rewrite at_0 in A; lia|]. rewrite at_S in A. apply IH in A. lia.
Qed.
Lemma at_inj sizes : forall cur i j u i' j', at_ sizes cur i j u -> at_ sizes cur i' j' u -> i = i' /\ j = j'.
Proof.
  induction sizes as [|n r IH]; intros cur i j u i' j' A B; [now apply at_nil in A|]. destruct i, i'.
  - rewrite at_0 in A, B. lia.
  - rewrite at_0 in A. rewrite at_S in B. apply at_range in B. lia.
  - rewrite at_0 in B. rewrite at_S in A. apply at_range in A. lia.
  - rewrite at_S in A, B. destruct (IH _ _ _ _ _ _ A B). lia.
Qed.
Lemma at_fun sizes cur i j u u' : at_ sizes cur i j u -> at_ sizes cur i j u' -> u = u'.
Proof. intros (m & E & G) (m' & E' & G'). rewrite E in E'. apply some_eq in E'. subst. congruence. Qed.
Lemma at_total sizes : forall cur u, cur <= u < cur + list_sum sizes -> exists i j, at_ sizes cur i j u.
Proof.
  induction sizes as [|n r IH]; intros cur u L; [cbn in L; lia|]. change (list_sum (n :: r)) with (n + list_sum r) in L. destruct (Nat.ltb_spec u (cur + n)).
  - exists 0, (u - cur). apply at_0. lia.
  - destruct (IH (cur + n) u) as (i & j & A); [lia|]. exists (S i), j. now apply at_S.
Qed.
Lemma at_size sizes : forall cur i j u, at_ sizes cur i j u -> exists s, nth_error sizes i = Some s /\ j < s.
Proof.
  induction sizes as [|n r IH]; intros cur i j u A; [now apply at_nil in A|]. destruct i; [rewrite at_0 in A; exists n; split; [auto|lia]|]. rewrite at_S in A; apply IH in A. auto.
Qed.
Lemma at_ex sizes : forall cur i j s, nth_error sizes i = Some s -> j < s -> exists u, at_ sizes cur i j u.
Proof.
  induction sizes as [|n r IH]; intros cur [|i] j s E L; cbn in E; try discriminate.
  - apply some_eq in E. subst. exists (cur + j). now apply at_0.
  - destruct (IH (cur + n) i j s E L) as (u & A). exists u. now apply at_S.
Qed.
Lemma mapping_length sizes : forall cur, length (ex_mapping sizes cur) = length sizes.
Proof. induction sizes; intros; cbn; auto. Qed.
Lemma mapping_nth sizes : forall cur i mi, nth_error (ex_mapping sizes cur) i = Some mi -> nth_error sizes i = Some (length mi).
Proof.
  induction sizes as [|n r IH]; intros cur [|i] mi E; cbn in *; try discriminate; [apply some_eq in E; subst; now rewrite seq_length|eauto].
Qed.
Lemma at_In sizes cur i u : (exists mi, nth_error (ex_mapping sizes cur) i = Some mi /\ In u mi) <-> exists j, at_ sizes cur i j u.
Proof.
  split.
  - intros (mi & E & I). apply In_nth_error in I as (j & G). exists j, mi. auto.
  - intros (j & mi & E & G). exists mi. split; auto. eapply nth_error_In; eauto.
Qed.

(** ** Loops that add edges *)
Lemma ins_ok acc x y : x < length acc -> exists acc', ins acc x y = Some acc' /\ length acc' = length acc /\ forall u v, edge acc' u v <-> edge acc u v \/ (u = x /\ v = y).
Proof.
  intros L. unfold ins. destruct (get_some acc x L) as (r & G). rewrite G. cbn [obind]. destruct (set_some acc x (if memb y r then r else y :: r) L) as (acc' & E). exists acc'. split; auto.
  split; [eapply set_length; eauto|]. pose proof (get_set_eq _ _ _ _ E) as GE. unfold get in G, GE. intros u v. destruct (Nat.eq_dec u x) as [->|N].
  - unfold edge. rewrite G, GE. split.
    + intros (l & Q & I). apply some_eq in Q. subst l. destruct (memb y r); [left; eauto|]. destruct I as [->|I]; [auto|left; eauto].
    + intros [(l & Q & I)|[_ ->]]; eexists; (split; [reflexivity|]).
      * apply some_eq in Q. subst l. destruct (memb y r); [auto|now right].
      * destruct (memb y r) eqn:M; [now apply memb_In|now left].
  - pose proof (get_set_neq _ _ _ _ _ E (not_eq_sym N)) as GN. unfold get in GN. unfold edge. rewrite GN. split; [auto|]. intros [Q|[Q _]]; [auto|contradiction].
Qed.

Lemma ofold_edges {B} (f : list (list nat) -> B -> option (list (list nat))) (R : B -> nat -> nat -> Prop) n : forall l acc,
  (forall b acc, In b l -> length acc = n -> exists acc', f acc b = Some acc' /\ length acc' = n /\ forall u v, edge acc' u v <-> edge acc u v \/ R b u v) ->
  length acc = n -> exists acc', ofold f l acc = Some acc' /\ length acc' = n /\ forall u v, edge acc' u v <-> edge acc u v \/ exists b, In b l /\ R b u v.
Proof.
  induction l as [|b r IH]; intros acc H L; cbn [ofold].
  - exists acc. split; auto. split; auto. intros u v. split; auto. intros [Q|(b & [] & _)]. auto.
  - destruct (H b acc (or_introl eq_refl) L) as (a1 & E1 & L1 & F1). rewrite E1. cbn [obind].
    destruct (IH a1) as (a2 & E2 & L2 & F2); auto. { intros b' a' Ib. apply H. now right. } exists a2. split; auto. split; auto.
    intros u v. rewrite F2, F1. split.
    + intros [[Q|Q]|(b' & Ib & Q)]; auto; right; [exists b|exists b']; (split; [|auto]); [now left|now right].
    + intros [Q|(b' & [<-|Ib] & Q)]; auto. right. eauto.
Qed.

Section Expand.
Context (sizes : list nat) (n : nat) (NS : n = list_sum sizes).
Notation M := (ex_mapping sizes 0).
Notation at_' := (at_ sizes 0).

Lemma inner_ok parts acc : length acc = n ->
  length parts = length sizes -> (forall i part, nth_error parts i = Some part -> nth_error sizes i = Some (length part) /\ wf_graph part) ->
  exists acc', ex_inner M parts acc = Some acc' /\ length acc' = n /\
    forall u v, edge acc' u v <-> edge acc u v \/ exists i j j' part, nth_error parts i = Some part /\ edge part j j' /\ at_' i j u /\ at_' i j' v.
Proof.
  intros LA LP H. unfold ex_inner.
  destruct (ofold_edges (fun acc i => part <- get parts i ;; mp <- get M i ;; ofold (fun acc j => ns <- get part j ;; ofold (fun acc nei => x <- get mp j ;; y <- get mp nei ;; ins acc x y) ns acc) (seq 0 (length mp)) acc)
    (fun i u v => exists j j' part, nth_error parts i = Some part /\ edge part j j' /\ at_' i j u /\ at_' i j' v) n (seq 0 (length parts)) acc) as (acc' & E & L & F); auto.
  - intros i a Ii La. apply in_seq in Ii. destruct (get_some parts i) as (part & Gp); [lia|]. destruct (get_some M i) as (mp & Gm). { rewrite mapping_length. lia. }
    rewrite Gp, Gm. cbn [obind]. destruct (H i part Gp) as [Sz W]. pose proof (mapping_nth _ _ _ _ Gm) as Sm. rewrite Sz in Sm. apply some_eq in Sm.
    destruct (ofold_edges (fun acc j => ns <- get part j ;; ofold (fun acc nei => x <- get mp j ;; y <- get mp nei ;; ins acc x y) ns acc)
       (fun j u v => exists j', edge part j j' /\ at_' i j u /\ at_' i j' v) n (seq 0 (length mp)) a) as (a1 & E1 & L1 & F1); auto.
    + intros j b Ij Lb. apply in_seq in Ij. destruct (get_some part j) as (ns & Gn); [lia|]. rewrite Gn. cbn [obind]. destruct (get_some mp j) as (x & Gx); [lia|].
      assert (Lx : x < n). { rewrite NS. eapply (at_range sizes 0 i j). exists mp. auto. }
      destruct (ofold_edges (fun acc nei => x <- get mp j ;; y <- get mp nei ;; ins acc x y) (fun j' u v => at_' i j u /\ at_' i j' v) n ns b) as (b1 & E2 & L2 & F2); auto.
      * intros j' c Ij' Lc. rewrite Gx. cbn [obind]. destruct (get_some mp j') as (y & Gy). { rewrite Sm. apply (W j). exists ns. auto. } rewrite Gy. cbn [obind].
        destruct (ins_ok c x y) as (c' & Ec & Lc' & Fc); [lia|]. exists c'. split; auto. split; [lia|]. intros u v. rewrite Fc. split; intros [Q|[Q1 Q2]]; auto.
        -- subst. right. split; exists mp; auto.
        -- right. split; [eapply (at_fun sizes 0 i j); eauto; exists mp; auto|eapply (at_fun sizes 0 i j'); eauto; exists mp; auto].
      * exists b1. split; auto. split; auto. intros u v. rewrite F2. split; intros [Q|(j' & Q1 & Q2)]; auto; right; exists j'.
        -- split; [exists ns; auto|auto].
        -- split; auto. destruct Q1 as (l & G & I). unfold get in Gn. rewrite Gn in G. apply some_eq in G. now subst.
    + exists a1. split; auto. split; auto. intros u v. rewrite F1. split.
      * intros [Q|(j & Ij & j' & Q1 & Q2)]; auto. right. exists j, j', part. auto.
      * intros [Q|(j & j' & part' & G & Q1 & Q2 & Q3)]; auto. unfold get in Gp. rewrite Gp in G. apply some_eq in G. subst part'. right. exists j. split; [|eauto].
        apply in_seq. split; [lia|]. cbn. rewrite Sm. destruct Q1 as (l & G & _). apply nth_error_Some. congruence.
  - exists acc'. split; auto. split; auto. intros u v. rewrite F. split.
    + intros [Q|(i & _ & j & j' & part & Q)]; auto. right. eauto 8.
    + intros [Q|(i & j & j' & part & Q)]; auto. right. exists i. split; [|eauto 8]. apply in_seq. split; [lia|]. cbn. apply nth_error_Some. destruct Q as [Q _]. congruence.
Qed.

Lemma outer_ok outer acc : length acc = n -> length outer = length sizes -> wf_graph outer ->
  exists acc', ex_outer M outer acc = Some acc' /\ length acc' = n /\
    forall u v, edge acc' u v <-> edge acc u v \/ exists i i' j j', edge outer i i' /\ at_' i j u /\ at_' i' j' v.
Proof.
  intros LA LO W. unfold ex_outer.
  destruct (ofold_edges (fun acc i => ns <- get outer i ;; mi <- get M i ;; ofold (fun acc nei => mn <- get M nei ;; ofold (fun acc '(x, y) => ins acc x y) (list_prod mi mn) acc) ns acc)
    (fun i u v => exists i' j j', edge outer i i' /\ at_' i j u /\ at_' i' j' v) n (seq 0 (length outer)) acc) as (acc' & E & L & F); auto.
  - intros i a Ii La. apply in_seq in Ii. destruct (get_some outer i) as (ns & Gn); [lia|]. destruct (get_some M i) as (mi & Gm). { rewrite mapping_length. lia. } rewrite Gn, Gm. cbn [obind].
    destruct (ofold_edges (fun acc nei => mn <- get M nei ;; ofold (fun acc '(x, y) => ins acc x y) (list_prod mi mn) acc)
       (fun i' u v => exists j j', at_' i j u /\ at_' i' j' v) n ns a) as (a1 & E1 & L1 & F1); auto.
    + intros i' b Ii' Lb. destruct (get_some M i') as (mn & Gmn). { rewrite mapping_length, <- LO. apply (W i). exists ns. auto. } rewrite Gmn. cbn [obind].
      destruct (ofold_edges (fun acc '(x, y) => ins acc x y) (fun p u v => u = fst p /\ v = snd p) n (list_prod mi mn) b) as (b1 & E2 & L2 & F2); auto.
      * intros [x y] c Ip Lc. apply in_prod_iff in Ip as [Ix Iy]. destruct (ins_ok c x y) as (c' & Ec & Lc' & Fc).
        { destruct (proj1 (at_In sizes 0 i x)) as (j & A); [exists mi; auto|]. apply at_range in A. lia. }
        exists c'. split; auto. split; [lia|]. intros u v. rewrite Fc. cbn [fst snd]. tauto.
      * exists b1. split; auto. split; auto. intros u v. rewrite F2. split.
        -- intros [Q|([x y] & Ip & -> & ->)]; auto. right. cbn [fst snd]. apply in_prod_iff in Ip as [Ix Iy].
           destruct (proj1 (at_In sizes 0 i x)) as (j & A); [exists mi; auto|]. destruct (proj1 (at_In sizes 0 i' y)) as (j' & A'); [exists mn; auto|]. eauto.
        -- intros [Q|(j & j' & A & A')]; auto. right. exists (u, v). split; [|auto]. apply in_prod_iff. unfold get in Gm, Gmn.
           destruct A as (m1 & G1 & I1). destruct A' as (m2 & G2 & I2). rewrite Gm in G1. rewrite Gmn in G2. apply some_eq in G1. apply some_eq in G2. subst. split; eapply nth_error_In; eauto.
    + exists a1. split; auto. split; auto. intros u v. rewrite F1. split.
      * intros [Q|(i' & Ii' & j & j' & Q)]; auto. right. exists i', j, j'. split; auto. exists ns. auto.
      * intros [Q|(i' & j & j' & (l & G & I) & Q)]; auto. right. unfold get in Gn. rewrite Gn in G. apply some_eq in G. subst l. eauto.
  - exists acc'. split; auto. split; auto. intros u v. rewrite F. split.
    + intros [Q|(i & _ & i' & j & j' & Q)]; auto. right. eauto 8.
    + intros [Q|(i & i' & j & j' & Q)]; auto. right. exists i. split; [|eauto 8]. apply in_seq. split; [lia|]. cbn. destruct Q as ((l & G & _) & _). apply nth_error_Some. congruence.
Qed.

(** The order composed of an outer order and the orders of the parts. *)
Definition lex (outer : list (list nat)) (parts : list (list (list nat))) (u v : nat) : Prop :=
  (exists i j j' part, nth_error parts i = Some part /\ precedes part j j' /\ at_' i j u /\ at_' i j' v) \/
  (exists i i' j j', precedes outer i i' /\ at_' i j u /\ at_' i' j' v).

Lemma lex_trans outer parts u v w : lex outer parts u v -> lex outer parts v w -> lex outer parts u w.
Proof.
  intros [(i & j & j' & part & G & Q & A & A')|(i & i' & j & j' & Q & A & A')] [(i2 & j2 & j2' & part2 & G2 & Q2 & A2 & A2')|(i2 & i2' & j2 & j2' & Q2 & A2 & A2')];
    destruct (at_inj _ _ _ _ _ _ _ A' A2) as [<- <-].
  - rewrite G in G2. apply some_eq in G2. subst part2. left. exists i, j, j2', part. split; [auto|]. split; [eapply prec_trans; eauto|auto].
  - right. exists i, i2', j, j2'. auto.
  - right. exists i, i', j, j2'. auto.
  - right. exists i, i2', j, j2'. split; [eapply prec_trans; eauto|auto].
Qed.

Lemma expand_order outer parts a : length parts = length sizes -> length outer = length sizes -> wf_graph outer ->
  (forall i part, nth_error parts i = Some part -> nth_error sizes i = Some (length part) /\ wf_graph part) -> (forall s, In s sizes -> 0 < s) ->
  (forall u v, edge a u v <-> (exists i j j' part, nth_error parts i = Some part /\ edge part j j' /\ at_' i j u /\ at_' i j' v) \/ (exists i i' j j', edge outer i i' /\ at_' i j u /\ at_' i' j' v)) ->
  forall u v, precedes a u v <-> lex outer parts u v.
Proof.
  intros LP LO W H PS F u v. split.
  - intros Q. induction Q as [u v Q|u v w _ A _ B]; [|eapply lex_trans; eauto]. apply F in Q as [(i & j & j' & part & G & Q & A & A')|(i & i' & j & j' & Q & A & A')].
    + left. exists i, j, j', part. split; auto. split; [now apply t_step|auto].
    + right. exists i, i', j, j'. split; [now apply t_step|auto].
  - intros [(i & j & j' & part & G & Q & A & A')|(i & i' & j & j' & Q & A & A')].
    + destruct (H i part G) as [Sz Wp]. revert u v A A'. induction Q as [j j' Q|j k j' Q1 IH1 Q2 IH2]; intros u v A A'.
      * apply t_step. apply F. left. eauto 8.
      * destruct (at_ex sizes 0 i k (length part) Sz) as (w & B). { now apply (prec_lt part k j'). } apply t_trans with w; [apply IH1|apply IH2]; auto.
    + revert j j' u v A A'. induction Q as [i i' Q|i k i' Q1 IH1 Q2 IH2]; intros j j' u v A A'.
      * apply t_step. apply F. right. eauto 8.
      * destruct (nth_error sizes k) as [s|] eqn:Gs. 2:{ apply nth_error_None in Gs. apply (prec_lt outer k i') in Q2; auto. lia. }
        destruct (at_ex sizes 0 k 0 s Gs) as (w & B). { apply PS. eapply nth_error_In; eauto. } apply t_trans with w; [eapply IH1; eauto|eapply IH2; eauto].
Qed.

Lemma lex_irr outer parts u : dag outer -> (forall i part, nth_error parts i = Some part -> dag part) -> ~ lex outer parts u u.
Proof.
  intros D DP [(i & j & j' & part & G & Q & A & A')|(i & i' & j & j' & Q & A & A')]; destruct (at_inj _ _ _ _ _ _ _ A A') as [E1 E2]; subst.
  - exact (DP _ _ G _ Q).
  - exact (D _ Q).
Qed.
End Expand.

(** ** expandSOG *)
Record wf_lsog (s : lsog) : Prop := {
  wl_adj : length (l_adj s) = l_n s;
  wl_bdj : length (l_bdj s) = l_n s;
  wl_lab : length (l_labels s) = l_n s;
  wl_wa : wf_graph (l_adj s);
  wl_wb : wf_graph (l_bdj s);
  wl_dag : dag (l_adj s);
  wl_conv : converse (l_adj s) (l_bdj s);
  wl_pos : 0 < l_n s }.

Lemma fold_add l : forall a, fold_left Nat.add l a = a + list_sum l.
Proof. induction l as [|x l IH]; intros a; cbn; [lia|]. rewrite IH. unfold list_sum. cbn. lia. Qed.
Lemma leaf_count parts : length (flat_map l_leaf parts) = list_sum (map l_n parts).
Proof. induction parts as [|p r IH]; cbn; auto. rewrite app_length, IH. reflexivity. Qed.
Lemma edge_repeat n u v : ~ edge (repeat [] n) u v.
Proof. intros (l & G & I). apply nth_error_In, repeat_spec in G. subst. destruct I. Qed.

Lemma part_inv {A} (f : lsog -> A) parts i x : nth_error (map f parts) i = Some x -> exists p, nth_error parts i = Some p /\ x = f p.
Proof. rewrite nth_error_map. destruct (nth_error parts i) as [p|]; [|discriminate]. cbn. intros Q. apply some_eq in Q. eauto. Qed.

Lemma expand_ok adj bdj parts : length adj = length parts -> length bdj = length parts -> wf_graph adj -> wf_graph bdj -> dag adj -> converse adj bdj ->
  parts <> [] -> Forall wf_lsog parts ->
  exists s, expand_sog adj bdj parts = Some s /\ wf_lsog s /\ l_leaf s = flat_map l_leaf parts /\ l_labels s = flat_map l_labels parts /\
    forall u v, precedes (l_adj s) u v <-> lex (map l_n parts) adj (map l_adj parts) u v.
Proof.
  intros LA LB WA WB D C NE WF. rewrite Forall_forall in WF. unfold expand_sog. destruct (Nat.ltb_spec (length adj) (length parts)); [lia|].
  rewrite LA, Nat.sub_diag. cbn [repeat]. rewrite app_nil_r, fold_add. cbn [Nat.add].
  set (sizes := map l_n parts). set (n := list_sum sizes).
  assert (SZ : forall (f : lsog -> list (list nat)), (forall p, In p parts -> length (f p) = l_n p /\ wf_graph (f p)) ->
     forall i part, nth_error (map f parts) i = Some part -> nth_error sizes i = Some (length part) /\ wf_graph part).
  { intros f H0 i part G. apply part_inv in G as (p & Gp & ->). destruct (H0 p) as [E W]; [eapply nth_error_In; eauto|]. split; auto. unfold sizes. rewrite nth_error_map, Gp. cbn. congruence. }
  assert (SA := SZ l_adj (fun p Hp => conj (wl_adj p (WF p Hp)) (wl_wa p (WF p Hp)))). assert (SB := SZ l_bdj (fun p Hp => conj (wl_bdj p (WF p Hp)) (wl_wb p (WF p Hp)))).
  assert (PS : forall s, In s sizes -> 0 < s). { intros s Hs. apply in_map_iff in Hs as (p & <- & Hp). apply (WF p Hp). }
  destruct (inner_ok sizes n eq_refl (map l_adj parts) (repeat [] n)) as (a1 & E1 & L1 & F1); auto. { apply repeat_length. } { unfold sizes. now rewrite !map_length. } rewrite E1. cbn [obind].
  destruct (outer_ok sizes n eq_refl adj a1) as (a2 & E2 & L2 & F2); auto. { unfold sizes. now rewrite !map_length. } rewrite E2. cbn [obind].
  destruct (inner_ok sizes n eq_refl (map l_bdj parts) (repeat [] n)) as (b1 & E3 & L3 & F3); auto. { apply repeat_length. } { unfold sizes. now rewrite !map_length. } rewrite E3. cbn [obind].
  destruct (outer_ok sizes n eq_refl bdj b1) as (b2 & E4 & L4 & F4); auto. { unfold sizes. now rewrite !map_length. } rewrite E4. cbn [obind].
  assert (OA : forall u v, precedes a2 u v <-> lex sizes adj (map l_adj parts) u v).
  { apply (expand_order sizes n eq_refl); auto; try (unfold sizes; now rewrite !map_length). intros u v. rewrite F2, F1. pose proof (edge_repeat n u v). tauto. }
  assert (OB : forall u v, precedes b2 u v <-> lex sizes bdj (map l_bdj parts) u v).
  { apply (expand_order sizes n eq_refl); auto; try (unfold sizes; now rewrite !map_length). intros u v. rewrite F4, F3. pose proof (edge_repeat n u v). tauto. }
  assert (WA2 : wf_graph a2). { intros u v Q. rewrite L2. assert (Z : lex sizes adj (map l_adj parts) u v) by (apply OA; now apply t_step).
    destruct Z as [(i & j & j' & part & _ & _ & _ & A)|(i & i' & j & j' & _ & _ & A)]; apply at_range in A; unfold n; lia. }
  assert (WB2 : wf_graph b2). { intros u v Q. rewrite L4. assert (Z : lex sizes bdj (map l_bdj parts) u v) by (apply OB; now apply t_step).
    destruct Z as [(i & j & j' & part & _ & _ & _ & A)|(i & i' & j & j' & _ & _ & A)]; apply at_range in A; unfold n; lia. }
  assert (DA : dag a2). { intros u Q. apply OA in Q. apply (lex_irr sizes) in Q; auto. intros i part G. apply part_inv in G as (p & Gp & ->). apply wl_dag, WF. eapply nth_error_In; eauto. }
  destruct (remove_ok a2 WA2) as (a3 & E5 & L5 & F5). rewrite E5. cbn [obind]. pose proof (reduction_closure a2 a3 WA2 DA F5) as RC.
  eexists. split; [reflexivity|]. split; [|split; [reflexivity|split; [reflexivity|]]].
  - assert (LN : length (flat_map l_leaf parts) = n) by apply leaf_count.
    constructor; unfold l_n; cbn [l_adj l_bdj l_labels l_leaf]; rewrite ?LN; try lia; auto.
    + rewrite <- LN. clear -WF. induction parts as [|p r IH]; cbn; auto. rewrite !app_length. rewrite IH by (intros x Hx; apply WF; now right). rewrite (wl_lab p) by (apply WF; now left). reflexivity.
    + intros u v Q. rewrite L5. apply (WA2 u). now apply F5.
    + intros u Q. apply RC in Q. exact (DA u Q).
    + intros u v. rewrite OB, RC, OA. unfold lex. split.
      * intros [(i & j & j' & part & G & Q & A & A')|(i & i' & j & j' & Q & A & A')].
        -- apply part_inv in G as (p & Gp & ->). left. exists i, j', j, (l_adj p). split; [rewrite nth_error_map, Gp; reflexivity|]. split; auto. apply (wl_conv p); auto. apply WF. eapply nth_error_In; eauto.
        -- right. exists i', i, j', j. split; auto. now apply C.
      * intros [(i & j & j' & part & G & Q & A & A')|(i & i' & j & j' & Q & A & A')].
        -- apply part_inv in G as (p & Gp & ->). left. exists i, j', j, (l_bdj p). split; [rewrite nth_error_map, Gp; reflexivity|]. split; auto. apply (wl_conv p); auto. apply WF. eapply nth_error_In; eauto.
        -- right. exists i', i, j', j. split; auto. now apply C.
    + destruct parts as [|p r]; [contradiction|]. unfold n, sizes. cbn. assert (0 < l_n p) by (apply WF; now left). unfold list_sum. cbn. lia.
  - intros u v. cbn [l_adj]. rewrite RC. apply OA.
Qed.

(** ** Decomposition trees *)
Lemma number_at (l : list (list (list nat))) : forall k cur u q, nth_error (number k l cons) u = Some q <->
  exists i j p x, q = (k + i) :: p /\ nth_error l i = Some x /\ nth_error x j = Some p /\ at_ (map (@length _) l) cur i j (cur + u).
Proof.
  induction l as [|x r IH]; intros k cur u q; cbn [number map].
  - split; [destruct u; discriminate|]. intros (i & j & p & y & _ & G & _). destruct i; discriminate.
  - destruct (Nat.ltb_spec u (length x)) as [L|L].
    + rewrite nth_error_app1 by now rewrite map_length. rewrite nth_error_map. split.
      * destruct (nth_error x u) as [p|] eqn:G; [|discriminate]. cbn. intros Q. apply some_eq in Q. exists 0, u, p, x. rewrite Nat.add_0_r. split; auto. split; auto. split; auto. apply at_0. lia.
      * intros ([|i] & j & p & y & -> & G & Gp & A).
        -- cbn in G. apply some_eq in G. subst y. rewrite at_0 in A. replace j with u in Gp by lia. rewrite Gp, Nat.add_0_r. reflexivity.
        -- rewrite at_S in A. apply at_range in A. lia.
    + rewrite nth_error_app2 by now rewrite map_length. rewrite map_length. rewrite (IH (S k) (cur + length x) (u - length x) q). replace (cur + length x + (u - length x)) with (cur + u) by lia. split.
      * intros (i & j & p & y & -> & G & Gp & A). exists (S i), j, p, y. split; [f_equal; lia|]. split; [auto|]. split; [auto|]. now apply at_S.
      * intros ([|i] & j & p & y & -> & G & Gp & A).
        -- rewrite at_0 in A. cbn in G. apply some_eq in G. subst y. assert (j < length x) by (apply nth_error_Some; congruence). lia.
        -- exists i, j, p, y. split; [f_equal; lia|]. split; [auto|]. split; [auto|]. now rewrite at_S in A.
Qed.
Lemma number_length (l : list (list (list nat))) : forall k, length (number k l cons) = list_sum (map (@length _) l).
Proof. induction l as [|x r IH]; intros k; cbn; auto. rewrite app_length, map_length, IH. reflexivity. Qed.

Lemma tree_before_cons adj bdj cs i i' p q : tree_before (ONode adj bdj cs) (i :: p) (i' :: q) <->
  precedes adj i i' \/ (i = i' /\ exists c, nth_error cs i = Some c /\ tree_before c p q).
Proof.
  split.
  - intros (r & k & k' & p' & q' & a & b & c & E1 & E2 & G & Q). destruct r as [|x r]; cbn [app] in E1, E2.
    + cbn in G. apply some_eq in G. injection G as -> -> ->. injection E1 as -> ->. injection E2 as -> ->. auto.
    + injection E1 as -> ->. injection E2 as -> ->. right. split; auto. cbn in G. destruct (nth_error cs x) as [d|]; [|discriminate]. exists d. split; auto. exists r, k, k', p', q', a, b, c. auto.
  - intros [Q|(-> & c & Gc & (r & k & k' & p' & q' & a & b & d & -> & -> & G & Q))].
    + exists [], i, i', p, q, adj, bdj, cs. auto.
    + exists (i' :: r), k, k', p', q', a, b, d. split; auto. split; auto. split; auto. cbn. now rewrite Gc.
Qed.

(** what is known about a leaf *)
Definition leaf_ok (t : otree) (s : lsog) : Prop := l_n s = length (leaf_paths t) /\
  forall u p, nth_error (leaf_paths t) u = Some p -> exists id prims abs ls, subtree t p = Some (OLeaf id prims abs) /\ nth_error (l_leaf s) u = Some id /\
    nth_error (l_labels s) u = Some ls /\ forall x, In x ls <-> In x prims \/ In x abs.
Definition order_ok (t : otree) (s : lsog) : Prop := forall u v p q, nth_error (leaf_paths t) u = Some p -> nth_error (leaf_paths t) v = Some q ->
  (precedes (l_adj s) u v <-> tree_before t p q).

Fixpoint otree_ind' (Q : otree -> Prop) (HL : forall id prims abs, Q (OLeaf id prims abs)) (HN : forall adj bdj cs, Forall Q cs -> Q (ONode adj bdj cs)) (t : otree) : Q t :=
  match t with
  | OLeaf id prims abs => HL id prims abs
  | ONode adj bdj cs => HN adj bdj cs ((fix go (l : list otree) : Forall Q l := match l with [] => Forall_nil Q | c :: r => Forall_cons c (otree_ind' Q HL HN c) (go r) end) cs)
  end.

Lemma flat_map_at {A} (f : lsog -> list A) parts : (forall p, In p parts -> length (f p) = l_n p) ->
  forall cur i j u p, nth_error parts i = Some p -> at_ (map l_n parts) cur i j (cur + u) -> nth_error (flat_map f parts) u = nth_error (f p) j.
Proof.
  induction parts as [|p r IH]; intros H cur [|i] j u x G AT; cbn in G; try discriminate; cbn [flat_map map] in *.
  - apply some_eq in G. subst x. rewrite at_0 in AT. rewrite nth_error_app1; [f_equal; lia|]. rewrite H by now left. lia.
  - rewrite at_S in AT. pose proof (at_range _ _ _ _ _ AT) as R. assert (Hp : length (f p) = l_n p) by (apply H; now left).
    rewrite nth_error_app2 by lia. eapply (IH (fun y Hy => H y (or_intror Hy)) (cur + l_n p) i); eauto. replace (cur + l_n p + (u - length (f p))) with (cur + u) by lia. auto.
Qed.

Lemma tree_ok t : wf_otree t -> exists s, leaf_sogs t = Some s /\ wf_lsog s /\ leaf_ok t s /\ order_ok t s.
Proof.
  induction t as [id prims abs|adj bdj cs IH] using otree_ind'; intros WF.
  - exists (leaf_sog id prims abs). split; auto. assert (NE : forall x y, ~ edge [[]] x y). { intros x y (l & G & I). destruct x as [|[|x]]; cbn in G; try discriminate. apply some_eq in G. subst l. destruct I. }
    assert (NP : forall x y, ~ precedes [[]] x y). { intros x y Q. induction Q as [x y Q|]; [exact (NE x y Q)|auto]. }
    split; [|split].
    + constructor; unfold l_n, leaf_sog; cbn; auto.
      * intros x y Q. elim (NE x y Q).
      * intros x y Q. elim (NE x y Q).
      * intros x Q. exact (NP x x Q).
      * intros x y. split; intros Q; elim (NP _ _ Q).
    + split; [reflexivity|]. intros u p G. destruct u as [|[|u]]; cbn in G; try discriminate. apply some_eq in G. subst p. exists id, prims, abs, (union (union [] prims) abs).
      split; [reflexivity|]. split; [reflexivity|]. split; [reflexivity|]. intros x. rewrite !union_In. cbn [In]. tauto.
    + intros u v p q Gu Gv. destruct u as [|[|u]]; cbn in Gu; try discriminate. destruct v as [|[|v]]; cbn in Gv; try discriminate. apply some_eq in Gu. apply some_eq in Gv. subst.
      split; [intros Q; elim (NP _ _ Q)|]. intros (r & i & j & p' & q' & a & b & c & E & _). destruct r; discriminate.
  - inversion WF as [|? ? ? LA LB NE WA WB D C FW]; subst. cbn [leaf_sogs].
    assert (GO : exists parts, (fix go (l : list otree) : option (list lsog) := match l with [] => Some [] | c :: r => p <- leaf_sogs c ;; ps <- go r ;; Some (p :: ps) end) cs = Some parts /\
       Forall2 (fun c s => wf_lsog s /\ leaf_ok c s /\ order_ok c s) cs parts).
    { clear -IH FW. induction cs as [|c r IHr].
      - exists []. split; auto.
      - inversion IH as [|? ? I1 I2]; subst. inversion FW as [|? ? F1 F2]; subst. destruct (I1 F1) as (s & E & Z). destruct (IHr I2 F2) as (ps & E2 & F). rewrite E. cbn [obind]. rewrite E2. cbn [obind].
        exists (s :: ps). split; auto. }
    destruct GO as (parts & EP & FP). rewrite EP. cbn [obind]. clear EP IH WF.
    assert (LC : length cs = length parts). { clear -FP. induction FP; cbn; auto. }
    assert (PT : forall i c, nth_error cs i = Some c -> exists s, nth_error parts i = Some s /\ wf_lsog s /\ leaf_ok c s /\ order_ok c s).
    { clear -FP. induction FP as [|c s cs parts H F IH]; intros [|i] c' G; cbn in G; try discriminate; [apply some_eq in G; subst; exists s; auto|now apply IH]. }
    assert (WP : Forall wf_lsog parts). { clear -FP. induction FP as [|c s cs parts (H & _) F IH]; constructor; auto. }
    destruct (expand_ok adj bdj parts) as (s & E & WS & EL & ELB & EO); auto; try congruence. { intros ->. destruct cs; [contradiction|discriminate]. }
    exists s. split; auto. split; auto.
    assert (SZ : map (@length (list nat)) (map leaf_paths cs) = map l_n parts).
    { clear -FP. induction FP as [|c x cs parts (_ & (H & _) & _) F IH]; cbn; auto. rewrite IH. f_equal. auto. }
    assert (NA : forall u q, nth_error (leaf_paths (ONode adj bdj cs)) u = Some q -> exists i j p c, q = i :: p /\ nth_error cs i = Some c /\ nth_error (leaf_paths c) j = Some p /\ at_ (map l_n parts) 0 i j u).
    { intros u q G. cbn [leaf_paths] in G. apply (number_at _ 0 0) in G as (i & j & p & x & -> & G & Gp & A). rewrite SZ in A. cbn [Nat.add] in *. rewrite nth_error_map in G.
      destruct (nth_error cs i) as [c|] eqn:Gc; [|discriminate]. cbn in G. apply some_eq in G. subst x. exists i, j, p, c. auto. }
    split.
    + split.
      * unfold l_n. rewrite EL, leaf_count. cbn [leaf_paths]. rewrite number_length, SZ. reflexivity.
      * intros u q G. destruct (NA u q G) as (i & j & p & c & -> & Gc & Gp & A). destruct (PT i c Gc) as (x & Gx & Wx & (_ & LO) & _).
        destruct (LO j p Gp) as (id & prims & abs & ls & S1 & S2 & S3 & S4). exists id, prims, abs, ls. split; [cbn; now rewrite Gc|].
        rewrite EL, ELB. rewrite Forall_forall in WP. rewrite (flat_map_at l_leaf parts (fun p Hp => eq_refl) 0 i j u x Gx A).
        rewrite (flat_map_at l_labels parts (fun p Hp => wl_lab p (WP p Hp)) 0 i j u x Gx A). auto.
    + intros u v q q' G G'. destruct (NA u q G) as (i & j & p & c & -> & Gc & Gp & A). destruct (NA v q' G') as (i' & j' & p' & c' & -> & Gc' & Gp' & A').
      rewrite EO, tree_before_cons. unfold lex. split.
      * intros [(k & l & l' & part & Gk & Q & B & B')|(k & k' & l & l' & Q & B & B')].
        -- destruct (at_inj _ _ _ _ _ _ _ A B) as [<- <-]. destruct (at_inj _ _ _ _ _ _ _ A' B') as [-> <-]. right. split; auto. exists c. split; auto.
           rewrite Gc in Gc'. apply some_eq in Gc'. subst c'. destruct (PT i c Gc) as (x & Gx & _ & _ & OR). rewrite nth_error_map, Gx in Gk. cbn in Gk. apply some_eq in Gk. subst part. now apply (OR j j').
        -- destruct (at_inj _ _ _ _ _ _ _ A B) as [<- <-]. destruct (at_inj _ _ _ _ _ _ _ A' B') as [<- <-]. auto.
      * intros [Q|(-> & d & Gd & Q)].
        -- right. exists i, i', j, j'. auto.
        -- left. rewrite Gd in Gc, Gc'. apply some_eq in Gc. apply some_eq in Gc'. subst c c'. destruct (PT i' d Gd) as (x & Gx & _ & _ & OR).
           exists i', j, j', (l_adj x). split; [rewrite nth_error_map, Gx; reflexivity|]. split; auto. now apply (OR j j' p p').
Qed.
