(** Meaning of the clauses of the tree. *)
From Verif Require Import Base Htn_problem Htn_spec Sat_model Sat_spec Sat_proof Sf_proof Tab_proof Pdt_model Pdt_spec Pdt_tree Pdt_expand Pdt_prune Pdt_leafs Pdt_vars.
Local Open Scope Z_scope.

Lemma count_unique v is : NoDup is -> ((count_true v is <= 1)%nat <-> forall x y, In x is -> In y is -> lit_true v x = true -> lit_true v y = true -> x = y).
Proof.
  intros ND. rewrite count_one. unfold at_most_one. split.
  - intros H x y Hx Hy Tx Ty. apply In_nth_error in Hx as (i & Hi). apply In_nth_error in Hy as (j & Hj). assert (i = j) by (eapply H; eauto). congruence.
  - intros H i j x y Hi Hj Tx Ty. assert (x = y) by (apply H; eauto using nth_error_In). subst y. eapply nodup_nth; eauto.
Qed.
Lemma omap_clauses {A} (Q : assignment -> Prop) (f : A -> option (list clause)) (B : assignment -> A -> Prop) n l :
  (forall x, In x l -> exists c, f x = Some c /\ vars_le n c /\ forall v, Q v -> (satisfies v c <-> B v x)) ->
  exists cs, omap f l = Some cs /\ vars_le n (concat cs) /\ forall v, Q v -> (satisfies v (concat cs) <-> forall x, In x l -> B v x).
Proof.
  induction l as [|x r IH]; intros H; cbn [omap].
  - exists []. split; auto. split; [apply vars_nil|]. intros v _. split; [intros _ x []|intros _; apply sat_nil].
  - destruct (H x (or_introl eq_refl)) as (c & -> & V & S). cbn [obind]. destruct (IH (fun y Hy => H y (or_intror Hy))) as (cs & -> & V' & S'). cbn [obind concat]. exists (c :: cs). split; auto. split; [apply vars_app; auto|]. intros v Hv. cbn [concat]. rewrite sat_app, (S v Hv), (S' v Hv). split.
    + intros [H1 H2] y [<-|Hy]; auto.
    + intros HH. split; [apply HH; now left|]. intros y Hy. apply HH. now right.
Qed.
Lemma obind_clauses (Q : assignment -> Prop) (o : option (list (list clause))) (B : assignment -> Prop) n :
  (exists cs, o = Some cs /\ vars_le n (concat cs) /\ forall v, Q v -> (satisfies v (concat cs) <-> B v)) -> exists c, (cs <- o ;; Some (concat cs)) = Some c /\ vars_le n c /\ forall v, Q v -> (satisfies v c <-> B v).
Proof. intros (cs & -> & H). cbn [obind]. eauto. Qed.
Lemma vars_implies n i j : lit_ok n i -> lit_ok n j -> vars_le n (implies i j).
Proof. intros Hi Hj. apply vars_cons. split; [|apply vars_nil]. intros l [<-|[<-|[]]]; auto. unfold lit_ok in *. lia. Qed.
Lemma vars_implies_or n i j : lit_ok n i -> (forall x, In x j -> lit_ok n x) -> vars_le n (impliesOr i j).
Proof. intros Hi Hj. apply vars_cons. split; [|apply vars_nil]. intros l [<-|H]; auto. unfold lit_ok in *. lia. Qed.
Lemma vars_all_not n i j : lit_ok n i -> (forall x, In x j -> lit_ok n x) -> vars_le n (impliesAllNot i j).
Proof. intros Hi Hj c l Hc Hl. apply in_map_iff in Hc as (x & <- & Hx). destruct Hl as [<-|[<-|[]]]; [unfold lit_ok in *; lia|]. specialize (Hj x Hx). unfold lit_ok in *. lia. Qed.

Record filled (P : problem) (F : flags) (q : list nat) (d : pnode) : Prop := {
  fl_none : exists z, pn_none d = Some z;
  fl_len : forall pr, length (cvars pr d) = length (ctasks pr d);
  fl_get : forall pr i x, nth_error (ctasks pr d) i = Some x -> ~ In (itask pr q i) F -> exists v, nth_error (cvars pr d) i = Some (Some v);
  fl_meth : pn_exp d = true -> length (pn_mvar d) = length (pn_abs d) /\ forall a x, nth_error (pn_abs d) a = Some x -> exists mvs, nth_error (pn_mvar d) a = Some mvs /\ length mvs = nmeth P x /\
     forall m, (m < nmeth P x)%nat -> (exists v, nth_error mvs m = Some (Some v)) <-> ~ In (IM q a m) F }.
Lemma nasg_filled P F q d d' : nasg P F q d d' -> filled P F q d'.
Proof. intros N. destruct (core_eq _ _ (na_core _ _ _ _ _ N)) as (_ & C2 & _). destruct N as [N1 N2 N3 N4 N5 N6 N7 N8 N9 N10]. constructor; auto. intros E. rewrite C2. apply N10. congruence. Qed.

(** ** What is true *)
Section True.
  Variable v : assignment.
  Definition on (pr : bool) (d : pnode) (i : nat) : Prop := exists x, nth_error (cvars pr d) i = Some (Some x) /\ v x = true.
  Definition onm (d : pnode) (a m : nat) : Prop := exists mvs x, nth_error (pn_mvar d) a = Some mvs /\ nth_error mvs m = Some (Some x) /\ v x = true.
  Definition noneon (d : pnode) : Prop := exists z, pn_none d = Some z /\ v z = true.
  Definition oncause (d : pnode) (k : cause) : Prop := match k with (None, p) => on true d p | (Some a, m) => onm d a m end.
  (** nothing pruned is true *)
  Definition unpruned (F : flags) (q : list nat) (d : pnode) : Prop := forall pr i, on pr d i -> ~ In (itask pr q i) F.

  Definition sem_inherit (d : pnode) (ch : list pdt) : Prop := forall p c i j u, on true d p -> nth_error (pn_pos d) p = Some (c, i, j) -> nth_error ch c = Some u ->
    on true (dat u) i /\ forall c' u', nth_error ch c' = Some u' -> c' <> c -> noneon (dat u').
  Definition sem_method (d : pnode) (ch : list pdt) (a m : nat) : Prop := forall c u, nth_error ch c = Some u ->
    match find_ptr d a m c with Some k => on (cp_prim k) (dat u) (cp_task k) | None => noneon (dat u) end.
  Definition sem_abstract (d : pnode) (ch : list pdt) : Prop := (forall a m, onm d a m -> on false d a /\ sem_method d ch a m) /\ (forall a, on false d a -> exists m, onm d a m).
  Definition sem_child (F : flags) (q : list nat) (d : pnode) (ch : list pdt) : Prop := forall c u pr i, nth_error ch c = Some u -> on pr (dat u) i ->
    exists cs j k, nth_error (ccauses pr (dat u)) i = Some cs /\ nth_error cs j = Some k /\ ~ In (icause pr (c :: q) i j) F /\ oncause d k.
  Definition sem_none (d : pnode) (ch : list pdt) : Prop := noneon d -> (forall pr i, ~ on pr d i) /\ forall u, In u ch -> noneon (dat u).
  Definition sem (F : flags) (q : list nat) (d : pnode) (ch : list pdt) : Prop := sem_inherit d ch /\ sem_abstract d ch /\ sem_child F q d ch /\ sem_none d ch.
End True.

(** the clauses of a node but the cardinality constraints *)
Definition plain (q : list nat) (F : flags) (d : pnode) (ch : list pdt) : option (list clause) :=
  c3 <- cl_inherit d ch ;;
  c4 <- cl_abstract d ch ;;
  c5 <- omap (cl_child q F d) (enum ch) ;;
  c6 <- cl_none d ch ;;
  Some (c3 ++ c4 ++ concat c5 ++ c6).

Lemma avars_at path : forall t u x, subtree t path = Some u -> In x (avars u) -> In x (avars t).
Proof.
  induction path as [|c path IH]; intros [d ch] u x E H; cbn [subtree] in E; [injection E as <-; auto|]. apply obind_some in E as (w & E1 & E2). cbn [avars kids] in *. do 2 (apply in_or_app; right). apply in_flat_map. exists w. split; [eapply nth_error_In; exact E1|eauto].
Qed.

Section Clause.
  Context {KI : kind}.
  Variables (P : problem) (C : sconf) (F : flags) (T : pdt) (n0 : Z).
  Hypothesis TO : tree_ok P T.
  Hypothesis CL : forall q t, at_node T q t -> closed P F q t.
  Hypothesis FI : forall q t, at_node T q t -> filled P F q (dat t).
  Hypothesis BD : forall x, In x (avars T) -> 1 <= x <= n0.
  Hypothesis POS : 1 <= n0.
  Hypothesis BITS : bits_ok (s_bits C).

  Lemma own_bound q t x : at_node T q t -> In x (own_vars (dat t)) \/ In x (mvars (dat t)) -> 1 <= x <= n0.
  Proof. intros A H. apply BD. apply (avars_at (rev q) T t x A). destruct t as [d ch]. cbn [dat avars] in *. destruct H; apply in_or_app; [auto|]. right. apply in_or_app. auto. Qed.
  Lemma var_bound q t pr i x : at_node T q t -> nth_error (cvars pr (dat t)) i = Some (Some x) -> 1 <= x <= n0.
  Proof. intros A H. apply (own_bound q t x A). left. unfold own_vars. apply in_or_app. right. apply task_vars_in. eauto. Qed.
  Lemma none_bound q t z : at_node T q t -> pn_none (dat t) = Some z -> 1 <= z <= n0.
  Proof. intros A H. apply (own_bound q t z A). left. unfold own_vars. rewrite H. now left. Qed.
  Lemma meth_bound q t a mvs m x : at_node T q t -> pn_exp (dat t) = true -> nth_error (pn_mvar (dat t)) a = Some mvs -> nth_error mvs m = Some (Some x) -> 1 <= x <= n0.
  Proof. intros A Ee H1 H2. apply (own_bound q t x A). right. unfold mvars. rewrite Ee. apply in_flat_map. exists (Some x). split; [|now left]. apply in_concat. exists mvs. eauto using nth_error_In. Qed.
  Lemma pos_ok x : 1 <= x <= n0 -> lit_ok n0 x.
  Proof. unfold lit_ok. lia. Qed.

  Section Node.
    Variables (q : list nat) (d : pnode) (ch : list pdt).
    Hypothesis At : at_node T q (PNode d ch).
    Hypothesis Ee : pn_exp d = true.

    Lemma ch_at c u : nth_error ch c = Some u -> at_node T (c :: q) u.
    Proof. intros H. exact (at_child T q _ c u At H). Qed.
    Lemma node_good : node_ok P d (map dat ch).
    Proof. assert (H := at_ok P T TO _ _ At). apply tree_ok_node in H as (_ & H & _). rewrite Ee in H. apply H. Qed.
    Lemma dat_nth c u : nth_error ch c = Some u -> nth_error (map dat ch) c = Some (dat u).
    Proof. intros H. now rewrite nth_error_map, H. Qed.
    Lemma nth_dat c u : nth_error (map dat ch) c = Some u -> exists t, nth_error ch c = Some t /\ dat t = u.
    Proof. rewrite nth_error_map. destruct (nth_error ch c); [|discriminate]. cbn. intros H. injection H as <-. eauto. Qed.

    (** A task of a child with an unpruned cause is unpruned and so is the cause. *)
    Lemma child_unpruned c u pr i cs j k : nth_error ch c = Some u -> nth_error (ccauses pr (dat u)) i = Some cs -> nth_error cs j = Some k -> ~ In (cause_item q k) F -> ~ In (itask pr (c :: q) i) F.
    Proof. intros Hc Hi Hj N H. apply N. apply (cl_up P F _ _ (CL _ _ (ch_at c u Hc)) c q pr i cs j k eq_refl Hi Hj H). Qed.
    Lemma task_at c u pr i cs : nth_error ch c = Some u -> nth_error (ccauses pr (dat u)) i = Some cs -> exists x, nth_error (ctasks pr (dat u)) i = Some x.
    Proof. intros Hc Hi. apply get_some. rewrite <- (no_len _ _ _ node_good (dat u) pr); [eapply get_lt; exact Hi|]. eapply nth_error_In, dat_nth; eauto. Qed.
    Lemma pos_at p x : nth_error (pn_pvar d) p = Some x -> exists c i j u cs, nth_error (pn_pos d) p = Some (c, i, j) /\ nth_error ch c = Some u /\ nth_error (pn_prims (dat u)) i = nth_error (pn_prims d) p /\ nth_error (pn_cp (dat u)) i = Some cs /\ nth_error cs j = Some (None, p).
    Proof.
      intros H. assert (L : (p < length (pn_pos d))%nat). { rewrite (no_pos _ _ _ node_good). assert (Z := fl_len _ _ _ _ (FI _ _ At) true). cbn [cvars ctasks dat] in Z. rewrite <- Z. eapply get_lt; exact H. }
      apply get_some in L as ([[c i] j] & Hp). destruct (no_pos_ok _ _ _ node_good p c i j Hp) as (w & cs & H1 & H2 & H3 & H4). destruct (nth_dat c w H1) as (u & H5 & <-). exists c, i, j, u, cs. auto.
    Qed.

    Lemma none_clause x (us : list pdt) (Hx : lit_ok n0 x) (I : incl us ch) : exists cs, omap (fun u => z <- pn_none (dat u) ;; Some (implies x z)) us = Some cs /\ vars_le n0 (concat cs) /\ forall v, True -> (satisfies v (concat cs) <-> forall u, In u us -> (lit_true v x = true -> noneon v (dat u))).
    Proof.
      apply omap_clauses. intros u Hu. apply I, In_nth_error in Hu as (c & Hc). destruct (fl_none _ _ _ _ (FI _ _ (ch_at c u Hc))) as (z & Hz). assert (Bz := none_bound _ _ _ (ch_at c u Hc) Hz). rewrite Hz. cbn [obind]. eexists. split; [reflexivity|]. split; [apply vars_implies; auto; unfold lit_ok; lia|].
      intros v _. rewrite sat_implies by (unfold lit_ok in Hx; lia). rewrite (lit_pos v z) by lia. unfold noneon. rewrite Hz. split; intros H Tx; specialize (H Tx); [eauto|]. destruct H as (z' & E & Tz). congruence.
    Qed.

    Lemma inherit_clause : exists c, cl_inherit d ch = Some c /\ vars_le n0 c /\ forall v, unpruned v F q d -> (satisfies v c <-> sem_inherit v d ch).
    Proof.
      destruct (obind_clauses (fun v => unpruned v F q d) (omap (fun '(p, x) => match x with
                             | None => Some []
                             | Some pv =>
                                 '(c, i, _) <- get (pn_pos d) p ;;
                                 u <- get ch c ;;
                                 y <- get (pn_pvar (dat u)) i ;;
                                 os <- omap (fun '(c', u') => if Nat.eqb c c' then Some [] else z <- pn_none (dat u') ;; Some (implies pv z)) (enum ch) ;;
                                 Some (implies pv (vlit y) ++ concat os)
                             end) (enum (pn_pvar d))) (fun v => forall y, In y (enum (pn_pvar d)) -> forall pv, snd y = Some pv -> v pv = true -> forall c i j u, nth_error (pn_pos d) (fst y) = Some (c, i, j) -> nth_error ch c = Some u ->
             on v true (dat u) i /\ forall c' u', nth_error ch c' = Some u' -> c' <> c -> noneon v (dat u')) n0) as (cs & E & V & S).
      { apply omap_clauses. intros [p [pv|]] Hp; [|exists []; split; auto; split; [apply vars_nil|]; intros v _; split; [intros _ pv E; discriminate|intros _; apply sat_nil]].
        apply enum_in in Hp. destruct (pos_at p _ Hp) as (c & i & j & u & cs & P1 & P2 & P3 & P4 & P5). unfold get. rewrite P1. cbn [obind]. rewrite P2. cbn [obind].
        assert (Au := ch_at c u P2). assert (Lp : (i < length (pn_pvar (dat u)))%nat). { assert (Z := fl_len _ _ _ _ (FI _ _ Au) true). cbn [cvars ctasks dat] in Z. rewrite Z. destruct (task_at c u true i cs P2 P4) as (y & Hy). eapply get_lt; exact Hy. }
        apply get_some in Lp as (y & Hy). unfold get in Hy. rewrite Hy. cbn [obind]. assert (Bp := var_bound _ _ true p pv At Hp).
        destruct (omap_clauses (fun _ => True) (fun '(c', u') => if Nat.eqb c c' then Some [] else z <- pn_none (dat u') ;; Some (implies pv z)) (fun v y => fst y <> c -> v pv = true -> noneon v (dat (snd y))) n0 (enum ch)) as (os & Eo & Vo & So).
        { intros [c' u'] Hc. apply enum_in in Hc. cbn [fst snd]. destruct (Nat.eqb_spec c c') as [<-|NE]; [exists []; split; auto; split; [apply vars_nil|]; intros v _; split; [congruence|intros _; apply sat_nil]|].
          destruct (fl_none _ _ _ _ (FI _ _ (ch_at c' u' Hc))) as (z & Hz). assert (Bz := none_bound _ _ _ (ch_at c' u' Hc) Hz). rewrite Hz. cbn [obind]. eexists. split; [reflexivity|]. split; [apply vars_implies; apply pos_ok; auto|].
          intros v _. rewrite sat_implies by lia. rewrite !lit_pos by lia. unfold noneon. rewrite Hz. split; intros H; [intros _ Tp; eauto|]. intros Tp. destruct (H ltac:(congruence) Tp) as (z' & E & Tz). congruence. }
        rewrite Eo. cbn [obind]. eexists. split; [reflexivity|]. split.
        { apply vars_app. split; auto. apply vars_implies; [now apply pos_ok|]. destruct y as [y|]; cbn [vlit]; [|unfold lit_ok; lia]. apply pos_ok. exact (var_bound _ _ true i y Au Hy). }
        intros v PR. rewrite sat_app, (So v I). cbn [fst snd]. rewrite sat_implies by lia. rewrite (lit_pos v pv) by lia. split.
        - intros [H1 H2] pv' E Tp c' i' j' u' Q1 Q2. injection E as <-. rewrite P1 in Q1. injection Q1 as <- <- <-. assert (u' = u) by congruence. subst u'. split; [|intros c' u' Q3 Q4; exact (H2 (c', u') (proj2 (enum_in _ _ _) Q3) Q4 Tp)].
          assert (NM : ~ In (itask true (c :: q) i) F). { apply (child_unpruned c u true i cs j (None, p)); auto. cbn [cause_item]. apply (PR true p). exists pv. auto. }
          destruct (task_at c u true i cs P2 P4) as (y' & Hy'). destruct (fl_get _ _ _ _ (FI _ _ Au) true i y' Hy' NM) as (w & Hw). cbn [cvars] in Hw. assert (y = Some w) by congruence. subst y. cbn [vlit] in H1. assert (Bw := var_bound _ _ true i w Au Hw). rewrite lit_pos in H1 by lia. exists w. auto.
        - intros H. split.
          + intros Tp. destruct (H pv eq_refl Tp c i j u P1 P2) as [(w & Hw & Tw) _]. cbn [cvars] in Hw. assert (y = Some w) by congruence. subst y. cbn [vlit]. rewrite lit_pos; auto. assert (Bw := var_bound _ _ true i w Au Hw). lia.
          + intros [c' u'] Hc NE Tp. apply enum_in in Hc. cbn [fst snd] in *. destruct (H pv eq_refl Tp c i j u P1 P2) as [_ X]. exact (X c' u' Hc NE). }
      exists cs. split; [exact E|]. split; auto. intros v PR. rewrite (S v PR). split.
      - intros H p c i j u (x & Hx & Tx) Q1 Q2. exact (H (p, Some x) (proj2 (enum_in _ _ _) Hx) x eq_refl Tx c i j u Q1 Q2).
      - intros H [p x] Hp pv E1 Tp c i j u Q1 Q2. cbn [fst snd] in *. subst x. apply enum_in in Hp. apply (H p c i j u); auto. exists pv. auto.
    Qed.

    Lemma mvar_at a x : nth_error (pn_avar d) a = Some x -> exists t mvs, nth_error (pn_abs d) a = Some t /\ nth_error (pn_mvar d) a = Some mvs /\ length mvs = nmeth P t /\ forall m, (m < nmeth P t)%nat -> (exists v, nth_error mvs m = Some (Some v)) <-> ~ In (IM q a m) F.
    Proof.
      intros H. assert (L : (a < length (pn_abs d))%nat). { assert (Z := fl_len _ _ _ _ (FI _ _ At) false). cbn [cvars ctasks dat] in Z. rewrite <- Z. eapply get_lt; exact H. }
      apply get_some in L as (t & Ht). destruct (fl_meth _ _ _ _ (FI _ _ At) Ee) as [_ M]. destruct (M a t Ht) as (mvs & M1 & M2 & M3). exists t, mvs. auto.
    Qed.
    (** The variables of methods. *)
    Lemma mvar_used a mvs m x : nth_error (pn_mvar d) a = Some mvs -> nth_error mvs m = Some (Some x) -> exists t, nth_error (pn_abs d) a = Some t /\ (m < nmeth P t)%nat /\ ~ In (IM q a m) F /\ ~ In (IA q a) F /\ exists av, nth_error (pn_avar d) a = Some (Some av).
    Proof.
      intros H1 H2. destruct (fl_meth _ _ _ _ (FI _ _ At) Ee) as [L M]. cbn [dat] in *. assert (La := get_lt _ _ _ H1). rewrite L in La. apply get_some in La as (t & Ht). destruct (M a t Ht) as (mvs' & M1 & M2 & M3). assert (mvs' = mvs) by congruence. subst mvs'.
      assert (Lm := get_lt _ _ _ H2). rewrite M2 in Lm. assert (NM : ~ In (IM q a m) F) by (apply (M3 m Lm); eauto). assert (NA : ~ In (IA q a) F). { intros HA. apply NM. exact (cl_meth P F _ _ (CL _ _ At) a t m Ee Ht HA Lm). }
      exists t. split; auto. split; auto. split; auto. split; auto. exact (fl_get _ _ _ _ (FI _ _ At) false a t Ht NA).
    Qed.

    Lemma method_clause a m mv mvs : nth_error (pn_mvar d) a = Some mvs -> nth_error mvs m = Some (Some mv) -> exists c, cl_method d ch a m mv = Some c /\ vars_le n0 c /\ forall v, True -> (satisfies v c <-> (v mv = true -> sem_method v d ch a m)).
    Proof.
      intros H1 H2. destruct (mvar_used a mvs m mv H1 H2) as (t & Ht & Lm & NM & NA & _). assert (Bm := meth_bound _ _ _ _ _ _ At Ee H1 H2). unfold cl_method.
      match goal with |- context [omap ?f ?l] => destruct (obind_clauses (fun _ => True) (omap f l) (fun v => forall y, In y (enum ch) -> v mv = true -> match find_ptr d a m (fst y) with Some k => on v (cp_prim k) (dat (snd y)) (cp_task k) | None => noneon v (dat (snd y)) end) n0) as (cs & E & V & S) end.
      { apply omap_clauses. intros [c u] Hc. apply enum_in in Hc. cbn [fst snd]. assert (Au := ch_at c u Hc). destruct (find_ptr d a m c) as [k|] eqn:Ef.
        - destruct (no_ptr _ _ _ node_good a m c k Ef) as (w & cs & W1 & W2 & W3). assert (w = dat u) by (rewrite (dat_nth c u Hc) in W1; congruence). subst w. destruct (task_at c u (cp_prim k) (cp_task k) cs Hc W2) as (x & Hx).
          assert (NC : ~ In (itask (cp_prim k) (c :: q) (cp_task k)) F) by (apply (child_unpruned c u (cp_prim k) (cp_task k) cs (cp_cause k) (Some a, m)); auto).
          destruct (fl_get _ _ _ _ (FI _ _ Au) _ _ x Hx NC) as (z & Hz). change (if cp_prim k then pn_pvar (dat u) else pn_avar (dat u)) with (cvars (cp_prim k) (dat u)). unfold get. rewrite Hz. cbn [obind]. assert (Bz := var_bound _ _ _ _ _ Au Hz).
          eexists. split; [reflexivity|]. split; [apply vars_implies; now apply pos_ok|]. intros v _. rewrite sat_implies by lia. rewrite !lit_pos by lia. unfold on. rewrite Hz. split; intros H Tm; specialize (H Tm); [eauto|]. destruct H as (z' & E & Tz). congruence.
        - destruct (fl_none _ _ _ _ (FI _ _ Au)) as (z & Hz). assert (Bz := none_bound _ _ _ Au Hz). rewrite Hz. cbn [obind]. eexists. split; [reflexivity|]. split; [apply vars_implies; apply pos_ok; auto|].
          intros v _. rewrite sat_implies by lia. rewrite !lit_pos by lia. unfold noneon. rewrite Hz. split; intros H Tm; specialize (H Tm); [eauto|]. destruct H as (z' & E & Tz). congruence. }
      exists cs. split; [exact E|]. split; auto. intros v _. rewrite (S v I). unfold sem_method. split.
      - intros H Tm c u Hc. exact (H (c, u) (proj2 (enum_in _ _ _) Hc) Tm).
      - intros H [c u] Hc Tm. apply enum_in in Hc. cbn [fst snd]. exact (H Tm c u Hc).
    Qed.

    Lemma abstract_clause : exists c, cl_abstract d ch = Some c /\ vars_le n0 c /\ forall v, True -> (satisfies v c <-> sem_abstract v d ch).
    Proof.
      unfold cl_abstract. match goal with |- context [omap ?f ?l] => destruct (obind_clauses (fun _ => True) (omap f l) (fun v => forall y, In y (enum (pn_avar d)) -> forall av, snd y = Some av ->
         (forall m, onm v d (fst y) m -> v av = true /\ sem_method v d ch (fst y) m) /\ (v av = true -> exists m, onm v d (fst y) m)) n0) as (cs & E & V & S) end.
      { apply omap_clauses. intros [a [av|]] Ha; [|exists []; split; auto; split; [apply vars_nil|]; intros v _; split; [intros _ pv E; discriminate|intros _; apply sat_nil]].
        apply enum_in in Ha. destruct (mvar_at a _ Ha) as (t & mvs & Ht & Hm & Lm & _). unfold get. rewrite Hm. cbn [obind fst snd]. assert (Ba := var_bound _ _ false a av At Ha).
        match goal with |- context [omap ?f ?l] => destruct (omap_clauses (fun _ => True) f (fun v y => forall mv, snd y = Some mv -> v mv = true -> v av = true /\ sem_method v d ch a (fst y)) n0 l) as (ms & Em & Vm & Sm) end.
        { intros [m [mv|]] Hmv; [|exists []; split; auto; split; [apply vars_nil|]; intros v _; split; [intros _ pv E; discriminate|intros _; apply sat_nil]]. apply enum_in in Hmv. destruct (method_clause a m mv mvs Hm Hmv) as (c & -> & Vc & Sc). cbn [obind fst snd]. assert (Bm := meth_bound _ _ _ _ _ _ At Ee Hm Hmv).
          eexists. split; [reflexivity|]. split; [apply vars_app; split; auto; apply vars_implies; now apply pos_ok|]. intros v _. rewrite sat_app, (Sc v I), sat_implies by lia. rewrite !lit_pos by lia. split.
          - intros [H1 H2] mv' E Tm. injection E as <-. auto.
          - intros H. split; intros Tm; apply (H mv eq_refl Tm). }
        rewrite Em. cbn [obind]. eexists. split; [reflexivity|]. split.
        { apply vars_app. split; auto. apply vars_implies_or; [now apply pos_ok|]. intros x Hx. apply somes_in in Hx as (m & Hx). apply pos_ok. exact (meth_bound _ _ _ _ _ _ At Ee Hm Hx). }
        intros v _. rewrite sat_app, (Sm v I), sat_implies_or by lia. rewrite lit_pos by lia. split.
        - intros [H1 H2] av' E. injection E as <-. split.
          + intros m (mvs' & mv & M1 & M2 & M3). assert (mvs' = mvs) by congruence. subst mvs'. exact (H1 (m, Some mv) (proj2 (enum_in _ _ _) M2) mv eq_refl M3).
          + intros Ta. destruct (H2 Ta) as (x & Hx & Tx). apply somes_in in Hx as (m & Hx). assert (Bm := meth_bound _ _ _ _ _ _ At Ee Hm Hx). rewrite lit_pos in Tx by lia. exists m, mvs, x. auto.
        - intros H. destruct (H av eq_refl) as [H1 H2]. split.
          + intros [m x] Hx mv E Tm. apply enum_in in Hx. cbn [fst snd] in *. subst x. apply H1. exists mvs, mv. auto.
          + intros Ta. destruct (H2 Ta) as (m & mvs' & x & M1 & M2 & M3). assert (mvs' = mvs) by congruence. subst mvs'. exists x. split; [apply somes_in; eauto|]. assert (Bm := meth_bound _ _ _ _ _ _ At Ee Hm M2). rewrite lit_pos by lia. auto. }
      exists cs. split; [exact E|]. split; auto. intros v _. rewrite (S v I). unfold sem_abstract. split.
      - intros H. split.
        + intros a m Om. assert (Om' := Om). destruct Om as (mvs & mv & M1 & M2 & M3). destruct (mvar_used a mvs m mv M1 M2) as (t & _ & _ & _ & _ & av & Hav). destruct (H (a, Some av) (proj2 (enum_in _ _ _) Hav) av eq_refl) as [X _]. destruct (X m Om') as [X1 X2]. split; auto. exists av. auto.
        + intros a (av & Hav & Ta). destruct (H (a, Some av) (proj2 (enum_in _ _ _) Hav) av eq_refl) as [_ X]. exact (X Ta).
      - intros [H1 H2] [a x] Ha av E1. cbn [fst snd] in *. subst x. apply enum_in in Ha. split.
        + intros m Om. destruct (H1 a m Om) as [(av' & X1 & X2) X3]. cbn [cvars] in X1. split; auto. congruence.
        + intros Ta. apply H2. exists av. auto.
    Qed.

    Lemma caused_clause c u pr : nth_error ch c = Some u -> exists cl, cl_caused d (fun i j => marked F (icause pr (c :: q) i j)) (cvars pr (dat u)) (ccauses pr (dat u)) = Some cl /\ vars_le n0 cl /\
      forall v, True -> (satisfies v cl <-> forall i, on v pr (dat u) i -> exists cs j k, nth_error (ccauses pr (dat u)) i = Some cs /\ nth_error cs j = Some k /\ ~ In (icause pr (c :: q) i j) F /\ oncause v d k).
    Proof.
      intros Hc. assert (Au := ch_at c u Hc). assert (Eu := dat_nth c u Hc). unfold cl_caused. match goal with |- context [omap ?f ?l] => destruct (obind_clauses (fun _ => True) (omap f l) (fun v => forall y, In y (enum (cvars pr (dat u))) -> forall x, snd y = Some x -> v x = true ->
         exists cs j k, nth_error (ccauses pr (dat u)) (fst y) = Some cs /\ nth_error cs j = Some k /\ ~ In (icause pr (c :: q) (fst y) j) F /\ oncause v d k) n0) as (cl & E & V & S) end.
      { apply omap_clauses. intros [i [x|]] Hi; [|exists []; split; auto; split; [apply vars_nil|]; intros v _; split; [intros _ pv E; discriminate|intros _; apply sat_nil]].
        apply enum_in in Hi. assert (Bx := var_bound _ _ _ _ _ Au Hi). assert (Lc : (i < length (ccauses pr (dat u)))%nat) by (rewrite (no_len _ _ _ node_good (dat u) pr (nth_error_In _ _ Eu)), <- (fl_len _ _ _ _ (FI _ _ Au) pr); eapply get_lt; exact Hi).
        apply get_some in Lc as (cs & Hcs). rewrite Hcs. unfold get in Hcs. cbn [obind fst snd].
        (* the literal of an unpruned cause *)
        assert (LIT : forall j k, nth_error cs j = Some k -> (exists l, cause_lit d k = Some l) /\ (~ In (icause pr (c :: q) i j) F -> exists l, cause_lit d k = Some l /\ 1 <= l <= n0 /\ forall v, v l = true <-> oncause v d k)).
        { intros j [[a|] m] Hk; assert (Z := no_cause _ _ _ node_good c (dat u) pr i cs j _ Eu Hcs Hk); cbn [cause_lit].
          - destruct Z as (Z & t & Ht & Lm). destruct (fl_meth _ _ _ _ (FI _ _ At) Ee) as [_ M]. destruct (M a t Ht) as (mvs & M1 & M2 & M3). cbn [dat] in M1. unfold get. rewrite M1. cbn [obind]. assert (Lm' : (m < length mvs)%nat) by lia. apply get_some in Lm' as (y & Hy). unfold get in Hy. rewrite Hy. cbn [obind]. split; [eauto|].
            intros NM. destruct (proj2 (M3 m Lm)) as (w & Hw).
            { intros HM. apply NM. assert (R := cl_down_m P F _ _ (CL _ _ At) a t m c _ (get_lt _ _ _ Hc) Ht Lm HM Z). unfold ptr_item in R. cbn in R. destruct pr; exact R. }
            assert (y = Some w) by congruence. subst y. exists w. split; auto. split; [exact (meth_bound _ _ _ _ _ _ At Ee M1 Hw)|]. intros v. cbn [oncause]. split; [intros Tw; exists mvs, w; auto|]. intros (mvs' & w' & W1 & W2 & W3). congruence.
          - destruct Z as (Epr & Z). assert (Lm : (m < length (pn_prims d))%nat) by (rewrite <- (no_pos _ _ _ node_good); apply nth_error_Some; congruence). assert (Lm2 := Lm). assert (Z2 := fl_len _ _ _ _ (FI _ _ At) true). cbn [cvars ctasks dat] in Z2. rewrite <- Z2 in Lm2. apply get_some in Lm2 as (y & Hy). unfold get in *. rewrite Hy. cbn [obind]. split; [eauto|].
            intros NM. apply get_some in Lm as (t & Ht). destruct (fl_get _ _ _ _ (FI _ _ At) true m t Ht) as (w & Hw).
            { cbn [itask]. intros HM. apply NM. rewrite Epr. exact (cl_down_p P F _ _ (CL _ _ At) m t c i j (get_lt _ _ _ Hc) Ht HM Z). }
            cbn [cvars dat] in Hw. assert (y = Some w) by congruence. subst y. exists w. split; auto. split; [exact (var_bound _ _ true m w At Hw)|]. intros v. cbn [oncause]. split; [intros Tw; exists w; auto|]. intros (w' & W1 & W2). cbn [cvars] in W1. congruence. }
        match goal with |- context [omap ?f (enum cs)] => destruct (omap_ok f (enum cs)) as (ls & El) end.
        { intros [j k] Hj. apply enum_in in Hj. destruct (marked F (icause pr (c :: q) i j)); [eauto|]. destruct (LIT j k Hj) as [(l & ->) _]. cbn [obind]. eauto. }
        rewrite El. cbn [obind]. apply omap_some in El.
        assert (MEM : forall l, In l (concat ls) <-> exists j k, nth_error cs j = Some k /\ ~ In (icause pr (c :: q) i j) F /\ cause_lit d k = Some l).
        { intros l. rewrite in_concat. split.
          - intros (r & Hr & Hl). destruct (forall2_in_r _ _ _ _ El Hr) as ([j k] & Hj & Ej). apply enum_in in Hj. destruct (marked F (icause pr (c :: q) i j)) eqn:M; [injection Ej as <-; destruct Hl|]. apply marked_out in M. apply obind_some in Ej as (l' & L1 & L2). injection L2 as <-. destruct Hl as [<-|[]]. exists j, k. auto.
          - intros (j & k & Hj & N & L). destruct (forall2_in_l _ _ _ (j, k) El) as (r & Hr & Ej); [now apply enum_in|]. apply marked_out in N. rewrite N, L in Ej. injection Ej as <-. exists [l]. split; auto. now left. }
        eexists. split; [reflexivity|]. split.
        { apply vars_implies_or; [now apply pos_ok|]. intros l Hl. apply MEM in Hl as (j & k & Hj & N & L). destruct (LIT j k Hj) as [_ X]. destruct (X N) as (l' & L1 & L2 & _). apply pos_ok. assert (l' = l) by congruence. now subst l'. }
        intros v _. rewrite sat_implies_or by lia. rewrite lit_pos by lia. split.
        - intros H x' E Tx. injection E as <-. destruct (H Tx) as (l & Hl & Tl). apply MEM in Hl as (j & k & Hj & N & L). destruct (LIT j k Hj) as [_ X]. destruct (X N) as (l' & L1 & L2 & L3). assert (l' = l) by congruence. subst l'. exists cs, j, k. repeat split; auto. apply L3. rewrite lit_pos in Tl by lia. auto.
        - intros H Tx. destruct (H x eq_refl Tx) as (cs' & j & k & K1 & K2 & K3 & K4). assert (cs' = cs) by congruence. subst cs'. destruct (LIT j k K2) as [_ X]. destruct (X K3) as (l & L1 & L2 & L3). exists l. split; [apply MEM; exists j, k; auto|]. rewrite lit_pos by lia. now apply L3. }
      exists cl. split; [exact E|]. split; auto. intros v _. rewrite (S v I). split.
      - intros H i (x & Hx & Tx). exact (H (i, Some x) (proj2 (enum_in _ _ _) Hx) x eq_refl Tx).
      - intros H [i x] Hi xv E1 Tx. cbn [fst snd] in *. subst x. apply enum_in in Hi. apply H. exists xv. auto.
    Qed.

    Lemma child_clause : exists cs, omap (cl_child q F d) (enum ch) = Some cs /\ vars_le n0 (concat cs) /\ forall v, True -> (satisfies v (concat cs) <-> sem_child v F q d ch).
    Proof.
      destruct (omap_clauses (fun _ => True) (cl_child q F d) (fun v y => forall pr i, on v pr (dat (snd y)) i -> exists cs j k, nth_error (ccauses pr (dat (snd y))) i = Some cs /\ nth_error cs j = Some k /\ ~ In (icause pr (fst y :: q) i j) F /\ oncause v d k) n0 (enum ch)) as (cs & E & V & S).
      { intros [c u] Hc. apply enum_in in Hc. cbn [fst snd cl_child]. destruct (caused_clause c u false Hc) as (c1 & E1 & V1 & S1). destruct (caused_clause c u true Hc) as (c2 & E2 & V2 & S2).
        change (cl_caused d (fun a i => marked F (ICA (c :: q) a i)) (pn_avar (dat u)) (pn_ca (dat u))) with (cl_caused d (fun i j => marked F (icause false (c :: q) i j)) (cvars false (dat u)) (ccauses false (dat u))).
        change (cl_caused d (fun a i => marked F (ICP (c :: q) a i)) (pn_pvar (dat u)) (pn_cp (dat u))) with (cl_caused d (fun i j => marked F (icause true (c :: q) i j)) (cvars true (dat u)) (ccauses true (dat u))).
        rewrite E1, E2. cbn [obind]. eexists. split; [reflexivity|]. split; [apply vars_app; auto|]. intros v _. rewrite sat_app, (S1 v I), (S2 v I). split; [intros [H1 H2] [|]; auto|]. intros H. split; apply H. }
      exists cs. split; auto. split; auto. intros v _. rewrite (S v I). unfold sem_child. split.
      - intros H c u pr i Hc. exact (H (c, u) (proj2 (enum_in _ _ _) Hc) pr i).
      - intros H [c u] Hc. apply enum_in in Hc. exact (fun pr i => H c u pr i Hc).
    Qed.

    Lemma nothing_clause : exists c, cl_none d ch = Some c /\ vars_le n0 c /\ forall v, True -> (satisfies v c <-> sem_none v d ch).
    Proof.
      unfold cl_none. destruct (fl_none _ _ _ _ (FI _ _ At)) as (z & Hz). cbn [dat] in Hz. assert (Bz := none_bound _ _ _ At Hz). rewrite Hz. cbn [obind]. destruct (none_clause z ch (pos_ok z Bz) (incl_refl _)) as (cs & -> & V & S). cbn [obind].
      assert (BV : forall pr x, In x (somes (cvars pr d)) -> 1 <= x <= n0) by (intros pr x Hx; apply somes_in in Hx as (i & Hi); exact (var_bound _ _ pr i x At Hi)).
      eexists. split; [reflexivity|]. split.
      { apply vars_app. split; [apply vars_all_not; [now apply pos_ok|intros x Hx; apply pos_ok, (BV true), Hx]|]. apply vars_app. split; auto. apply vars_all_not; [now apply pos_ok|intros x Hx; apply pos_ok, (BV false), Hx]. }
      intros v _. rewrite !sat_app, (S v I). rewrite !sat_implies_all_not by (try lia; intros x Hx; first [specialize (BV true x Hx); lia|specialize (BV false x Hx); lia]). rewrite (lit_pos v z) by lia. assert (NZ : noneon v d <-> v z = true) by (unfold noneon; rewrite Hz; split; [intros (z' & E & Tz); congruence|eauto]). unfold sem_none. rewrite NZ. split.
      - intros (H1 & H2 & H3) Tz. split; [|intros u Hu; exact (H3 u Hu Tz)]. intros [|] i (x & Hx & Tx).
        + assert (X : In x (somes (pn_pvar d))) by (apply somes_in; eauto). specialize (H1 Tz x X). rewrite lit_pos in H1 by (specialize (BV true x X); lia). congruence.
        + assert (X : In x (somes (pn_avar d))) by (apply somes_in; eauto). specialize (H2 Tz x X). rewrite lit_pos in H2 by (specialize (BV false x X); lia). congruence.
      - intros H. split; [|split].
        + intros Tz x Hx. destruct (H Tz) as [N _]. rewrite lit_pos by (specialize (BV true x Hx); lia). apply somes_in in Hx as (i & Hi). destruct (v x) eqn:Ex; auto. exfalso. apply (N true i). exists x. auto.
        + intros Tz x Hx. destruct (H Tz) as [N _]. rewrite lit_pos by (specialize (BV false x Hx); lia). apply somes_in in Hx as (i & Hi). destruct (v x) eqn:Ex; auto. exfalso. apply (N false i). exists x. auto.
        + intros u Hu Tz. destruct (H Tz) as [_ N]. auto.
    Qed.

    Lemma plain_clauses : exists c, plain q F d ch = Some c /\ vars_le n0 c /\ forall v, unpruned v F q d -> (satisfies v c <-> sem v F q d ch).
    Proof.
      unfold plain. destruct inherit_clause as (c3 & -> & V3 & S3). cbn [obind]. destruct abstract_clause as (c4 & -> & V4 & S4). cbn [obind]. destruct child_clause as (c5 & -> & V5 & S5). cbn [obind]. destruct nothing_clause as (c6 & -> & V6 & S6). cbn [obind].
      eexists. split; [reflexivity|]. split; [rewrite !vars_app; auto|]. intros v PR. rewrite !sat_app, (S3 v PR), (S4 v I), (S5 v I), (S6 v I). reflexivity.
    Qed.

    Lemma method_atoms_ok : exists ma, method_atoms q F d = Some ma /\ forall x, In x ma <-> exists a mvs m, nth_error (pn_mvar d) a = Some mvs /\ nth_error mvs m = Some (Some x).
    Proof.
      unfold method_atoms. destruct (fl_meth _ _ _ _ (FI _ _ At) Ee) as [L M]. cbn [dat] in L, M.
      match goal with |- context [omap ?f ?l] => destruct (omap_ok f l) as (xs & E) end.
      { intros [a t] Ha. apply enum_in in Ha. destruct (marked F (IA q a)); [eauto|]. destruct (M a t Ha) as (mvs & M1 & _). unfold get. rewrite M1. cbn [obind]. eauto. }
      rewrite E. cbn [obind]. apply omap_some in E. exists (concat xs). split; auto. intros x. rewrite in_concat. split.
      - intros (l & Hl & Hx). destruct (forall2_in_r _ _ _ _ E Hl) as ([a t] & Ha & Ea). apply enum_in in Ha. destruct (marked F (IA q a)); [injection Ea as <-; destruct Hx|]. apply obind_some in Ea as (mvs & M1 & M2). injection M2 as <-. apply somes_in in Hx as (m & Hm). exists a, mvs, m. auto.
      - intros (a & mvs & m & M1 & M2). destruct (mvar_used a mvs m x M1 M2) as (t & Ht & _ & _ & NA & _). destruct (forall2_in_l _ _ _ (a, t) E) as (l & Hl & El); [now apply enum_in|]. apply marked_out in NA. rewrite NA in El. unfold get in El. rewrite M1 in El. cbn [obind] in El. injection El as <-. exists (somes mvs). split; auto. apply somes_in. eauto.
    Qed.
  End Node.
End Clause.
