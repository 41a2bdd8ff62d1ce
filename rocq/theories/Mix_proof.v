(** Proofs about Mix_model.v. *)
From Coq Require Import Sorted.
From Verif Require Import Base Htn_problem Htn_model Htn_spec Htn_sem Tab_model Tab_thm Mix_model Mix_spec.
Local Open Scope Z_scope.

Definition at0 (v : list Z) (i : nat) : Z := nth i v 0.
Definition sumv (v : list Z) (l : list nat) : Z := fold_right (fun t s => at0 v t + s) 0 l.

Lemma get_at0 v i x : get v i = Some x -> at0 v i = x.
Proof. unfold get, at0. intros H. now apply nth_error_nth. Qed.
Lemma at0_get v i : (i < length v)%nat -> get v i = Some (at0 v i).
Proof. unfold get, at0. intros H. now apply nth_error_nth'. Qed.
Lemma at0_set v i x v' j : set v i x = Some v' -> at0 v' j = if Nat.eqb j i then x else at0 v j.
Proof.
  intros H. destruct (Nat.eqb_spec j i) as [->|N].
  - apply get_at0. eapply get_set_eq; eauto.
  - assert (G := get_set_neq v i j x v' H ltac:(congruence)). unfold get, at0 in *. 
    destruct (nth_error v j) as [y|] eqn:E.
    + rewrite (nth_error_nth _ _ _ E). now apply nth_error_nth.
    + rewrite !nth_overflow; auto; now apply nth_error_None.
Qed.

Lemma isum_some v l : forall s r, isum v l s = Some r -> r = s + sumv v l /\ (l <> [] -> r <= int_max) /\ forall t, In t l -> (t < length v)%nat.
Proof.
  unfold isum. induction l as [|t l IH]; cbn [ofold sumv fold_right]; intros s r H.
  - injection H as <-. repeat split; [lia|congruence|intros ? []].
  - apply obind_some in H as (s' & E & H). apply obind_some in E as (x & G & E). unfold iadd in E.
    destruct (Z.leb_spec (s + x) int_max); [|discriminate]. injection E as <-. destruct (IH _ _ H) as (-> & B & I). apply get_at0 in G as GA.
    fold (sumv v l). split; [lia|]. split.
    + intros _. destruct l; [cbn; lia|]. apply B. discriminate.
    + intros u [<-|Hu]; auto. now apply get_lt in G.
Qed.
Lemma sumv_nonneg v l : (forall t, In t l -> 0 <= at0 v t) -> 0 <= sumv v l.
Proof. induction l as [|t l IH]; cbn; intros H; [lia|]. fold (sumv v l). assert (0 <= sumv v l) by (apply IH; intros; apply H; now right). specialize (H t (or_introl eq_refl)). lia. Qed.
Lemma sumv_le v w l : (forall t, In t l -> at0 v t <= at0 w t) -> sumv v l <= sumv w l.
Proof. induction l as [|t l IH]; cbn; intros H; [lia|]. fold (sumv v l) (sumv w l). assert (sumv v l <= sumv w l) by (apply IH; intros; apply H; now right). specialize (H t (or_introl eq_refl)). lia. Qed.
Lemma sumv_ext v w l : (forall t, In t l -> at0 v t = at0 w t) -> sumv v l = sumv w l.
Proof. intros H. apply Z.le_antisymm; apply sumv_le; intros t Ht; rewrite (H t Ht); lia. Qed.
Lemma isum_ok v l : (forall t, In t l -> (t < length v)%nat) -> (forall t, In t l -> 0 <= at0 v t) -> forall s, s + sumv v l <= int_max -> isum v l s = Some (s + sumv v l).
Proof.
  unfold isum. induction l as [|t l IH]; cbn [ofold sumv fold_right]; intros L N s B; [f_equal; lia|]. fold (sumv v l) in *.
  rewrite (at0_get v t) by (apply L; now left). cbn [obind]. unfold iadd.
  assert (0 <= sumv v l) by (apply sumv_nonneg; intros; apply N; now right).
  destruct (Z.leb_spec (s + at0 v t) int_max); [|lia]. cbn [obind]. rewrite IH; [f_equal; lia| | |lia]; intros; [apply L|apply N]; now right.
Qed.

Definition minv (v : list Z) (l : list nat) (s : Z) : Z := fold_left (fun s m => Z.min (at0 v m) s) l s.
Lemma imin_some v l r : imin v l = Some r -> r = minv v l int_max /\ forall t, In t l -> (t < length v)%nat.
Proof.
  unfold imin, minv. generalize int_max as s. induction l as [|t l IH]; cbn [ofold fold_left]; intros s H.
  - injection H as <-. split; auto. intros ? [].
  - apply obind_some in H as (s' & E & H). apply obind_some in E as (x & G & E). apply get_at0 in G as GA. injection E as <-. destruct (IH _ H) as [-> I].
    split; [now rewrite GA|]. intros u [<-|Hu]; auto. now apply get_lt in G.
Qed.
Lemma imin_ok v l : (forall t, In t l -> (t < length v)%nat) -> imin v l = Some (minv v l int_max).
Proof.
  unfold imin, minv. generalize int_max as s. induction l as [|t l IH]; cbn [ofold fold_left]; intros s L; auto.
  rewrite (at0_get v t) by (apply L; now left). cbn [obind]. apply IH. intros; apply L; now right.
Qed.
Lemma minv_le v l : forall s, minv v l s <= s /\ forall m, In m l -> minv v l s <= at0 v m.
Proof.
  induction l as [|m l IH]; intros s; cbn; [split; [lia|intros ? []]|]. fold (minv v l (Z.min (at0 v m) s)). destruct (IH (Z.min (at0 v m) s)) as [A B].
  split; [lia|]. intros k [<-|H]; [lia|auto].
Qed.
Lemma minv_ge v l x : forall s, x <= s -> (forall m, In m l -> x <= at0 v m) -> x <= minv v l s.
Proof. induction l as [|m l IH]; intros s B H; cbn; auto. apply IH; [|intros; apply H; now right]. specialize (H m (or_introl eq_refl)). lia. Qed.
Lemma minv_in v l : forall s, minv v l s = s \/ exists m, In m l /\ minv v l s = at0 v m.
Proof.
  induction l as [|m l IH]; intros s; cbn; auto. fold (minv v l (Z.min (at0 v m) s)). destruct (IH (Z.min (at0 v m) s)) as [E|(k & H & E)]; [|right; eauto].
  rewrite E. destruct (Z.min_spec (at0 v m) s) as [[? ->]|[? ->]]; auto. right. exists m. auto.
Qed.

Section Fix.
Variable P : problem.
Hypothesis WP : wf_problem P.
Hypothesis AF : actions_first P.
Variable st : list (list Z).
Hypothesis ST : forall t, (t < length (p_prim P))%nat -> exists row, get st t = Some row /\ (length row <= length (p_methods P))%nat /\
  forall z, In z row <-> exists m md, z = Z.of_nat m /\ nth_error (p_methods P) m = Some md /\ In t (m_subs md).

Notation nt := (length (p_prim P)).
Notation na := (length (p_cost P)).
Notation nm := (length (p_methods P)).

Lemma na_nt : (na <= nt)%nat.
Proof.
  destruct (Nat.le_gt_cases na nt) as [H|H]; auto. exfalso. assert (X := AF nt H). unfold primitive in X.
  assert (nth_error (p_prim P) nt <> None) by congruence. apply nth_error_Some in H0. lia.
Qed.
Lemma task_abs m : In m (p_methods P) -> (na <= m_task m < nt)%nat.
Proof.
  intros H. assert (W := wfm_task _ _ (wf_methods _ WP m H)). split.
  - destruct (Nat.le_gt_cases na (m_task m)) as [L|L]; auto. specialize (AF _ L). unfold primitive in AF. congruence.
  - apply nth_error_Some. congruence.
Qed.

Lemma ttm_spec t m : In m (task_to_methods P t) <-> exists md, nth_error (p_methods P) m = Some md /\ m_task md = t.
Proof.
  unfold task_to_methods. rewrite filter_In, in_seq. split.
  - intros [L H]. destruct (nth_error (p_methods P) m) as [md|] eqn:E; [|discriminate]. exists md. split; auto. now apply Nat.eqb_eq.
  - intros (md & E & <-). rewrite E, Nat.eqb_refl. split; auto. assert (nth_error (p_methods P) m <> None) by congruence. apply nth_error_Some in H. lia.
Qed.

(** One of the two components: [v] the values of the actions, [b] what a decomposition counts. *)
Record comp (v : nat -> Z) (b : Z) (T M : list Z) : Prop := {
  c_lT : length T = nt;
  c_lM : length M = nm;
  c_act : forall t, (t < na)%nat -> at0 T t = v t;
  c_no : forall t, (na <= t)%nat -> (forall m, In m (p_methods P) -> m_task m <> t) -> at0 T t = 0;
  c_nT : forall t, 0 <= at0 T t;
  c_nM : forall m, 0 <= at0 M m;
  c_bM : forall m, at0 M m <= int_max;
  c_up : forall m md, nth_error (p_methods P) m = Some md -> at0 M m <= b + sumv T (m_subs md);
  c_lo : forall m md, nth_error (p_methods P) m = Some md -> at0 T (m_task md) <= at0 M m }.

Lemma comp_nm v b T M m md r M' : 0 <= b -> comp v b T M -> nth_error (p_methods P) m = Some md -> isum T (m_subs md) b = Some r -> set M m r = Some M' ->
  comp v b T M' /\ at0 M m <= r /\ r = b + sumv T (m_subs md).
Proof.
  intros B C E S X. destruct (isum_some _ _ _ _ S) as (-> & BD & _).
  assert (UP := c_up _ _ _ _ C m md E). split; [|auto].
  assert (AM : forall j, at0 M' j = if Nat.eqb j m then b + sumv T (m_subs md) else at0 M j) by (intros j; now apply at0_set).
  assert (NE : m_subs md <> []) by (apply (wfm_nonempty _ _ (wf_methods _ WP md (nth_error_In _ _ E)))).
  destruct C as [lT lM act no nT nM bM up lo]. split; auto.
  - now rewrite (set_length _ _ _ _ X).
  - intros j. rewrite AM. destruct (Nat.eqb_spec j m); auto. specialize (nM m). lia.
  - intros j. rewrite AM. destruct (Nat.eqb_spec j m); auto.
  - intros j jd Ej. rewrite AM. destruct (Nat.eqb_spec j m) as [->|N]; auto. replace jd with md by congruence. lia.
  - intros j jd Ej. rewrite AM. destruct (Nat.eqb_spec j m) as [->|N]; auto. specialize (lo m jd Ej). lia.
Qed.

Lemma comp_nt v b T M t r T' : (na <= t)%nat -> (exists m, In m (p_methods P) /\ m_task m = t) -> comp v b T M -> imin M (task_to_methods P t) = Some r -> set T t r = Some T' ->
  comp v b T' M /\ at0 T t <= r /\ r = minv M (task_to_methods P t) int_max.
Proof.
  intros NA HM C S X. destruct (imin_some _ _ _ S) as (-> & _).
  assert (AT : forall j, at0 T' j = if Nat.eqb j t then minv M (task_to_methods P t) int_max else at0 T j) by (intros j; now apply at0_set).
  destruct C as [lT lM act no nT nM bM up lo].
  assert (GE : at0 T t <= minv M (task_to_methods P t) int_max).
  { apply minv_ge.
    - destruct HM as (md & Hm & <-). apply In_nth_error in Hm as (m & Em). specialize (lo m md Em). specialize (bM m). lia.
    - intros m Hm. apply ttm_spec in Hm as (md & Em & <-). now apply lo. }
  split; [|auto]. split; auto.
  - now rewrite (set_length _ _ _ _ X).
  - intros u Hu. rewrite AT. destruct (Nat.eqb_spec u t) as [->|]; [lia|auto].
  - intros u Hu N. rewrite AT. destruct (Nat.eqb_spec u t) as [->|]; auto. exfalso. destruct HM as (m & Hm & E). now apply (N m).
  - intros u. rewrite AT. destruct (Nat.eqb_spec u t); auto. specialize (nT t). lia.
  - intros m md E. specialize (up m md E). assert (sumv T (m_subs md) <= sumv T' (m_subs md)); [|lia].
    apply sumv_le. intros u _. rewrite AT. destruct (Nat.eqb_spec u t) as [->|]; lia.
  - intros m md E. rewrite AT. destruct (Nat.eqb_spec (m_task md) t) as [e|]; auto. apply (minv_le M). apply ttm_spec. eauto.
Qed.

Definition cv (t : nat) : Z := Z.of_nat (cost_of P t).
Definition dv (t : nat) : Z := 1.

Notation has_method := (Mix_spec.has_method P).
Definition ok_node (n : mnode) : Prop := match n with NM m => (m < nm)%nat | NT t => has_method t end.

(** The values of a method or task agree with those they depend on. *)
Definition settled_m (x : mix) (m : nat) (md : method) : Prop :=
  (at0 (x_cM x) m = sumv (x_cT x) (m_subs md) /\ at0 (x_dM x) m = 1 + sumv (x_dT x) (m_subs md)) \/
  (at0 (x_cM x) m = 0 /\ at0 (x_dM x) m = 0 /\ forall t, In t (m_subs md) -> at0 (x_cT x) t = 0 /\ at0 (x_dT x) t = 0).
Definition settled_t (x : mix) (t : nat) : Prop :=
  at0 (x_cT x) t = minv (x_cM x) (task_to_methods P t) int_max /\ at0 (x_dT x) t = minv (x_dM x) (task_to_methods P t) int_max.

Record inv (x : mix) (q : list mnode) : Prop := {
  i_c : comp cv 0 (x_cT x) (x_cM x);
  i_d : comp dv 1 (x_dT x) (x_dM x);
  i_q : forall n, In n q -> ok_node n;
  i_m : forall m md, nth_error (p_methods P) m = Some md -> In (NM m) q \/ settled_m x m md;
  i_t : forall t, has_method t -> In (NT t) q \/ settled_t x t }.

Lemma queue_methods_ok t : (t < nt)%nat -> exists q, queue_methods st t = Some q /\ (length q <= nm)%nat /\ forall n, In n q <-> exists m md, n = NM m /\ nth_error (p_methods P) m = Some md /\ In t (m_subs md).
Proof.
  intros L. destruct (ST t L) as (row & G & B & I). unfold queue_methods. rewrite G. cbn [obind]. eexists. split; [reflexivity|]. split; [now rewrite map_length|].
  intros n. rewrite in_map_iff. split.
  - intros (z & <- & Hz). apply I in Hz as (m & md & -> & E & H). rewrite Nat2Z.id. eauto.
  - intros (m & md & -> & E & H). exists (Z.of_nat m). rewrite Nat2Z.id. split; auto. apply I. eauto.
Qed.

Lemma inv_step x n q x' a : inv x (n :: q) -> mix_step P st x n = Some (x', a) -> inv x' (q ++ a) /\
  (forall i, at0 (x_cT x) i <= at0 (x_cT x') i /\ at0 (x_dT x) i <= at0 (x_dT x') i /\ at0 (x_cM x) i <= at0 (x_cM x') i /\ at0 (x_dM x) i <= at0 (x_dM x') i) /\
  (length a <= S nm)%nat /\
  (a = [] \/ exists i, at0 (x_cT x) i + at0 (x_dT x) i + at0 (x_cM x) i + at0 (x_dM x) i < at0 (x_cT x') i + at0 (x_dT x') i + at0 (x_cM x') i + at0 (x_dM x') i).
Proof.
  intros [IC ID IQ IM IT] H. destruct n as [m|t]; cbn [mix_step] in H.
  - apply obind_some in H as (md & E & H). apply obind_some in H as (cc & Ecc & H). apply obind_some in H as (cd & Ecd & H). apply obind_some in H as (c & Ec & H).
    apply obind_some in H as (d & Ed & H). apply obind_some in H as (cM & EcM & H). apply obind_some in H as (dM & EdM & H).
    injection H as <- <-. cbn [x_cT x_dT x_cM x_dM]. apply get_at0 in Ecc, Ecd.
    destruct (comp_nm _ _ _ _ _ _ _ _ (Z.le_refl 0) IC E Ec EcM) as (IC' & Lc & Vc). destruct (comp_nm _ _ _ _ _ _ _ _ Z.le_0_1 ID E Ed EdM) as (ID' & Ld & Vd).
    assert (AC : forall j, at0 cM j = if Nat.eqb j m then c else at0 (x_cM x) j) by (intros j; now apply at0_set).
    assert (AD : forall j, at0 dM j = if Nat.eqb j m then d else at0 (x_dM x) j) by (intros j; now apply at0_set).
    split; [|split; [|split]].
    + split; cbn [x_cT x_dT x_cM x_dM]; auto.
      * intros n Hn. apply in_app_or in Hn as [Hn|Hn]; [apply IQ; now right|]. destruct ((c =? cc) && (d =? cd)); [destruct Hn|]. destruct Hn as [<-|[]].
        exists md. split; auto. eapply nth_error_In; eauto.
      * intros j jd Ej. destruct (Nat.eq_dec j m) as [->|N].
        -- right. left. cbn [x_cT x_dT x_cM x_dM]. rewrite AC, AD, Nat.eqb_refl. replace jd with md by (unfold get in E; congruence). split; lia.
        -- destruct (IM j jd Ej) as [[HH|HH]|HH]; [congruence|left; apply in_or_app; auto|]. right. unfold settled_m in *. cbn [x_cT x_dT x_cM x_dM]. rewrite AC, AD.
           now rewrite (proj2 (Nat.eqb_neq j m) N).
      * intros t Ht. destruct (IT t Ht) as [[HH|HH]|HH]; [discriminate|left; apply in_or_app; auto|].
        destruct ((c =? cc) && (d =? cd)) eqn:EQ.
        -- right. apply andb_prop in EQ as [E1 E2]. apply Z.eqb_eq in E1, E2. unfold settled_t in *. cbn [x_cT x_dT x_cM x_dM].
           assert (X1 : forall j, at0 cM j = at0 (x_cM x) j) by (intros j; rewrite AC; destruct (Nat.eqb_spec j m); congruence).
           assert (X2 : forall j, at0 dM j = at0 (x_dM x) j) by (intros j; rewrite AD; destruct (Nat.eqb_spec j m); congruence).
           assert (MX : forall v w l, (forall j, at0 v j = at0 w j) -> forall s, minv v l s = minv w l s) by (intros v w l Hv; induction l; intros s; cbn; auto; rewrite Hv; apply IHl).
           now rewrite (MX _ _ _ X1), (MX _ _ _ X2).
        -- destruct (Nat.eq_dec (m_task md) t) as [<-|N]; [left; apply in_or_app; right; now left|]. right. unfold settled_t in *. cbn [x_cT x_dT x_cM x_dM].
           assert (MX : forall v w l, (forall j, In j l -> at0 v j = at0 w j) -> forall s, minv v l s = minv w l s).
           { intros v w l. induction l as [|k l IHl]; intros Hv s; cbn; auto. rewrite (Hv k) by now left. apply IHl. intros; apply Hv; now right. }
           assert (NI : forall j, In j (task_to_methods P t) -> j <> m). { intros j Hj ->. apply ttm_spec in Hj as (jd & Ej & Ht2). unfold get in E. congruence. }
           rewrite (MX cM (x_cM x)), (MX dM (x_dM x)); auto; intros j Hj; rewrite ?AC, ?AD; now rewrite (proj2 (Nat.eqb_neq j m) (NI j Hj)).
    + intros i. rewrite AC, AD. destruct (Nat.eqb_spec i m) as [->|]; lia.
    + destruct (_ && _); cbn; lia.
    + destruct ((c =? cc) && (d =? cd)) eqn:EQ; auto. right. exists m. rewrite AC, AD, Nat.eqb_refl. apply andb_false_iff in EQ. destruct EQ as [E1|E1]; apply Z.eqb_neq in E1; lia.
  - apply obind_some in H as (cc & Ecc & H). apply obind_some in H as (cd & Ecd & H). apply obind_some in H as (c & Ec & H).
    apply obind_some in H as (d & Ed & H). apply obind_some in H as (cT & EcT & H). apply obind_some in H as (dT & EdT & H). apply obind_some in H as (a' & Ea & H).
    injection H as <- <-. cbn [x_cT x_dT x_cM x_dM]. apply get_at0 in Ecc, Ecd.
    assert (HM : has_method t) by (apply (IQ (NT t)); now left). assert (NA : (na <= t < nt)%nat) by (destruct HM as (m & Hm & <-); now apply task_abs).
    destruct (comp_nt _ _ _ _ _ _ _ (proj1 NA) HM IC Ec EcT) as (IC' & Lc & Vc). destruct (comp_nt _ _ _ _ _ _ _ (proj1 NA) HM ID Ed EdT) as (ID' & Ld & Vd).
    assert (AC : forall j, at0 cT j = if Nat.eqb j t then c else at0 (x_cT x) j) by (intros j; now apply at0_set).
    assert (AD : forall j, at0 dT j = if Nat.eqb j t then d else at0 (x_dT x) j) by (intros j; now apply at0_set).
    destruct (queue_methods_ok t (proj2 NA)) as (qm & EQ & LQ & IQM).
    assert (A' : a' = if (c =? cc) && (d =? cd) then [] else qm). { destruct (_ && _); congruence. } clear Ea.
    split; [|split; [|split]].
    + split; cbn [x_cT x_dT x_cM x_dM]; auto.
      * intros n Hn. apply in_app_or in Hn as [Hn|Hn]; [apply IQ; now right|]. rewrite A' in Hn. destruct (_ && _); [destruct Hn|]. apply IQM in Hn as (m & md & -> & E & _).
        cbn. apply nth_error_Some. congruence.
      * intros j jd Ej. destruct (IM j jd Ej) as [[HH|HH]|HH]; [discriminate|left; apply in_or_app; auto|].
        destruct ((c =? cc) && (d =? cd)) eqn:EE.
        -- right. apply andb_prop in EE as [E1 E2]. apply Z.eqb_eq in E1, E2. unfold settled_m in *. cbn [x_cT x_dT x_cM x_dM].
           assert (X1 : forall j, at0 cT j = at0 (x_cT x) j) by (intros k; rewrite AC; destruct (Nat.eqb_spec k t); congruence).
           assert (X2 : forall j, at0 dT j = at0 (x_dT x) j) by (intros k; rewrite AD; destruct (Nat.eqb_spec k t); congruence).
           rewrite (sumv_ext cT (x_cT x)), (sumv_ext dT (x_dT x)) by auto. destruct HH as [HH|(H1 & H2 & H3)]; auto. right. repeat split; auto; [rewrite X1|rewrite X2]; now apply H3.
        -- destruct (in_dec Nat.eq_dec t (m_subs jd)) as [I|N]; [left; apply in_or_app; right; subst a'; apply IQM; eauto|]. right. unfold settled_m in *. cbn [x_cT x_dT x_cM x_dM].
           assert (X : forall u, In u (m_subs jd) -> at0 cT u = at0 (x_cT x) u /\ at0 dT u = at0 (x_dT x) u).
           { intros u Hu. rewrite AC, AD. assert (u <> t) by congruence. now rewrite (proj2 (Nat.eqb_neq u t)). }
           rewrite (sumv_ext cT (x_cT x)), (sumv_ext dT (x_dT x)) by (intros u Hu; apply (X u Hu)). destruct HH as [HH|(H1 & H2 & H3)]; auto. right. split; auto. split; auto. intros u Hu.
           destruct (X u Hu) as [-> ->]. auto.
      * intros u Hu. destruct (Nat.eq_dec u t) as [->|N].
        -- right. unfold settled_t. cbn [x_cT x_dT x_cM x_dM]. rewrite AC, AD, Nat.eqb_refl. auto.
        -- destruct (IT u Hu) as [[HH|HH]|HH]; [congruence|left; apply in_or_app; auto|]. right. unfold settled_t in *. cbn [x_cT x_dT x_cM x_dM]. rewrite AC, AD. now rewrite (proj2 (Nat.eqb_neq u t) N).
    + intros i. rewrite AC, AD. destruct (Nat.eqb_spec i t) as [->|]; lia.
    + rewrite A'. destruct (_ && _); cbn; lia.
    + rewrite A'. destruct ((c =? cc) && (d =? cd)) eqn:EE; auto. right. exists t. rewrite AC, AD, Nat.eqb_refl. apply andb_false_iff in EE. destruct EE as [E1|E1]; apply Z.eqb_neq in E1; lia.
Qed.

(** *** The initial values *)
Lemma at0_repeat z n i : at0 (repeat z n) i = if Nat.ltb i n then z else 0.
Proof. unfold at0. revert i. induction n as [|n IH]; intros [|i]; cbn; auto. apply IH. Qed.
Lemma at0_app v w i : at0 (v ++ w) i = if Nat.ltb i (length v) then at0 v i else at0 w (i - length v).
Proof. unfold at0. destruct (Nat.ltb_spec i (length v)); [now apply app_nth1|now apply app_nth2]. Qed.
Lemma at0_zero i n : at0 (repeat 0 n) i = 0.
Proof. rewrite at0_repeat. destruct (Nat.ltb i n); auto. Qed.
Lemma at0_cost i : at0 (map Z.of_nat (p_cost P)) i = Z.of_nat (cost_of P i).
Proof. unfold at0, cost_of. exact (map_nth Z.of_nat (p_cost P) 0%nat i). Qed.

Lemma comp_init v b base : 0 <= b -> length base = na -> (forall t, (t < na)%nat -> at0 base t = v t /\ 0 <= v t) -> comp v b (base ++ repeat 0 (nt - na)) (repeat 0 nm).
Proof.
  intros B L H. assert (AT : forall t, at0 (base ++ repeat 0 (nt - na)) t = if Nat.ltb t na then v t else 0).
  { intros t. rewrite at0_app, L, at0_zero. destruct (Nat.ltb_spec t na); auto. now apply H. }
  assert (NN : forall t, 0 <= at0 (base ++ repeat 0 (nt - na)) t). { intros t. rewrite AT. destruct (Nat.ltb_spec t na); [now apply H|lia]. }
  split; auto.
  - rewrite app_length, repeat_length, L. assert (N := na_nt). lia.
  - apply repeat_length.
  - intros t Ht. rewrite AT. now rewrite (proj2 (Nat.ltb_lt _ _)).
  - intros t Ht _. rewrite AT. destruct (Nat.ltb_spec t na); auto. lia.
  - intros m. rewrite at0_zero. lia.
  - intros m. rewrite at0_zero. unfold int_max. lia.
  - intros m md E. rewrite at0_zero. assert (0 <= sumv (base ++ repeat 0 (nt - na)) (m_subs md)) by (apply sumv_nonneg; auto). lia.
  - intros m md E. rewrite at0_zero, AT. destruct (Nat.ltb_spec (m_task md) na); [|lia]. apply nth_error_In in E. apply task_abs in E. lia.
Qed.

Lemma omap_in {A B} (f : A -> option B) l l' : omap f l = Some l' -> (forall a, In a l -> exists b, In b l' /\ f a = Some b) /\ (forall b, In b l' -> exists a, In a l /\ f a = Some b).
Proof.
  revert l'. induction l as [|a l IH]; cbn; intros l' H.
  - injection H as <-. split; intros ? [].
  - apply obind_some in H as (b & E & H). apply obind_some in H as (bs & Es & H). injection H as <-. destruct (IH _ Es) as [I1 I2]. split.
    + intros x [<-|Hx]; [exists b; split; cbn; auto|]. destruct (I1 x Hx) as (y & ? & ?). exists y. split; cbn; auto.
    + intros y [<-|Hy]; [exists a; split; cbn; auto|]. destruct (I2 y Hy) as (x & ? & ?). exists x. split; cbn; auto.
Qed.
Lemma omap_total {A B} (f : A -> option B) l : (forall a, In a l -> exists b, f a = Some b) -> exists l', omap f l = Some l'.
Proof.
  induction l as [|a l IH]; cbn; intros H; eauto. destruct (H a (or_introl eq_refl)) as (b & ->). destruct IH as (l' & ->); [intros; apply H; now right|]. cbn. eauto.
Qed.

Lemma mix_queue_ok : exists q, mix_queue P st = Some q /\ forall n, In n q <-> exists t m md, (t < na)%nat /\ n = NM m /\ nth_error (p_methods P) m = Some md /\ In t (m_subs md).
Proof.
  unfold mix_queue. destruct (omap_total (queue_methods st) (seq 0 na)) as (qs & E).
  - intros t Ht. apply in_seq in Ht. destruct (queue_methods_ok t) as (q & -> & _); [assert (N := na_nt); lia|]. eauto.
  - rewrite E. cbn [obind]. eexists. split; [reflexivity|]. destruct (omap_in _ _ _ E) as [I1 I2]. intros n. rewrite in_concat. split.
    + intros (q & Hq & Hn). destruct (I2 q Hq) as (t & Ht & Et). apply in_seq in Ht. destruct (queue_methods_ok t) as (q' & E' & _ & IQ); [assert (N := na_nt); lia|].
      assert (q' = q) by congruence; subst q'. apply (IQ n) in Hn. destruct Hn as (m & md & A1 & A2 & A3). exists t, m, md. repeat split; auto. lia.
    + intros (t & m & md & Ht & -> & Em & It). destruct (I1 t) as (q & Hq & Eq); [apply in_seq; lia|]. exists q. split; auto.
      destruct (queue_methods_ok t) as (q' & E' & _ & IQ); [assert (N := na_nt); lia|]. assert (q' = q) by congruence; subst q'. apply IQ. eauto.
Qed.

Lemma inv_init q : mix_queue P st = Some q -> inv (mix_init P) q.
Proof.
  intros E. destruct mix_queue_ok as (q' & E' & IQ). assert (q' = q) by congruence; subst q'. clear E'. assert (N := na_nt).
  assert (ATc : forall t, (na <= t)%nat -> at0 (x_cT (mix_init P)) t = 0). { intros t Ht. cbn [mix_init x_cT x_dT x_cM x_dM]. rewrite at0_app, map_length, at0_zero. destruct (Nat.ltb_spec t na); auto. lia. }
  assert (ATd : forall t, (na <= t)%nat -> at0 (x_dT (mix_init P)) t = 0). { intros t Ht. cbn [mix_init x_cT x_dT x_cM x_dM]. rewrite at0_app, repeat_length, at0_zero. destruct (Nat.ltb_spec t na); auto. lia. }
  split.
  - cbn [mix_init x_cT x_dT x_cM x_dM]. apply comp_init; [lia|now rewrite map_length|]. intros t Ht. rewrite at0_cost. unfold cv. split; auto. lia.
  - cbn [mix_init x_cT x_dT x_cM x_dM]. apply comp_init; [lia|now rewrite repeat_length|]. intros t Ht. rewrite at0_repeat, (proj2 (Nat.ltb_lt _ _) Ht). unfold dv. split; auto. lia.
  - intros n Hn. apply IQ in Hn as (t & m & md & _ & -> & Em & _). cbn. apply nth_error_Some. congruence.
  - intros m md Em. destruct (existsb (fun t => Nat.ltb t na) (m_subs md)) eqn:X.
    + left. apply existsb_exists in X as (t & Ht & L). apply Nat.ltb_lt in L. apply IQ. exists t, m, md. auto.
    + right. right. split; [cbn [mix_init x_cT x_dT x_cM x_dM]; apply at0_zero|]. split; [cbn [mix_init x_cT x_dT x_cM x_dM]; apply at0_zero|]. intros t Ht.
      assert (L : (na <= t)%nat). { destruct (Nat.le_gt_cases na t) as [L|L]; auto. exfalso. assert (existsb (fun t => Nat.ltb t na) (m_subs md) = true); [|congruence].
        apply existsb_exists. exists t. split; auto. now apply Nat.ltb_lt. } auto.
  - intros t Ht. right. destruct Ht as (md & Hm & <-). assert (A := task_abs md Hm). unfold settled_t. rewrite ATc, ATd by lia.
    apply In_nth_error in Hm as (m & Em). assert (IM : In m (task_to_methods P (m_task md))) by (apply ttm_spec; eauto).
    assert (MZ : minv (repeat 0 nm) (task_to_methods P (m_task md)) int_max = 0).
    { apply Z.le_antisymm; [|apply minv_ge; [unfold int_max; lia|intros; rewrite at0_zero; lia]].
      destruct (minv_le (repeat 0 nm) (task_to_methods P (m_task md)) int_max) as [_ X]. specialize (X m IM). now rewrite at0_zero in X. }
    cbn [mix_init x_cT x_dT x_cM x_dM]. auto.
Qed.

(** *** The loop *)
Definition result_of (o : outcome) : option mix := match o with MDone x => Some x | MUndef => None | MMore x _ => Some x end.

Lemma loop_inv fuel : forall x q, inv x q -> match mix_loop P st fuel x q with MDone x' => inv x' [] | MUndef => True | MMore x' q' => inv x' q' end.
Proof.
  induction fuel as [|f IH]; intros x q I; destruct q as [|n q]; cbn [mix_loop]; auto.
  destruct (mix_step P st x n) as [[x' a]|] eqn:E; auto. destruct (inv_step _ _ _ _ _ I E) as (I' & _). apply IH. exact I'.
Qed.

(** *** Lower bounds *)
Scheme refinement_mind := Induction for refinement Sort Prop with refinements_mind := Induction for refinements Sort Prop.
Combined Scheme refinement_mut from refinement_mind, refinements_mind.

Lemma lower x q : inv x q -> (forall t c d, refinement P t c d -> at0 (x_cT x) t <= Z.of_nat c /\ at0 (x_dT x) t <= Z.of_nat d) /\
  (forall l c d, refinements P l c d -> sumv (x_cT x) l <= Z.of_nat c /\ sumv (x_dT x) l <= Z.of_nat d).
Proof.
  intros [IC ID _ _ _].
  apply (refinement_mut P (fun t c d _ => at0 (x_cT x) t <= Z.of_nat c /\ at0 (x_dT x) t <= Z.of_nat d)
          (fun l c d _ => sumv (x_cT x) l <= Z.of_nat c /\ sumv (x_dT x) l <= Z.of_nat d)).
  - intros a Ha. apply (wf_prim _ WP) in Ha. rewrite (c_act _ _ _ _ IC), (c_act _ _ _ _ ID) by auto. unfold cv, dv. lia.
  - intros m c d Hm _ [H1 H2]. apply In_nth_error in Hm as (i & E).
    assert (A := c_lo _ _ _ _ IC i m E). assert (B := c_up _ _ _ _ IC i m E). assert (A' := c_lo _ _ _ _ ID i m E). assert (B' := c_up _ _ _ _ ID i m E). lia.
  - cbn. lia.
  - intros t ts c d cs ds _ [A B] _ [A' B']. cbn. fold (sumv (x_cT x) ts) (sumv (x_dT x) ts). lia.
Qed.

(** *** Networks *)
Definition net_sum (v : list Z) (tn : tnet) (L : list tid) : Z := sumv v (map (t_lab tn) L).

Lemma sumv_perm v l l' : Permutation l l' -> sumv v l = sumv v l'.
Proof. unfold sumv. induction 1; cbn [fold_right]; lia. Qed.
Lemma sumv_app v l l' : sumv v (l ++ l') = sumv v l + sumv v l'.
Proof. induction l; cbn; auto. fold (sumv v (l ++ l')) (sumv v l). lia. Qed.

Definition children (x : tid) (m : method) : list tid := map (fun j => x ++ [j]) (seq 0 (length (m_subs m))).

Lemma map_seq_nth {A} (f : nat -> A) (l : list A) : (forall j a, nth_error l j = Some a -> f j = a) -> map f (seq 0 (length l)) = l.
Proof.
  revert f. induction l as [|a l IH]; intros f H; cbn [length seq map]; auto. f_equal; [now apply (H 0%nat)|].
  rewrite <- seq_shift, map_map. apply IH. intros j b E. now apply (H (S j)).
Qed.

Lemma step_sum tn x m tn' L L' : wf_tn tn -> decomposes P tn x m tn' -> lists tn L -> lists tn' L' ->
  exists R, Permutation L (x :: R) /\ Permutation (map (t_lab tn') L') (map (t_lab tn) R ++ m_subs m).
Proof.
  intros W D [NL IL] [NL' IL']. assert (Hx := d_in _ _ _ _ _ D).
  apply IL in Hx as Hx'. apply in_split in Hx' as (L1 & L2 & ->). exists (L1 ++ L2).
  assert (PX : Permutation (L1 ++ x :: L2) (x :: L1 ++ L2)) by (symmetry; apply Permutation_middle).
  split; auto.
  assert (NX : NoDup (x :: L1 ++ L2)) by (eapply Permutation_NoDup; eauto). inversion NX as [|? ? NI ND]; subst.
  assert (IR : forall y, In y (L1 ++ L2) <-> t_in tn y /\ y <> x).
  { intros y. rewrite <- IL. rewrite !in_app_iff. cbn. split.
    - intros H. split; [tauto|]. intros ->. apply NI. now apply in_or_app.
    - intros [[H|[H|H]] N]; auto. congruence. }
  assert (NC : NoDup (children x m)). { unfold children. apply FinFun.Injective_map_NoDup; [|apply seq_NoDup]. intros a b E. now apply app_inj_tail in E as [_ ->]. }
  assert (IC : forall y, In y (children x m) <-> exists j, (j < length (m_subs m))%nat /\ y = x ++ [j]).
  { intros y. unfold children. rewrite in_map_iff. split; intros (j & A & B); exists j; [apply in_seq in B; split; [lia|auto]|split; [auto|apply in_seq; lia]]. }
  assert (PL : Permutation L' ((L1 ++ L2) ++ children x m)).
  { apply NoDup_Permutation; auto.
    - apply nodup_app_iff. split; [exact ND|]. split; [exact NC|]. intros y H1 H2. apply (IR y) in H1 as [H1 _]. apply IC in H2 as (j & _ & ->). apply (child_not_in tn x j W Hx H1).
    - intros y. rewrite in_app_iff, IR, IC, IL'. apply (d_in' _ _ _ _ _ D). }
  rewrite (Permutation_map (t_lab tn') PL), map_app. apply Permutation_app.
  - erewrite map_ext_in; [apply Permutation_refl|]. intros y Hy. apply IR in Hy as [H1 H2]. now apply (d_lab_old _ _ _ _ _ D).
  - unfold children. rewrite map_map. rewrite (map_seq_nth (fun j => t_lab tn' (x ++ [j])) (m_subs m)); auto. apply (d_lab_new _ _ _ _ _ D).
Qed.

Lemma lists_step tn x m tn' L : wf_tn tn -> decomposes P tn x m tn' -> lists tn L -> exists L', lists tn' L'.
Proof.
  intros W D [NL IL]. exists (filter (fun y => if tid_eq_dec y x then false else true) L ++ children x m). split.
  - apply nodup_app_iff. split; [now apply NoDup_filter|]. split.
    + unfold children. apply FinFun.Injective_map_NoDup; [|apply seq_NoDup]. intros a b E. now apply app_inj_tail in E as [_ ->].
    + intros y H1 H2. apply filter_In in H1 as [H1 _]. unfold children in H2. apply in_map_iff in H2 as (j & <- & _). apply IL in H1. exact (child_not_in tn x j W (d_in _ _ _ _ _ D) H1).
  - intros y. rewrite (d_in' _ _ _ _ _ D), in_app_iff, filter_In, IL. unfold children. rewrite in_map_iff. split.
    + intros [[A B]|(j & <- & B)]; [left; destruct (tid_eq_dec y x); auto; discriminate|right]. apply in_seq in B. exists j. split; auto. lia.
    + intros [[A B]|(j & B & ->)]; [left; destruct (tid_eq_dec y x); auto; congruence|right]. exists j. split; auto. apply in_seq. lia.
Qed.

Lemma network_lower x q tn n tn' : inv x q -> wf_tn tn -> refines_in P tn n tn' -> forall L L', lists tn L -> lists tn' L' -> (forall y, t_in tn' y -> primitive P (t_lab tn' y)) ->
  net_sum (x_cT x) tn L <= Z.of_nat (plan_cost P (map (t_lab tn') L')) /\ net_sum (x_dT x) tn L <= Z.of_nat (length L' + n).
Proof.
  intros I W R. revert W. induction R as [tn|tn y m tn' n tn'' D R IH]; intros W L L' HL HL' PR.
  - assert (PM : Permutation L L'). { destruct HL as [N1 I1], HL' as [N2 I2]. apply NoDup_Permutation; auto. intros z. now rewrite I1, I2. }
    unfold net_sum. rewrite (sumv_perm _ _ _ (Permutation_map (t_lab tn) PM)), (sumv_perm (x_dT x) _ _ (Permutation_map (t_lab tn) PM)).
    assert (PL : forall z, In z L' -> primitive P (t_lab tn z)) by (intros z Hz; apply PR; now apply HL'). clear HL' PM HL. induction L' as [|z l IHl]; cbn; [lia|].
    fold (sumv (x_cT x) (map (t_lab tn) l)) (sumv (x_dT x) (map (t_lab tn) l)). assert (X := PL z (or_introl eq_refl)). apply (wf_prim _ WP) in X.
    rewrite (c_act _ _ _ _ (i_c _ _ I)), (c_act _ _ _ _ (i_d _ _ I)) by auto. unfold cv, dv. destruct IHl as [A B]; [intros; apply PL; now right|].
    unfold plan_cost, list_sum in *. lia.
  - assert (Hm := d_method _ _ _ _ _ D). assert (W' : wf_tn tn') by (eapply decomposes_wf; eauto; apply (wfm_acyclic _ _ (wf_methods _ WP m Hm))).
    destruct (lists_step _ _ _ _ _ W D HL) as (L1 & HL1). destruct (IH W' L1 L' HL1 HL' PR) as [A B].
    destruct (step_sum _ _ _ _ _ _ W D HL HL1) as (Rm & P1 & P2). unfold net_sum in *.
    rewrite (sumv_perm (x_cT x) _ _ P2), sumv_app in A. rewrite (sumv_perm (x_dT x) _ _ P2), sumv_app in B. rewrite (sumv_perm _ _ _ (Permutation_map (t_lab tn) P1)), (sumv_perm (x_dT x) _ _ (Permutation_map (t_lab tn) P1)).
    cbn [map sumv fold_right]. fold (sumv (x_cT x) (map (t_lab tn) Rm)) (sumv (x_dT x) (map (t_lab tn) Rm)). rewrite (d_lab _ _ _ _ _ D).
    apply In_nth_error in Hm as (i & E). 
    assert (C1 := c_lo _ _ _ _ (i_c _ _ I) i m E). assert (C2 := c_up _ _ _ _ (i_c _ _ I) i m E). assert (D1 := c_lo _ _ _ _ (i_d _ _ I) i m E). assert (D2 := c_up _ _ _ _ (i_d _ _ I) i m E). lia.
Qed.

(** *** Termination *)
Definition total (n : nat) (v : list Z) : Z := sumv v (seq 0 n).
Definition weight (x : mix) : Z := total nt (x_cT x) + total nt (x_dT x) + total nm (x_cM x) + total nm (x_dM x).

Lemma total_le n v B : (forall i, (i < n)%nat -> at0 v i <= B) -> total n v <= Z.of_nat n * B.
Proof.
  unfold total. intros H. assert (forall a, (forall i, (a <= i < a + n)%nat -> at0 v i <= B) -> sumv v (seq a n) <= Z.of_nat n * B).
  { clear H. induction n as [|n IH]; intros a H; cbn [seq sumv fold_right]; [lia|]. fold (sumv v (seq (S a) n)). assert (X := H a ltac:(lia)).
    assert (sumv v (seq (S a) n) <= Z.of_nat n * B) by (apply IH; intros; apply H; lia). lia. }
  apply H0. intros; apply H; lia.
Qed.
Lemma total_mono n v w : (forall i, at0 v i <= at0 w i) -> total n v <= total n w /\ forall i, (i < n)%nat -> total n v + (at0 w i - at0 v i) <= total n w.
Proof.
  unfold total. intros H. split; [apply sumv_le; auto|]. assert (forall a i, (a <= i < a + n)%nat -> sumv v (seq a n) + (at0 w i - at0 v i) <= sumv w (seq a n)); [|intros i Hi; apply H0; lia].
  induction n as [|n IH]; intros a i Hi; [lia|]. cbn [seq sumv fold_right]. fold (sumv v (seq (S a) n)) (sumv w (seq (S a) n)).
  assert (sumv v (seq (S a) n) <= sumv w (seq (S a) n)) by (apply sumv_le; auto). destruct (Nat.eq_dec i a) as [->|N]; [lia|].
  specialize (IH (S a) i ltac:(lia)). specialize (H a). lia.
Qed.

Lemma weight_step x n q x' a : inv x (n :: q) -> mix_step P st x n = Some (x', a) -> a = [] /\ weight x <= weight x' \/ weight x < weight x'.
Proof.
  intros I E. destruct (inv_step _ _ _ _ _ I E) as (I' & M & _ & C). unfold weight.
  destruct (total_mono nt (x_cT x) (x_cT x')) as [A1 B1]; [intros i; apply M|]. destruct (total_mono nt (x_dT x) (x_dT x')) as [A2 B2]; [intros i; apply M|].
  destruct (total_mono nm (x_cM x) (x_cM x')) as [A3 B3]; [intros i; apply M|]. destruct (total_mono nm (x_dM x) (x_dM x')) as [A4 B4]; [intros i; apply M|].
  destruct C as [->|(i & C)]; [left; split; auto; lia|right]. destruct (M i) as (M1 & M2 & M3 & M4).
  assert (OV : forall v k, (length v <= k)%nat -> at0 v k = 0) by (intros v k L; now apply nth_overflow).
  destruct (Nat.lt_ge_cases i nt) as [L1|L1]; destruct (Nat.lt_ge_cases i nm) as [L2|L2].
  - specialize (B1 i L1). specialize (B2 i L1). specialize (B3 i L2). specialize (B4 i L2). lia.
  - specialize (B1 i L1). specialize (B2 i L1). rewrite !(OV (x_cM _)), !(OV (x_dM _)) in C by (rewrite ?(c_lM _ _ _ _ (i_c _ _ I)), ?(c_lM _ _ _ _ (i_d _ _ I)), ?(c_lM _ _ _ _ (i_c _ _ I')), ?(c_lM _ _ _ _ (i_d _ _ I')); auto). lia.
  - specialize (B3 i L2). specialize (B4 i L2). rewrite !(OV (x_cT _)), !(OV (x_dT _)) in C by (rewrite ?(c_lT _ _ _ _ (i_c _ _ I)), ?(c_lT _ _ _ _ (i_d _ _ I)), ?(c_lT _ _ _ _ (i_c _ _ I')), ?(c_lT _ _ _ _ (i_d _ _ I')); auto). lia.
  - rewrite !(OV (x_cM _)), !(OV (x_dM _)) in C by (rewrite ?(c_lM _ _ _ _ (i_c _ _ I)), ?(c_lM _ _ _ _ (i_d _ _ I)), ?(c_lM _ _ _ _ (i_c _ _ I')), ?(c_lM _ _ _ _ (i_d _ _ I')); auto).
    rewrite !(OV (x_cT _)), !(OV (x_dT _)) in C by (rewrite ?(c_lT _ _ _ _ (i_c _ _ I)), ?(c_lT _ _ _ _ (i_d _ _ I)), ?(c_lT _ _ _ _ (i_c _ _ I')), ?(c_lT _ _ _ _ (i_d _ _ I')); auto). lia.
Qed.

(** Every value is at most the cost of an action or INT_MAX. *)
Definition cap : Z := fold_right Z.max int_max (map Z.of_nat (p_cost P)).
Lemma cap_spec : int_max <= cap /\ forall c, In c (p_cost P) -> Z.of_nat c <= cap.
Proof.
  unfold cap. induction (p_cost P) as [|c l [A B]]; cbn; [split; [lia|intros ? []]|]. split; [lia|]. intros k [<-|H]; [lia|]. specialize (B k H). lia.
Qed.

Lemma weight_cap x q : inv x q -> weight x <= 2 * (Z.of_nat nt + Z.of_nat nm) * cap.
Proof.
  intros I. destruct cap_spec as [K1 K2]. assert (IM : int_max = 2147483647) by reflexivity. assert (IC := i_c _ _ I). assert (ID := i_d _ _ I).
  assert (X : forall v b T M, comp v b T M -> (forall t, (t < na)%nat -> v t <= cap) -> total nt T <= Z.of_nat nt * cap /\ total nm M <= Z.of_nat nm * cap).
  { intros v b T M C V. split; apply total_le.
    - intros i Hi. destruct (Nat.lt_ge_cases i na) as [L|L]; [rewrite (c_act _ _ _ _ C) by auto; auto|].
      destruct (existsb (fun m => Nat.eqb (m_task m) i) (p_methods P)) eqn:E.
      + apply existsb_exists in E as (md & Hm & E). apply Nat.eqb_eq in E. subst i. apply In_nth_error in Hm as (m & Em). assert (Y := c_lo _ _ _ _ C m md Em). assert (Y' := c_bM _ _ _ _ C m). lia.
      + rewrite (c_no _ _ _ _ C); auto; [lia|]. intros m Hm EQ. assert (existsb (fun m => Nat.eqb (m_task m) i) (p_methods P) = true); [|congruence]. apply existsb_exists. exists m. split; auto. now apply Nat.eqb_eq.
    - intros i Hi. assert (Y := c_bM _ _ _ _ C i). lia. }
  destruct (X _ _ _ _ IC) as [X1 X2]; [intros t Ht; unfold cv; apply K2, nth_In; auto|]. destruct (X _ _ _ _ ID) as [X3 X4]; [intros t Ht; unfold dv; lia|]. unfold weight. nia.
Qed.

(** The number of iterations that always suffices. *)
Lemma loop_ends k : forall x q, inv x q -> 2 * (Z.of_nat nt + Z.of_nat nm) * cap - weight x <= Z.of_nat k ->
  forall fuel, (length q + k * S nm <= fuel)%nat -> forall x' q', mix_loop P st fuel x q <> MMore x' q'.
Proof.
  intros x q I B fuel. revert k x q I B. induction fuel as [|f IH]; intros k x q I B F x' q'; destruct q as [|n q]; cbn [mix_loop]; try discriminate; [cbn in F; lia|].
  destruct (mix_step P st x n) as [[y a]|] eqn:E; [|discriminate]. destruct (inv_step _ _ _ _ _ I E) as (I' & _ & LA & _).
  assert (WC := weight_cap _ _ I'). destruct (weight_step _ _ _ _ _ I E) as [[-> L]|L].
  - apply (IH k); auto; [lia|]. rewrite app_nil_r. cbn in F. lia.
  - destruct k as [|k]; [lia|]. apply (IH k); auto; [lia|]. rewrite app_length. cbn in F. nia.
Qed.

(** *** No overflow if there are short refinements *)
Lemma step_defined x n q : inv x (n :: q) ->
  (forall md, In md (p_methods P) -> sumv (x_cT x) (m_subs md) <= int_max /\ 1 + sumv (x_dT x) (m_subs md) <= int_max) -> exists r, mix_step P st x n = Some r.
Proof.
  intros I B. assert (IC := i_c _ _ I). assert (ID := i_d _ _ I). destruct n as [m|t]; cbn [mix_step].
  - assert (Lm : (m < nm)%nat) by (apply (i_q _ _ I (NM m)); now left). destruct (get_some (p_methods P) m Lm) as (md & E). rewrite E. cbn [obind].
    rewrite (at0_get (x_cM x)) by (rewrite (c_lM _ _ _ _ IC); auto). rewrite (at0_get (x_dM x)) by (rewrite (c_lM _ _ _ _ ID); auto). cbn [obind].
    assert (Hm : In md (p_methods P)) by (eapply nth_error_In; eauto). destruct (B md Hm) as [B1 B2].
    assert (SB : forall t, In t (m_subs md) -> (t < nt)%nat) by apply (wfm_subs _ _ (wf_methods _ WP md Hm)).
    rewrite isum_ok; [|intros; rewrite (c_lT _ _ _ _ IC); auto|intros; apply (c_nT _ _ _ _ IC)|lia]. rewrite isum_ok; [|intros; rewrite (c_lT _ _ _ _ ID); auto|intros; apply (c_nT _ _ _ _ ID)|lia]. cbn [obind].
    edestruct (set_some (x_cM x) m) as (cM & ->); [rewrite (c_lM _ _ _ _ IC); auto|]. edestruct (set_some (x_dM x) m) as (dM & ->); [rewrite (c_lM _ _ _ _ ID); auto|]. cbn [obind]. eauto.
  - assert (HM : has_method t) by (apply (i_q _ _ I (NT t)); now left). assert (L : (t < nt)%nat) by (destruct HM as (m & Hm & <-); now apply task_abs).
    rewrite (at0_get (x_cT x)) by (rewrite (c_lT _ _ _ _ IC); auto). rewrite (at0_get (x_dT x)) by (rewrite (c_lT _ _ _ _ ID); auto). cbn [obind].
    assert (TL : forall m, In m (task_to_methods P t) -> (m < nm)%nat). { intros m Hm. apply ttm_spec in Hm as (md & E & _). apply nth_error_Some. congruence. }
    rewrite !imin_ok by (intros; rewrite ?(c_lM _ _ _ _ IC), ?(c_lM _ _ _ _ ID); auto). cbn [obind].
    edestruct (set_some (x_cT x) t) as (cT & ->); [rewrite (c_lT _ _ _ _ IC); auto|]. edestruct (set_some (x_dT x) t) as (dT & ->); [rewrite (c_lT _ _ _ _ ID); auto|]. cbn [obind].
    destruct (queue_methods_ok t L) as (qm & -> & _). destruct (_ && _); cbn [obind]; eauto.
Qed.

Notation bounded := (short_refinements P int_max).
Lemma bounded_sums c d x q : bounded c d -> inv x q -> forall md, In md (p_methods P) -> sumv (x_cT x) (m_subs md) <= int_max /\ 1 + sumv (x_dT x) (m_subs md) <= int_max.
Proof.
  intros [B1 B2] I md Hm. destruct (B2 md Hm) as [S1 S2]. destruct (lower _ _ I) as [LW _].
  assert (PT : forall t, at0 (x_cT x) t <= Z.of_nat (c t) /\ at0 (x_dT x) t <= Z.of_nat (d t)).
  { intros t. destruct (Nat.lt_ge_cases t na) as [L|L].
    - destruct (B1 t (or_introl L)) as [(e1 & R1) (e2 & R2)]. split; [apply (LW _ _ _ R1)|apply (LW _ _ _ R2)].
    - destruct (existsb (fun m => Nat.eqb (m_task m) t) (p_methods P)) eqn:E.
      + apply existsb_exists in E as (m & Hm' & E). apply Nat.eqb_eq in E. assert (H : has_method t) by (exists m; auto).
        destruct (B1 t (or_intror H)) as [(e1 & R1) (e2 & R2)]. split; [apply (LW _ _ _ R1)|apply (LW _ _ _ R2)].
      + assert (NM : forall m, In m (p_methods P) -> m_task m <> t). { intros m Hm' EQ. assert (existsb (fun m => Nat.eqb (m_task m) t) (p_methods P) = true); [|congruence]. apply existsb_exists. exists m. split; auto. now apply Nat.eqb_eq. }
        rewrite (c_no _ _ _ _ (i_c _ _ I)), (c_no _ _ _ _ (i_d _ _ I)) by auto. lia. }
  assert (SM : forall (v : list Z) (f : nat -> nat) l, (forall t, at0 v t <= Z.of_nat (f t)) -> sumv v l <= Z.of_nat (list_sum (map f l))).
  { intros v f l H. induction l as [|t l IH]; cbn; [lia|]. fold (sumv v l). specialize (H t). change (fold_right Nat.add 0%nat (map f l)) with (list_sum (map f l)). lia. }
  assert (Y1 := SM (x_cT x) c (m_subs md) (fun t => proj1 (PT t))). assert (Y2 := SM (x_dT x) d (m_subs md) (fun t => proj2 (PT t))). lia.
Qed.

Lemma loop_defined c d : bounded c d -> forall fuel x q, inv x q -> mix_loop P st fuel x q <> MUndef.
Proof.
  intros B. induction fuel as [|f IH]; intros x q I; destruct q as [|n q]; cbn [mix_loop]; try discriminate.
  destruct (step_defined x n q I) as ([x' a] & E); [eapply bounded_sums; eauto|]. rewrite E. destruct (inv_step _ _ _ _ _ I E) as (I' & _). now apply IH.
Qed.

(** *** Exactness for acyclic hierarchies *)
Lemma inv_exact x : inv x [] -> acyclic_hierarchy P -> (forall t, (t < nt)%nat -> (t < na)%nat \/ has_method t) ->
  forall t, (t < nt)%nat -> 1 <= at0 (x_dT x) t /\ (exists d, refinement P t (Z.to_nat (at0 (x_cT x) t)) d) /\ exists c, refinement P t c (Z.to_nat (at0 (x_dT x) t)).
Proof.
  intros I (rank & RK) ALL. assert (IC := i_c _ _ I). assert (ID := i_d _ _ I).
  assert (G : forall r t, (rank t < r)%nat -> (t < nt)%nat -> 1 <= at0 (x_dT x) t /\ (exists d, refinement P t (Z.to_nat (at0 (x_cT x) t)) d) /\ exists c, refinement P t c (Z.to_nat (at0 (x_dT x) t))).
  2: { intros t. apply (G (S (rank t))). lia. }
  induction r as [|r IH]; intros t Hr Ht; [lia|]. destruct (ALL t Ht) as [L|HM].
  - rewrite (c_act _ _ _ _ IC), (c_act _ _ _ _ ID) by auto. unfold cv, dv. rewrite Nat2Z.id. change (Z.to_nat 1) with 1%nat. split; [lia|]. split; eexists; apply rf_prim; auto.
  - (* the values of the methods *)
    assert (MV : forall m md, nth_error (p_methods P) m = Some md -> m_task md = t ->
      (at0 (x_cM x) m = sumv (x_cT x) (m_subs md) /\ at0 (x_dM x) m = 1 + sumv (x_dT x) (m_subs md)) /\
      (exists d, refinement P t (Z.to_nat (at0 (x_cM x) m)) d) /\ exists c, refinement P t c (Z.to_nat (at0 (x_dM x) m))).
    { intros m md E ET. assert (Hm := nth_error_In _ _ E). assert (SUB : forall u, In u (m_subs md) -> 1 <= at0 (x_dT x) u /\ (exists d, refinement P u (Z.to_nat (at0 (x_cT x) u)) d) /\ exists c, refinement P u c (Z.to_nat (at0 (x_dT x) u))).
      { intros u Hu. apply IH; [specialize (RK md u Hm Hu); rewrite ET in RK; lia|]. now apply (wfm_subs _ _ (wf_methods _ WP md Hm)). }
      destruct (i_m _ _ I m md E) as [[]|[SE|(_ & _ & Z0)]].
      2: { exfalso. assert (NE := wfm_nonempty _ _ (wf_methods _ WP md Hm)). destruct (m_subs md) as [|u l]; [congruence|]. destruct (SUB u (or_introl eq_refl)) as [S1 _]. destruct (Z0 u (or_introl eq_refl)). lia. }
      split; auto. destruct SE as [S1 S2]. rewrite S1, S2. clear S1 S2.
      assert (RL : forall l, (forall u, In u l -> In u (m_subs md)) -> (exists d, refinements P l (Z.to_nat (sumv (x_cT x) l)) d) /\ exists c, refinements P l c (Z.to_nat (sumv (x_dT x) l))).
      { induction l as [|u l IHl]; intros HI; cbn; [split; eexists; apply rfs_nil|]. fold (sumv (x_cT x) l) (sumv (x_dT x) l).
        destruct IHl as [(d & R1) (c & R2)]; [intros; apply HI; now right|]. destruct (SUB u (HI u (or_introl eq_refl))) as (_ & (d' & Q1) & (c' & Q2)).
        assert (N1 := c_nT _ _ _ _ IC u). assert (N2 := c_nT _ _ _ _ ID u). assert (N3 : 0 <= sumv (x_cT x) l) by (apply sumv_nonneg; intros; apply (c_nT _ _ _ _ IC)).
        assert (N4 : 0 <= sumv (x_dT x) l) by (apply sumv_nonneg; intros; apply (c_nT _ _ _ _ ID)). rewrite !Z2Nat.inj_add by auto. split; eexists; apply rfs_cons; eauto. }
      destruct (RL (m_subs md) ltac:(auto)) as [(d & R1) (c & R2)]. subst t. split.
      - exists (S d). now apply rf_abs.
      - exists c. assert (N4 : 0 <= sumv (x_dT x) (m_subs md)) by (apply sumv_nonneg; intros; apply (c_nT _ _ _ _ ID)). rewrite Z2Nat.inj_add by lia. now apply rf_abs. }
    destruct (i_t _ _ I t HM) as [[]|[T1 T2]].
    assert (PICK : forall M T v b, comp v b T M -> exists m md, nth_error (p_methods P) m = Some md /\ m_task md = t /\ minv M (task_to_methods P t) int_max = at0 M m).
    { intros M T v b C. destruct (minv_in M (task_to_methods P t) int_max) as [E|(m & Hm & E)].
      - destruct HM as (md & Hm & ET). apply In_nth_error in Hm as (m & Em). exists m, md. repeat split; auto.
        assert (X : In m (task_to_methods P t)) by (apply ttm_spec; eauto). destruct (minv_le M (task_to_methods P t) int_max) as [_ Y]. specialize (Y m X). assert (Z0 := c_bM _ _ _ _ C m). lia.
      - apply ttm_spec in Hm as (md & Em & ET). exists m, md. auto. }
    destruct (PICK _ _ _ _ IC) as (m1 & md1 & E1 & F1 & G1). destruct (PICK _ _ _ _ ID) as (m2 & md2 & E2 & F2 & G2). rewrite T1, T2, G1, G2.
    destruct (MV m1 md1 E1 F1) as (_ & R1 & _). destruct (MV m2 md2 E2 F2) as ((_ & SD) & _ & R2). split; [|auto].
    rewrite SD. assert (0 <= sumv (x_dT x) (m_subs md2)) by (apply sumv_nonneg; intros; apply (c_nT _ _ _ _ ID)). lia.
Qed.
End Fix.
