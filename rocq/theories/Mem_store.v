(** Stores with reference counters: releasing a pointer keeps the counters exact and the pointers valid. *)
From Coq Require Import Relations.
From Verif Require Import Base Htn_model Mem_model Mem_spec.
Local Open Scope Z_scope.

Lemma get_set {A} (l l' : list A) i x j : set l i x = Some l' -> get l' j = if Nat.eq_dec i j then Some x else get l j.
Proof. intros E. destruct (Nat.eq_dec i j) as [<-|N]; [eapply get_set_eq; eauto|eapply get_set_neq; eauto]. Qed.

Lemma nth_ext_err {A} (l l' : list A) : (forall k, get l k = get l' k) -> l = l'.
Proof.
  revert l'. induction l as [|a l IH]; intros [|b l'] H; auto; try (specialize (H 0%nat); discriminate). f_equal; [specialize (H 0%nat); now injection H|]. apply IH. intros k. apply (H (S k)).
Qed.

Notation cnt l i := (count_occ Nat.eq_dec l i).

Section Store.
Context {A : Type} (out : A -> list nat).
Implicit Types (M G : store A).

Definition outs M : list nat := flat_map (fun o => match o with Some c => out (c_val c) | None => [] end) M.
Definition mu M : nat := length (filter (fun o : option (cell A) => match o with Some _ => true | None => false end) M).
Definition alive M (i : nat) : Prop := exists c, get M i = Some (Some c).

Record RInv M (roots : list nat) : Prop := {
  ri_cnt : forall k c, get M k = Some (Some c) -> c_cnt c = Z.of_nat (cnt roots k + cnt (outs M) k) /\ 0 < c_cnt c;
  ri_root : forall k, In k roots -> alive M k;
  ri_succ : forall k c, get M k = Some (Some c) -> forall i, In i (out (c_val c)) -> alive M i }.

Lemma outs_none M j c M' : get M j = Some (Some c) -> set M j None = Some M' -> forall i, cnt (outs M) i = (cnt (out (c_val c)) i + cnt (outs M') i)%nat.
Proof.
  revert j M'. induction M as [|o M IH]; intros [|j] M' G E i; cbn in *; try discriminate.
  - injection G as ->. injection E as <-. cbn. now rewrite count_occ_app.
  - unfold obind in E. destruct (set M j None) as [M1|] eqn:E1; [|discriminate]. injection E as <-. cbn [outs flat_map]. rewrite !count_occ_app. unfold get in G. cbn in G. specialize (IH j M1 G E1 i). unfold outs in IH. lia.
Qed.
Lemma outs_val M j c v M' : get M j = Some (Some c) -> c_val v = c_val c -> set M j (Some v) = Some M' -> outs M' = outs M.
Proof.
  revert j M'. induction M as [|o M IH]; intros [|j] M' G V E; cbn in *; try discriminate.
  - injection G as ->. injection E as <-. cbn. now rewrite V.
  - unfold obind in E. destruct (set M j (Some v)) as [M1|] eqn:E1; [|discriminate]. injection E as <-. cbn [outs flat_map]. f_equal. apply (IH j M1 G V E1).
Qed.
Lemma mu_none M j c M' : get M j = Some (Some c) -> set M j None = Some M' -> mu M = S (mu M').
Proof.
  revert j M'. induction M as [|o M IH]; intros [|j] M' G E; cbn in *; try discriminate.
  - injection G as ->. injection E as <-. reflexivity.
  - unfold obind in E. destruct (set M j None) as [M1|] eqn:E1; [|discriminate]. injection E as <-. unfold mu. cbn. specialize (IH j M1 G E1). unfold mu in IH. destruct o; cbn; lia.
Qed.
Lemma mu_val M j c v M' : get M j = Some (Some c) -> set M j (Some v) = Some M' -> mu M' = mu M.
Proof.
  revert j M'. induction M as [|o M IH]; intros [|j] M' G E; cbn in *; try discriminate.
  - injection G as ->. injection E as <-. reflexivity.
  - unfold obind in E. destruct (set M j (Some v)) as [M1|] eqn:E1; [|discriminate]. injection E as <-. unfold mu. cbn. specialize (IH j M1 G E1). unfold mu in IH. destruct o; cbn; lia.
Qed.
Lemma mu_le M : (mu M <= length M)%nat.
Proof. unfold mu. induction M as [|[c|] M IH]; cbn; lia. Qed.

Lemma rdc_get M i c : rdc M i = Some c <-> get M i = Some (Some c).
Proof. unfold rdc. destruct (get M i) as [o|]; cbn; split; intros H; congruence. Qed.
Lemma rd_alive M i : alive M i <-> exists a, rd M i = Some a.
Proof.
  unfold rd. split.
  - intros (c & G). apply rdc_get in G. rewrite G. cbn. eauto.
  - intros (a & E). apply obind_some in E as (c & E & _). apply rdc_get in E. eexists; eauto.
Qed.

(** [M] is [G] except that the cells in [D] (being destroyed) are gone in [G] *)
Definition agree (D : list nat) M G : Prop := length M = length G /\ (forall k, ~ In k D -> get M k = get G k) /\ (forall k, In k D -> get G k = Some None).

(** nothing new, values unchanged *)
Definition sub G' G : Prop := length G' = length G /\ forall k c, get G' k = Some (Some c) -> exists c0, get G k = Some (Some c0) /\ c_val c0 = c_val c.
Lemma sub_refl G : sub G G. Proof. split; eauto. Qed.
Lemma sub_trans G1 G2 G3 : sub G1 G2 -> sub G2 G3 -> sub G1 G3.
Proof. intros [L1 H1] [L2 H2]. split; [congruence|]. intros k c E. apply H1 in E as (c1 & E1 & V1). apply H2 in E1 as (c2 & E2 & V2). exists c2. split; congruence. Qed.

Lemma release_ok fuel : forall D M G j rest, agree D M G -> RInv G (j :: rest) -> (mu G < fuel)%nat ->
  exists M' G', release out fuel M j = Some M' /\ agree D M' G' /\ RInv G' rest /\ sub G' G /\ (mu G' <= mu G)%nat /\ (forall k, In k D -> get M' k = get M k).
Proof.
  induction fuel as [|f IH]; intros D M G j rest AG RI MU; [lia|]. cbn [release].
  destruct (ri_root _ _ RI j (or_introl eq_refl)) as (c & Gj). assert (ND : ~ In j D) by (intros H; apply AG in H; congruence).
  assert (Mj : get M j = Some (Some c)) by (rewrite (proj1 (proj2 AG)); auto). rewrite (proj2 (rdc_get M j c) Mj). cbn [obind].
  destruct (set_some M j (Some {| c_val := c_val c; c_cnt := c_cnt c - 1 |})) as (M1 & E1); [eapply get_lt; eauto|]. rewrite E1. cbn [obind].
  destruct (ri_cnt _ _ RI j c Gj) as [CJ CP]. cbn [count_occ] in CJ. destruct (Nat.eq_dec j j) as [_|]; [|congruence].
  destruct (Z.eqb_spec (c_cnt c - 1) 0) as [Z0|NZ].
  - (* deleted *)
    assert (R0 : cnt rest j = 0%nat) by lia. assert (O0 : cnt (outs G) j = 0%nat) by lia.
    destruct (set_some G j None) as (G1 & F1); [eapply get_lt; eauto|].
    pose proof (outs_none G j c G1 Gj F1) as OU.
    assert (AG1 : agree (j :: D) M1 G1).
    { split; [apply set_length in E1; apply set_length in F1; destruct AG; congruence|]. split.
      - intros k N. assert (j <> k) by (intros ->; apply N; now left). rewrite (get_set _ _ _ _ k E1), (get_set _ _ _ _ k F1). destruct (Nat.eq_dec j k); [easy|]. apply AG. intros H'. apply N. now right.
      - intros k [<-|H]; rewrite (get_set _ _ _ _ _ F1); destruct (Nat.eq_dec j _); auto; [congruence|]. now apply AG. }
    assert (NJ : forall i, alive G i -> i <> j -> alive G1 i).
    { intros i (ci & Gi) N. exists ci. rewrite (get_set _ _ _ _ _ F1). destruct (Nat.eq_dec j i); congruence. }
    assert (RI1 : RInv G1 (out (c_val c) ++ rest)).
    { constructor.
      - intros k d Gk. rewrite (get_set _ _ _ _ _ F1) in Gk. destruct (Nat.eq_dec j k) as [|N]; [discriminate|]. destruct (ri_cnt _ _ RI k d Gk) as [C1 C2]. split; auto.
        cbn [count_occ] in C1. destruct (Nat.eq_dec j k); [congruence|]. rewrite count_occ_app, C1, (OU k). lia.
      - intros k Hk. apply NJ.
        + apply in_app_or in Hk as [Hk|Hk]; [eapply (ri_succ _ _ RI); eauto|apply (ri_root _ _ RI); now right].
        + intros ->. apply in_app_or in Hk as [Hk|Hk]; [|apply (count_occ_In Nat.eq_dec) in Hk; lia]. apply (count_occ_In Nat.eq_dec) in Hk. rewrite (OU j) in O0. lia.
      - intros k d Gk i Hi. rewrite (get_set _ _ _ _ _ F1) in Gk. destruct (Nat.eq_dec j k) as [|N]; [discriminate|]. apply NJ; [eapply (ri_succ _ _ RI); eauto|]. intros ->.
        assert (In j (outs G)). { apply in_flat_map. exists (Some d). split; auto. eapply nth_error_In; exact Gk. } apply (count_occ_In Nat.eq_dec) in H. lia. }
    assert (MU1 : (mu G1 < f)%nat) by (pose proof (mu_none G j c G1 Gj F1); lia).
    assert (FO : forall l D M G, agree D M G -> RInv G (l ++ rest) -> (mu G < f)%nat ->
      exists M' G', ofold (release out f) l M = Some M' /\ agree D M' G' /\ RInv G' rest /\ sub G' G /\ (mu G' <= mu G)%nat /\ (forall k, In k D -> get M' k = get M k)).
    { clear - IH. induction l as [|i l IHl]; intros D M G AG RI MU; cbn [ofold app] in *.
      - exists M, G. split; auto. split; auto. split; auto. split; [apply sub_refl|]. split; auto.
      - destruct (IH D M G i (l ++ rest) AG RI MU) as (M1 & G1 & E & AG1 & RI1 & S1 & U1 & K1). rewrite E. cbn [obind].
        destruct (IHl D M1 G1 AG1 RI1 ltac:(lia)) as (M2 & G2 & E2 & AG2 & RI2 & S2 & U2 & K2). exists M2, G2. split; auto. split; auto. split; auto. split; [eapply sub_trans; eauto|]. split; [lia|].
        intros k Hk. rewrite K2, K1; auto. }
    destruct (FO (out (c_val c)) (j :: D) M1 G1 AG1 RI1 MU1) as (M2 & G2 & E2 & AG2 & RI2 & S2 & U2 & K2). rewrite E2. cbn [obind].
    destruct (set_some M2 j None) as (M3 & E3). { destruct AG2 as [-> _]. destruct S2 as [-> _]. apply set_length in F1. rewrite F1. eapply get_lt; eauto. }
    exists M3, G2. split; auto. split; [|split; [auto|split; [|split]]].
    + split; [apply set_length in E3; destruct AG2; congruence|]. split.
      * intros k N. rewrite (get_set _ _ _ _ _ E3). destruct (Nat.eq_dec j k) as [<-|N2]; [symmetry; apply AG2; now left|]. apply AG2. intros [?|?]; auto.
      * intros k Hk. apply AG2. now right.
    + eapply sub_trans; [exact S2|]. split; [eapply set_length; eauto|]. intros k d Gk. rewrite (get_set _ _ _ _ _ F1) in Gk. destruct (Nat.eq_dec j k); [discriminate|eauto].
    + pose proof (mu_none G j c G1 Gj F1). lia.
    + intros k Hk. rewrite (get_set _ _ _ _ _ E3). destruct (Nat.eq_dec j k) as [<-|N]; [easy|]. rewrite K2 by (now right). rewrite (get_set _ _ _ _ _ E1). destruct (Nat.eq_dec j k); [easy|auto].
  - (* only the counter *)
    destruct (set_some G j (Some {| c_val := c_val c; c_cnt := c_cnt c - 1 |})) as (G1 & F1); [eapply get_lt; eauto|].
    exists M1, G1. split; auto. assert (OU : outs G1 = outs G) by (exact (outs_val G j c {| c_val := c_val c; c_cnt := c_cnt c - 1 |} G1 Gj eq_refl F1)).
    assert (NJ : forall i, alive G i -> alive G1 i).
    { intros i (ci & Gi). unfold alive. rewrite (get_set _ _ _ _ _ F1). destruct (Nat.eq_dec j i); eauto. }
    split; [|split; [|split; [|split]]].
    + split; [apply set_length in E1; apply set_length in F1; destruct AG; congruence|]. split.
      * intros k N. rewrite (get_set _ _ _ _ k E1), (get_set _ _ _ _ k F1). destruct (Nat.eq_dec j k); auto. now apply AG.
      * intros k H. rewrite (get_set _ _ _ _ _ F1). destruct (Nat.eq_dec j k); [congruence|]. now apply AG.
    + constructor.
      * intros k d Gk. rewrite (get_set _ _ _ _ _ F1) in Gk. rewrite OU. destruct (Nat.eq_dec j k) as [<-|N].
        { injection Gk as <-. cbn [c_cnt]. lia. }
        destruct (ri_cnt _ _ RI k d Gk) as [C1 C2]. cbn [count_occ] in C1. destruct (Nat.eq_dec j k); [congruence|]. auto.
      * intros k Hk. apply NJ, (ri_root _ _ RI). now right.
      * intros k d Gk i Hi. rewrite (get_set _ _ _ _ _ F1) in Gk. destruct (Nat.eq_dec j k) as [<-|N].
        { injection Gk as <-. apply NJ. eapply (ri_succ _ _ RI); eauto. }
        apply NJ. eapply (ri_succ _ _ RI); eauto.
    + split; [eapply set_length; eauto|]. intros k d Gk. rewrite (get_set _ _ _ _ _ F1) in Gk. destruct (Nat.eq_dec j k) as [<-|N]; [injection Gk as <-; eauto|eauto].
    + rewrite (mu_val _ _ _ _ _ Gj F1). lia.
    + intros k Hk. rewrite (get_set _ _ _ _ _ E1). destruct (Nat.eq_dec j k) as [<-|N]; [easy|auto].
Qed.

Lemma agree_nil M G : agree [] M G -> M = G.
Proof. intros (L & H & _). apply nth_ext_err. intros k. apply H. easy. Qed.

Lemma RInv_eq M r r' : (forall k, cnt r k = cnt r' k) -> RInv M r -> RInv M r'.
Proof.
  intros E [H1 H2 H3]. constructor; auto.
  - intros k c Gk. rewrite <- E. auto.
  - intros k Hk. apply H2. apply (count_occ_In Nat.eq_dec). rewrite E. now apply (count_occ_In Nat.eq_dec).
Qed.

Lemma drop_ok M j rest : RInv M (j :: rest) -> exists M', drop out M j = Some M' /\ RInv M' rest /\ sub M' M.
Proof.
  intros RI. destruct (release_ok (S (length M)) [] M M j rest) as (M' & G' & E & AG & RI' & SU & _); auto.
  - split; auto. split; auto. intros k [].
  - pose proof (mu_le M). lia.
  - apply agree_nil in AG. subst G'. eauto.
Qed.
Lemma drops_ok l : forall M rest, RInv M (l ++ rest) -> exists M', ofold (drop out) l M = Some M' /\ RInv M' rest /\ sub M' M.
Proof.
  induction l as [|j l IH]; intros M rest RI; cbn [ofold app] in *; [exists M; split; auto; split; auto; apply sub_refl|].
  destruct (drop_ok M j (l ++ rest) RI) as (M1 & E1 & RI1 & S1). rewrite E1. cbn [obind]. destruct (IH M1 rest RI1) as (M2 & E2 & RI2 & S2). exists M2. split; auto. split; auto. eapply sub_trans; eauto.
Qed.

Definition bump (z : Z) (o : option (option (cell A))) : option (option (cell A)) :=
  match o with Some (Some c) => Some (Some {| c_val := c_val c; c_cnt := c_cnt c + z |}) | o => o end.
Lemma bump_bump a b o : bump a (bump b o) = bump (b + a) o.
Proof. destruct o as [[c|]|]; cbn; auto. now rewrite Z.add_assoc. Qed.
Lemma bump_0 o : bump 0 o = o. Proof. destruct o as [[[v c]|]|]; cbn; auto. now rewrite Z.add_0_r. Qed.
Lemma incs_ok d l : forall M, (forall i, In i l -> alive M i) -> exists M', ofold (inc d) l M = Some M' /\ length M' = length M /\ forall k, get M' k = bump (d * Z.of_nat (cnt l k)) (get M k).
Proof.
  induction l as [|i l IH]; intros M HA; cbn [ofold].
  - exists M. split; auto. split; auto. intros k. cbn. now rewrite Z.mul_0_r, bump_0.
  - destruct (HA i (or_introl eq_refl)) as (c & Gi). 
    destruct (set_some M i (Some {| c_val := c_val c; c_cnt := c_cnt c + d |})) as (M1 & E1); [eapply get_lt; eauto|].
    assert (EI : inc d M i = Some M1) by (unfold inc; rewrite (proj2 (rdc_get M i c) Gi); exact E1). rewrite EI. cbn [obind].
    assert (K1 : forall k, get M1 k = bump (d * Z.of_nat (cnt [i] k)) (get M k)).
    { intros k. rewrite (get_set _ _ _ _ _ E1). cbn. destruct (Nat.eq_dec i k) as [<-|N]; [rewrite Gi; cbn; now rewrite Z.mul_1_r|]. now rewrite Z.mul_0_r, bump_0. }
    destruct (IH M1) as (M2 & E2 & L2 & K2).
    { intros k Hk. destruct (HA k (or_intror Hk)) as (ck & Gk). unfold alive. rewrite K1, Gk. cbn. eauto. }
    exists M2. split; auto. split; [apply set_length in E1; congruence|]. intros k. rewrite K2, K1, bump_bump. f_equal. cbn. destruct (Nat.eq_dec i k); lia.
Qed.

Lemma outs_same M : forall M', length M' = length M -> (forall k z, get M k = z -> exists d, get M' k = bump d z) -> outs M' = outs M.
Proof.
  induction M as [|o M IH]; intros [|o' M'] L H; try discriminate; auto. cbn [outs flat_map]. f_equal.
  - destruct (H 0%nat (Some o) eq_refl) as (d & E). destruct o as [c|]; cbn in E; injection E as ->; reflexivity.
  - apply IH; [now injection L|]. intros k z Gk. apply (H (S k) z). exact Gk.
Qed.
Lemma alive_bump M M' k d : get M' k = bump d (get M k) -> alive M k <-> alive M' k.
Proof.
  unfold alive. intros ->. split; intros (c & E); [rewrite E; cbn; eauto|]. destruct (get M k) as [[c0|]|]; cbn in E; try discriminate. eauto.
Qed.
(** More roots *)
Lemma roots_ok l M r : RInv M r -> (forall i, In i l -> alive M i) -> exists M', ofold (inc 1) l M = Some M' /\ RInv M' (l ++ r) /\ length M' = length M /\ (forall k, exists d, get M' k = bump d (get M k)).
Proof.
  intros RI HA. destruct (incs_ok 1 l M HA) as (M' & E & L & K). exists M'. split; auto.
  assert (K' : forall k, exists d, get M' k = bump d (get M k)) by (intros k; eauto). split; [|split; auto].
  assert (OU : outs M' = outs M) by (apply outs_same; auto; intros k z <-; auto). constructor.
  - intros k c' Gk. rewrite K, Z.mul_1_l in Gk. destruct (get M k) as [[c|]|] eqn:Gk0; cbn in Gk; try discriminate. injection Gk as <-. cbn [c_cnt]. rewrite OU, count_occ_app. destruct (ri_cnt _ _ RI k c Gk0). lia.
  - intros k Hk. apply (alive_bump _ _ _ _ (K k)). apply in_app_or in Hk as [Hk|Hk]; auto. now apply (ri_root _ _ RI).
  - intros k c' Gk i Hi. rewrite K in Gk. destruct (get M k) as [[c|]|] eqn:Gk0; cbn in Gk; try discriminate. injection Gk as <-. apply (alive_bump _ _ _ _ (K i)). eapply (ri_succ _ _ RI); eauto.
Qed.

(** growth: old cells are kept with their values *)
Definition grow M M' : Prop := forall k c, get M k = Some (Some c) -> exists c', get M' k = Some (Some c') /\ c_val c' = c_val c.
Lemma grow_bump M M' : (forall k, exists d, get M' k = bump d (get M k)) -> grow M M'.
Proof. intros H k c Gk. destruct (H k) as (d & E). rewrite Gk in E. cbn in E. eexists; split; eauto. Qed.
Lemma grow_app M e : grow M (M ++ e).
Proof. intros k c Gk. exists c. split; auto. unfold get in *. rewrite nth_error_app1; auto. apply nth_error_Some. congruence. Qed.
Lemma grow_trans M1 M2 M3 : grow M1 M2 -> grow M2 M3 -> grow M1 M3.
Proof. intros H1 H2 k c Gk. apply H1 in Gk as (c1 & G1 & V1). apply H2 in G1 as (c2 & G2 & V2). exists c2. split; congruence. Qed.
Lemma outs_app M e : outs (M ++ e) = outs M ++ outs e.
Proof. unfold outs. apply flat_map_app. Qed.
End Store.
