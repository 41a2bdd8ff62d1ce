(** Proofs about the tables of Tab_model. *)
From Verif Require Import Base Arr IntUtil_model IntUtil_proof Htn_model Htn_spec Htn_rep Htn_history Htn_search Tab_model.
Local Open Scope Z_scope.

(** ** Tables of pairs *)

(** The sum of the counts listed for [z]. *)
Fixpoint val (T : ctable) (z : Z) : Z :=
  match T with
  | [] => 0
  | (t, c) :: r => (if Z.eqb t z then c else 0) + val r z
  end.

(** Number of occurrences. *)
Definition occ (L : list nat) (z : Z) : Z := Z.of_nat (count_occ Z.eq_dec (map Z.of_nat L) z).

Record table_ok (L : list nat) (T : ctable) : Prop := {
  to_asc : sasc (map fst T);
  to_pos : forall t c, In (t, c) T -> 0 < c;
  to_val : forall z, val T z = occ L z }.

Lemma val_app A B z : val (A ++ B) z = val A z + val B z.
Proof. induction A as [|[t c] A IH]; cbn [val app]; [lia|]. rewrite IH. lia. Qed.

Lemma val_notin T z : ~ In z (map fst T) -> val T z = 0.
Proof.
  induction T as [|[t c] T IH]; cbn [val map fst In]; intros N; auto. destruct (Z.eqb_spec t z); [tauto|].
  rewrite IH; [lia|tauto].
Qed.

Lemma val_in T t c : sasc (map fst T) -> In (t, c) T -> val T t = c.
Proof.
  induction T as [|[t' c'] T IH]; intros S I; [destruct I|]. cbn [map fst] in S. inversion S as [|? ? H S']; subst.
  cbn [val]. destruct I as [[= -> ->]|I].
  - rewrite Z.eqb_refl, val_notin; [lia|]. intros I. specialize (H _ I). lia.
  - destruct (Z.eqb_spec t' t) as [->|N]; [|rewrite IH; auto].
    specialize (H t). assert (In t (map fst T)) by (apply in_map_iff; exists (t, c); auto). specialize (H H0). lia.
Qed.

Lemma in_fst_val T z : (forall t c, In (t, c) T -> 0 < c) -> In z (map fst T) <-> 0 < val T z.
Proof.
  intros PS. split.
  - intros I. induction T as [|[t c] T IH]; [destruct I|]. cbn [val]. cbn [map fst In] in I.
    assert (PS' : forall t c, In (t, c) T -> 0 < c) by (intros; eapply PS; right; eauto).
    assert (0 <= val T z).
    { clear - PS'. induction T as [|[a b] T IH]; cbn [val]; [lia|].
      assert (0 < b) by (eapply PS'; left; eauto). assert (0 <= val T z) by (apply IH; intros; eapply PS'; right; eauto).
      destruct (Z.eqb a z); lia. }
    assert (0 < c) by (eapply PS; left; eauto).
    destruct (Z.eqb_spec t z); [lia|]. destruct I as [|I]; [lia|]. specialize (IH PS' I). lia.
  - intros V. destruct (in_dec Z.eq_dec z (map fst T)) as [|N]; auto. rewrite val_notin in V by auto. lia.
Qed.

Lemma in_tab T t c : sasc (map fst T) -> (forall t c, In (t, c) T -> 0 < c) -> In (t, c) T <-> (val T t = c /\ 0 < c).
Proof.
  intros S PS. split.
  - intros I. split; [now apply val_in|eauto].
  - intros [V C]. assert (I : In t (map fst T)) by (apply in_fst_val; auto; lia).
    apply in_map_iff in I as ([t' c'] & E & I). cbn [fst] in E. subst t'. rewrite (val_in T t c' S I) in V. now subst.
Qed.

Lemma occ_app A B z : occ (A ++ B) z = occ A z + occ B z.
Proof. unfold occ. rewrite map_app, count_occ_app. lia. Qed.
Lemma occ_cons a B z : occ (a :: B) z = (if Z.eqb (Z.of_nat a) z then 1 else 0) + occ B z.
Proof.
  unfold occ. cbn [map]. destruct (Z.eqb_spec (Z.of_nat a) z) as [E|E].
  - rewrite count_occ_cons_eq by auto. lia.
  - rewrite count_occ_cons_neq by auto. lia.
Qed.
Lemma occ_perm A B z : Permutation A B -> occ A z = occ B z.
Proof. intros H. unfold occ. f_equal. now apply Permutation_count_occ, Permutation_map. Qed.
Lemma occ_nonneg A z : 0 <= occ A z.
Proof. unfold occ. lia. Qed.
Lemma occ_in A z : 0 < occ A z <-> exists t, z = Z.of_nat t /\ In t A.
Proof.
  unfold occ. assert (Q : (count_occ Z.eq_dec (map Z.of_nat A) z > 0)%nat <-> In z (map Z.of_nat A)) by (symmetry; apply count_occ_In).
  rewrite in_map_iff in Q. split.
  - intros H. destruct (proj1 Q ltac:(lia)) as (t & E & I). eauto.
  - intros (t & E & I). assert (exists x, Z.of_nat x = z /\ In x A) by eauto. apply Q in H. lia.
Qed.
Lemma occ_nat A t : occ A (Z.of_nat t) = Z.of_nat (count_occ Nat.eq_dec A t).
Proof.
  unfold occ. f_equal. induction A as [|a A IH]; auto. cbn [map count_occ].
  destruct (Nat.eq_dec a t), (Z.eq_dec (Z.of_nat a) (Z.of_nat t)); try lia.
Qed.

(** Canonical description of a table. *)
Lemma table_ok_iff L T : table_ok L T <->
  (sasc (map fst T) /\ forall z c, In (z, c) T <-> exists t, z = Z.of_nat t /\ In t L /\ c = Z.of_nat (count_occ Nat.eq_dec L t)).
Proof.
  split.
  - intros [S PS V]. split; auto. intros z c. rewrite (in_tab T z c S PS), V. split.
    + intros [E C]. rewrite <- E in C. apply occ_in in C as (t & -> & I). exists t. rewrite <- occ_nat. auto.
    + intros (t & -> & I & ->). rewrite occ_nat. split; auto. apply (count_occ_In Nat.eq_dec) in I. lia.
  - intros [S H]. assert (PS : forall t c, In (t, c) T -> 0 < c).
    { intros t c I. apply H in I as (u & -> & I & ->). apply (count_occ_In Nat.eq_dec) in I. lia. }
    split; auto. intros z. destruct (Z_lt_dec 0 (occ L z)) as [C|C].
    + pose proof C as C'. apply occ_in in C' as (t & -> & I). apply val_in; auto. apply H. exists t. rewrite occ_nat. auto.
    + rewrite val_notin; [pose proof (occ_nonneg L z); lia|]. intros I. apply in_map_iff in I as ([a b] & E & I).
      cbn [fst] in E. subst a. apply H in I as (t & -> & I & _). apply C, occ_in. eauto.
Qed.

Lemma table_ok_perm L L' T : Permutation L L' -> table_ok L T -> table_ok L' T.
Proof. intros H [S PS V]. split; auto. intros z. rewrite V. now apply occ_perm. Qed.

(** ** Search in a table *)
Lemma sasc_sorted_from l lo : sasc l -> sorted_between l lo (length l).
Proof. intros S i j Hi Hij Hj. apply (asc_sorted l (sasc_asc l S)); lia. Qed.

Lemma sasc_nth_lt l i j : sasc l -> (i < j)%nat -> (j < length l)%nat -> nth i l 0 < nth j l 0.
Proof.
  intros S. revert i j. induction S as [|x l H S IH]; intros i j Hij Hj; [cbn in Hj; lia|].
  cbn [length] in Hj. destruct j as [|j]; [lia|]. destruct i as [|i]; cbn [nth].
  - apply H. apply nth_In. lia.
  - apply IH; lia.
Qed.

Lemma ct_index_ok T lo v : sasc (map fst T) -> (lo <= length T)%nat ->
  exists r, ct_index T lo v = Some r /\
    ((exists i c, (lo <= i)%nat /\ r = Z.of_nat i /\ get T i = Some (v, c)) \/
     (r = -1 /\ forall i c, (lo <= i)%nat -> get T i <> Some (v, c))).
Proof.
  intros S L. unfold ct_index, indexOf.
  destruct (index_loop_ok v (Datatypes.S (length T - lo)) (map fst T) lo (length T)) as (r & E & D).
  - lia.
  - now rewrite map_length.
  - rewrite <- (map_length fst T). now apply sasc_sorted_from.
  - exists r. split; auto. destruct D as [(i & Hi & -> & V)|(-> & N)].
    + left. destruct (get_some T i) as ([t c] & G); [lia|]. exists i, c. split; [lia|]. split; auto. rewrite G. repeat f_equal.
      rewrite <- V. unfold get in G. change 0 with (fst (0, 0)). rewrite map_nth. now rewrite (nth_error_nth _ _ _ G).
    + right. split; auto. intros i c Hi G. apply (N i); [split; auto; eapply get_lt; eauto|].
      unfold get in G. change 0 with (fst (0, 0)). rewrite map_nth. now rewrite (nth_error_nth _ _ _ G).
Qed.

Lemma ct_index_in T v : sasc (map fst T) ->
  exists r, ct_index T 0 v = Some r /\
    ((exists i c, r = Z.of_nat i /\ get T i = Some (v, c)) \/ (r = -1 /\ ~ In v (map fst T))).
Proof.
  intros S. destruct (ct_index_ok T 0 v S) as (r & E & D); [lia|]. exists r. split; auto.
  destruct D as [(i & c & _ & R & G)|(R & N)]; [left; eauto|right]. split; auto.
  intros I. apply in_map_iff in I as ([a c] & Ea & I). cbn [fst] in Ea. subst a.
  apply In_nth_error in I as (i & G). apply (N i c); [lia|exact G].
Qed.

(** ** updateTaskCounterA *)
Lemma sasc_app A B : sasc (A ++ B) <-> sasc A /\ sasc B /\ forall a b, In a A -> In b B -> a < b.
Proof.
  induction A as [|x A IH]; cbn [app].
  - split; [intros H; split; [constructor|split; auto; intros ? ? []]|tauto].
  - split.
    + intros H. inversion H as [|? ? H1 H2]; subst. apply IH in H2 as (SA & SB & D). split.
      * constructor; auto. intros y Hy. apply H1. apply in_or_app; auto.
      * split; auto. intros a b [<-|Ha] Hb; [apply H1; apply in_or_app; auto|auto].
    + intros (SA & SB & D). inversion SA as [|? ? H1 H2]; subst. constructor.
      * intros y Hy. apply in_app_or in Hy as [Hy|Hy]; [auto|]. apply D; simpl; auto.
      * apply IH. split; auto. split; auto. intros a b Ha Hb. apply D; simpl; auto.
Qed.

Lemma ct_apply_ok L L' a T : table_ok L T -> Permutation L (a :: L') ->
  exists T', ct_apply T (Z.of_nat a) = Some T' /\ table_ok L' T'.
Proof.
  intros [S PS V] HP. unfold ct_apply.
  assert (VL : forall z, val T z = (if Z.eqb (Z.of_nat a) z then 1 else 0) + occ L' z).
  { intros z. rewrite V, (occ_perm _ _ z HP). apply occ_cons. }
  destruct (ct_index_in T (Z.of_nat a) S) as (r & E & D). rewrite E. cbn [obind].
  destruct D as [(i & c & -> & G)|(-> & N)].
  2: { exfalso. apply N. apply in_fst_val; auto. rewrite VL, Z.eqb_refl. pose proof (occ_nonneg L' (Z.of_nat a)). lia. }
  destruct (Z.ltb_spec (Z.of_nat i) 0); [lia|]. rewrite Nat2Z.id, G. cbn [obind].
  eexists. split; [reflexivity|].
  destruct (nth_error_split _ _ G) as (A & B & -> & <-).
  rewrite firstn_app, firstn_all, Nat.sub_diag. cbn [firstn]. rewrite app_nil_r.
  replace (skipn (Datatypes.S (length A)) (A ++ (Z.of_nat a, c) :: B)) with B.
  2: { replace (Datatypes.S (length A)) with (length (A ++ [(Z.of_nat a, c)])) by (rewrite app_length; cbn [length]; lia).
       replace (A ++ (Z.of_nat a, c) :: B) with ((A ++ [(Z.of_nat a, c)]) ++ B) by now rewrite <- app_assoc.
       now rewrite skipn_app, skipn_all, Nat.sub_diag. }
  assert (C0 : 0 < c) by (eapply PS; apply in_or_app; right; left; reflexivity).
  rewrite map_app in S. cbn [map fst] in S. apply sasc_app in S as (SA & SB & D).
  inversion SB as [|? ? SB1 SB2]; subst.
  assert (VQ : forall z, val A z + (if Z.eqb (Z.of_nat a) z then c - 1 else 0) + val B z = occ L' z).
  { intros z. specialize (VL z). rewrite val_app in VL. cbn [val] in VL. destruct (Z.eqb (Z.of_nat a) z); lia. }
  destruct (Z.eqb_spec c 1) as [->|C1].
  - cbn [app]. split.
    + rewrite map_app. apply sasc_app. split; auto. split; auto. intros x y Hx Hy. apply D; simpl; auto.
    + intros t c I. eapply PS. apply in_or_app. apply in_app_or in I as [I|I]; [left; eauto|right; right; eauto].
    + intros z. rewrite val_app, <- VQ. destruct (Z.eqb _ z); lia.
  - cbn [app]. split.
    + rewrite map_app. cbn [map fst]. apply sasc_app. split; auto.
    + intros t c' I. apply in_app_or in I as [I|[[= <- <-]|I]].
      * eapply PS. apply in_or_app. left; eauto.
      * lia.
      * eapply PS. apply in_or_app. right; right; eauto.
    + intros z. rewrite val_app, <- VQ. cbn [val]. lia.
Qed.

(** ** updateTaskCounterM *)
Lemma count_new_ok T : sasc (map fst T) -> forall D low new, sasc (map fst D) -> (low <= length T)%nat ->
  (forall i t c d, (i < low)%nat -> get T i = Some (t, c) -> In d (map fst D) -> t < d) ->
  count_new T low new D = Some (new + length (filter (fun d => if in_dec Z.eq_dec d (map fst T) then false else true) (map fst D)))%nat.
Proof.
  intros S. induction D as [|[d cd] D IH]; intros low new SD LL HL.
  - cbn [count_new map filter length]. f_equal. lia.
  - cbn [count_new map fst]. cbn [map fst] in SD. inversion SD as [|? ? SD1 SD2]; subst.
    destruct (ct_index_ok T low d S LL) as (r & E & DD). rewrite E. cbn [obind filter].
    destruct DD as [(i & c & Hi & -> & G)|(-> & N)].
    + destruct (Z.leb_spec 0 (Z.of_nat i)); [|lia]. rewrite Nat2Z.id.
      assert (I : In d (map fst T)) by (apply in_map_iff; exists (d, c); split; auto; eapply nth_error_In; exact G).
      destruct (in_dec Z.eq_dec d (map fst T)); [|tauto]. apply IH; auto.
      * pose proof (get_lt _ _ _ G). lia.
      * intros k t ck d' Hk Gk Hd. assert (Q : (k = i \/ k < i)%nat) by lia. destruct Q as [->|Q].
        -- rewrite G in Gk. injection Gk as <- <-. auto.
        -- assert (t < d); [|specialize (SD1 d' Hd); lia].
           pose proof (sasc_nth_lt (map fst T) k i S Q) as X. rewrite map_length in X.
           specialize (X (get_lt _ _ _ G)). change 0 with (fst (0, 0)) in X. rewrite !map_nth in X.
           unfold get in G, Gk. rewrite (nth_error_nth _ _ _ G), (nth_error_nth _ _ _ Gk) in X. exact X.
    + change (Z.leb 0 (-1)) with false. cbv iota.
      assert (NI : ~ In d (map fst T)).
      { intros I. apply in_map_iff in I as ([a c] & Ea & I). cbn [fst] in Ea. subst a. apply In_nth_error in I as (i & G).
        destruct (Nat.lt_ge_cases i low) as [Q|Q].
        - specialize (HL i d c d Q G (or_introl eq_refl)). lia.
        - apply (N i c Q G). }
      destruct (in_dec Z.eq_dec d (map fst T)); [tauto|]. rewrite IH; auto.
      * f_equal. cbn [length]. lia.
      * intros k t ck d' Hk Gk Hd. eapply HL; eauto. cbn [map fst]. now right.
Qed.

Definition drop (rem : bool) (mAbs : Z) (T : ctable) : ctable := filter (fun p => negb (rem && Z.eqb (fst p) mAbs)) T.

Lemma ct_merge_ok rem mAbs : forall fuel T D, (length T + length D < fuel)%nat -> sasc (map fst T) -> sasc (map fst D) ->
  exists R, ct_merge fuel rem mAbs T D = Some R /\ sasc (map fst R) /\
    (forall z, In z (map fst R) <-> In z (map fst (drop rem mAbs T)) \/ In z (map fst (drop rem mAbs D))) /\
    (forall z, val R z = val (drop rem mAbs T) z + val (drop rem mAbs D) z) /\
    ((forall t c, In (t, c) T -> 0 < c) -> (forall t c, In (t, c) D -> 0 < c) -> forall t c, In (t, c) R -> 0 < c).
Proof.
  assert (DI : forall T z, In z (map fst (drop rem mAbs T)) -> In z (map fst T)).
  { intros T z I. apply in_map_iff in I as (p & E & I). apply filter_In in I as [I _]. apply in_map_iff. eauto. }
  induction fuel as [|f IH]; intros T D LF ST SD; [lia|]. cbn [ct_merge].
  destruct T as [|[t ct] T]; destruct D as [|[d cd] D].
  - exists []. split; auto. split; [constructor|]. split; [intros z; cbn; tauto|]. split; [intros; cbn; lia|]. intros _ _ ? ? [].
  - cbn [map fst] in SD. inversion SD as [|? ? SD1 SD2]; subst. unfold drop at 2 4. cbn [filter fst].
    destruct (IH [] D) as (R & E & SR & IR & VR & PR); [cbn [length] in *; lia|auto|auto|].
    destruct (rem && Z.eqb d mAbs)%bool eqn:B; cbn [negb].
    + exists R. split; [exact E|]. split; auto. split; auto. split; auto. intros P1 P2. apply PR; auto. intros; eapply P2; right; eauto.
    + rewrite E. cbn [obind]. eexists. split; [reflexivity|]. split.
      { cbn [map fst]. constructor; auto. intros y Hy. apply IR in Hy as [[]|Hy]. apply SD1. now apply DI. }
      split. { intros z. cbn [map fst In]. rewrite IR. cbn [drop filter map In]. tauto. }
      split. { intros z. cbn [val]. rewrite VR. unfold drop. cbn [filter val]. lia. }
      intros P1 P2 a c [[= <- <-]|I]; [eapply P2; left; eauto|]. eapply PR; eauto. intros; eapply P2; right; eauto.
  - cbn [map fst] in ST. inversion ST as [|? ? ST1 ST2]; subst. unfold drop at 1 3. cbn [filter fst].
    destruct (IH T []) as (R & E & SR & IR & VR & PR); [cbn [length] in *; lia|auto|auto|].
    destruct (rem && Z.eqb t mAbs)%bool eqn:B; cbn [negb].
    + exists R. split; [exact E|]. split; auto. split; auto. split; auto. intros P1 P2. apply PR; auto. intros; eapply P1; right; eauto.
    + rewrite E. cbn [obind]. eexists. split; [reflexivity|]. split.
      { cbn [map fst]. constructor; auto. intros y Hy. apply IR in Hy as [Hy|[]]. apply ST1. now apply DI. }
      split. { intros z. cbn [map fst In]. rewrite IR. unfold drop. cbn [filter map In]. tauto. }
      split. { intros z. cbn [val]. rewrite VR. unfold drop. cbn [filter val]. lia. }
      intros P1 P2 a c [[= <- <-]|I]; [eapply P1; left; eauto|]. eapply PR; eauto. intros; eapply P1; right; eauto.
  - pose proof ST as ST0. pose proof SD as SD0.
    cbn [map fst] in ST, SD. inversion ST as [|? ? ST1 ST2]; subst. inversion SD as [|? ? SD1 SD2]; subst.
    destruct (rem && Z.eqb t mAbs)%bool eqn:Bt.
    { destruct (IH T ((d, cd) :: D)) as (R & E & SR & IR & VR & PR); [cbn [length] in *; lia|auto|auto|].
      exists R. split; auto. split; auto. unfold drop at 1 3. cbn [filter fst]. rewrite Bt. cbn [negb]. split; auto. split; auto.
      intros P1 P2. apply PR; auto. intros; eapply P1; right; eauto. }
    destruct (rem && Z.eqb d mAbs)%bool eqn:Bd.
    { destruct (IH ((t, ct) :: T) D) as (R & E & SR & IR & VR & PR); [cbn [length] in *; lia|auto|auto|].
      exists R. split; auto. split; auto. unfold drop at 2 4. cbn [filter fst]. rewrite Bd. cbn [negb]. split; auto. split; auto.
      intros P1 P2. apply PR; auto. intros; eapply P2; right; eauto. }
    assert (Dt : forall X, drop rem mAbs ((t, ct) :: X) = (t, ct) :: drop rem mAbs X) by (intros X; unfold drop; cbn [filter fst]; now rewrite Bt).
    assert (Dd : forall X, drop rem mAbs ((d, cd) :: X) = (d, cd) :: drop rem mAbs X) by (intros X; unfold drop; cbn [filter fst]; now rewrite Bd).
    destruct (Z.ltb_spec t d); [|destruct (Z.ltb_spec d t)].
    + destruct (IH T ((d, cd) :: D)) as (R & E & SR & IR & VR & PR); [cbn [length] in *; lia|auto|auto|].
      rewrite E. cbn [obind]. eexists. split; [reflexivity|]. split.
      { cbn [map fst]. constructor; auto. intros y Hy. apply IR in Hy as [Hy|Hy]; [apply ST1; now apply DI|].
        apply DI in Hy. cbn [map fst In] in Hy. destruct Hy as [<-|Hy]; [auto|]. specialize (SD1 y Hy). lia. }
      split. { intros z. cbn [map fst In]. rewrite IR, Dt. cbn [map fst In]. tauto. }
      split. { intros z. cbn [val]. rewrite VR, Dt. cbn [val]. lia. }
      intros P1 P2 a c [[= <- <-]|I]; [eapply P1; left; eauto|]. eapply PR; eauto. intros; eapply P1; right; eauto.
    + destruct (IH ((t, ct) :: T) D) as (R & E & SR & IR & VR & PR); [cbn [length] in *; lia|auto|auto|].
      rewrite E. cbn [obind]. eexists. split; [reflexivity|]. split.
      { cbn [map fst]. constructor; auto. intros y Hy. apply IR in Hy as [Hy|Hy]; [|apply SD1; now apply DI].
        apply DI in Hy. cbn [map fst In] in Hy. destruct Hy as [<-|Hy]; [auto|]. specialize (ST1 y Hy). lia. }
      split. { intros z. cbn [map fst In]. rewrite IR, Dd. cbn [map fst In]. tauto. }
      split. { intros z. cbn [val]. rewrite VR, Dd. cbn [val]. lia. }
      intros P1 P2 a c [[= <- <-]|I]; [eapply P2; left; eauto|]. eapply PR; eauto. intros; eapply P2; right; eauto.
    + assert (t = d) by lia. subst d.
      destruct (IH T D) as (R & E & SR & IR & VR & PR); [cbn [length] in *; lia|auto|auto|].
      rewrite E. cbn [obind]. eexists. split; [reflexivity|]. split.
      { cbn [map fst]. constructor; auto. intros y Hy. apply IR in Hy as [Hy|Hy]; apply DI in Hy; auto. }
      split. { intros z. cbn [map fst In]. rewrite IR, Dt, Dd. cbn [map fst In]. tauto. }
      split. { intros z. cbn [val]. rewrite VR, Dt, Dd. cbn [val]. destruct (Z.eqb t z); lia. }
      intros P1 P2 a c [[= <- <-]|I].
      * assert (0 < ct) by (eapply P1; left; eauto). assert (0 < cd) by (eapply P2; left; eauto). lia.
      * eapply PR; eauto; intros; [eapply P1|eapply P2]; right; eauto.
Qed.

Lemma nodup_len (l l' : list Z) : NoDup l -> NoDup l' -> (forall x, In x l <-> In x l') -> length l = length l'.
Proof.
  intros N N' H. apply Nat.le_antisymm; apply NoDup_incl_length; auto; intros x Hx; apply H; auto.
Qed.

Lemma drop_false mAbs T : drop false mAbs T = T.
Proof. unfold drop. induction T as [|p T IH]; cbn [filter]; auto. change (negb (false && (fst p =? mAbs))) with true. cbv iota. now rewrite IH. Qed.
Lemma drop_notin mAbs T : ~ In mAbs (map fst T) -> drop true mAbs T = T.
Proof.
  unfold drop. induction T as [|p T IH]; cbn [filter map In]; auto. intros N. cbn [andb].
  destruct (Z.eqb_spec (fst p) mAbs); [tauto|]. cbn [negb]. cbn [andb] in IH. rewrite IH; auto.
Qed.
Lemma drop_val mAbs T z : val (drop true mAbs T) z = if Z.eqb mAbs z then 0 else val T z.
Proof.
  unfold drop. cbn [andb]. induction T as [|[t c] T IH]; cbn [filter val fst].
  - destruct (Z.eqb _ _); auto.
  - destruct (Z.eqb_spec t mAbs) as [->|N]; cbn [negb val].
    + rewrite IH. destruct (Z.eqb mAbs z); lia.
    + rewrite IH. destruct (Z.eqb_spec mAbs z) as [->|]; [|lia]. destruct (Z.eqb_spec t z); [congruence|lia].
Qed.
Lemma drop_in mAbs T z : In z (map fst (drop true mAbs T)) <-> In z (map fst T) /\ z <> mAbs.
Proof.
  unfold drop. rewrite !in_map_iff. split.
  - intros (p & <- & I). apply filter_In in I as [I B]. cbn [andb] in B. apply negb_true_iff, Z.eqb_neq in B. split; eauto.
  - intros ((p & <- & I) & N). exists p. split; auto. apply filter_In. split; auto. cbn [andb]. apply negb_true_iff. now apply Z.eqb_neq.
Qed.

Lemma set_app {A} (l1 l2 : list A) x y : set (l1 ++ x :: l2) (length l1) y = Some (l1 ++ y :: l2).
Proof. induction l1 as [|a l1 IH]; cbn [app length set]; auto. rewrite IH. reflexivity. Qed.

Lemma ct_decompose_ok L L' subs a T D : table_ok L T -> table_ok subs D -> Permutation L (a :: L') ->
  exists T', ct_decompose D (Z.of_nat a) T = Some T' /\ table_ok (L' ++ subs) T'.
Proof.
  intros [S PS V] [SD PD VD] HP. unfold ct_decompose. set (z0 := Z.of_nat a).
  assert (VL : forall z, val T z = (if Z.eqb z0 z then 1 else 0) + occ L' z).
  { intros z. rewrite V, (occ_perm _ _ z HP). apply occ_cons. }
  rewrite (count_new_ok T S D 0 0 SD); [|lia|intros; lia]. cbn [obind].
  set (NW := filter (fun d => if in_dec Z.eq_dec d (map fst T) then false else true) (map fst D)).
  assert (NWi : forall z, In z NW <-> In z (map fst D) /\ ~ In z (map fst T)).
  { intros z. unfold NW. rewrite filter_In. destruct (in_dec Z.eq_dec z (map fst T)); intuition; discriminate. }
  assert (NWn : NoDup NW) by (apply NoDup_filter, sasc_NoDup; auto).
  destruct (ct_index_in T z0 S) as (r & E & DI). rewrite E. cbn [obind].
  assert (IN : In z0 (map fst T)).
  { apply in_fst_val; auto. rewrite VL, Z.eqb_refl. pose proof (occ_nonneg L' z0). lia. }
  destruct DI as [(i & c & -> & G)|(_ & N)]; [|tauto].
  destruct (Z.ltb_spec (Z.of_nat i) 0); [lia|]. rewrite Nat2Z.id, G. cbn [obind].
  assert (Gi : In (z0, c) T) by (eapply nth_error_In; exact G).
  assert (Vc : val T z0 = c) by (now apply val_in).
  destruct (ct_index_in D z0 SD) as (k & Ek & DK). rewrite Ek. cbn [obind].
  set (rem := (Z.eqb c 1 && Z.ltb k 0)%bool).
  destruct (ct_merge_ok rem z0 (Datatypes.S (length T + length D)) T D) as (R & ER & SR & IR & VR & PR); auto.
  rewrite ER. cbn [obind]. specialize (PR PS PD).
  assert (kneg : Z.ltb k 0 = true <-> ~ In z0 (map fst D)).
  { destruct DK as [(q & cq & -> & Gq)|(-> & N)].
    - split; [intros B; apply Z.ltb_lt in B; lia|]. intros N. elim N. apply in_map_iff. exists (z0, cq). split; auto. eapply nth_error_In; exact Gq.
    - split; auto. }
  assert (LR : length R = (length T + (0 + length NW) - (if rem then 1 else 0))%nat).
  { rewrite <- (map_length fst R). destruct rem eqn:Erem.
    - unfold rem in Erem. apply andb_true_iff in Erem as [_ Ek2]. apply kneg in Ek2.
      rewrite (drop_notin z0 D Ek2) in IR.
      transitivity (length (map fst (drop true z0 T) ++ NW)).
      + apply nodup_len; [now apply sasc_NoDup| |].
        * apply nodup_app_iff. split; [|split; auto].
          -- unfold drop. clear - S. induction T as [|p T IH]; cbn [filter map]; [constructor|]. cbn [map] in S. inversion S as [|? ? H1 H2]; subst.
             destruct (negb _); [|auto]. cbn [map]. constructor; [|auto]. intros I. apply in_map_iff in I as (q & Eq & Iq).
             apply filter_In in Iq as [Iq _]. specialize (H1 (fst q) (in_map fst T q Iq)). lia.
          -- intros x Hx Hy. apply drop_in in Hx as [Hx _]. apply NWi in Hy. tauto.
        * intros x. rewrite IR, in_app_iff, NWi, drop_in. destruct (in_dec Z.eq_dec x (map fst T)); [|tauto].
          split; [|tauto]. intros [?|Hx]; [tauto|]. left. split; auto. intros ->. tauto.
      + rewrite app_length, map_length.
        assert (Q : length (drop true z0 T) = (length T - 1)%nat).
        { destruct (nth_error_split _ _ G) as (A & B & HT & _). rewrite HT. unfold drop. rewrite filter_app. cbn [filter fst].
          rewrite Z.eqb_refl. change (negb (true && true)) with false. cbv iota. rewrite HT, map_app in S. cbn [map fst] in S. apply sasc_app in S as (SA & SB & D1).
          inversion SB as [|? ? SB1 SB2]; subst.
          fold (drop true z0 A) (drop true z0 B). rewrite !drop_notin, !app_length; [cbn [length]; lia| |].
          - intros I. specialize (SB1 _ I). lia.
          - intros I. specialize (D1 z0 z0 I (or_introl eq_refl)). lia. }
        rewrite Q. pose proof (get_lt _ _ _ G). lia.
    - rewrite !drop_false in IR. transitivity (length (map fst T ++ NW)).
      + apply nodup_len; [now apply sasc_NoDup| |].
        * apply nodup_app_iff. split; [now apply sasc_NoDup|]. split; auto. intros x Hx Hy. apply NWi in Hy. tauto.
        * intros x. rewrite IR, in_app_iff, NWi. destruct (in_dec Z.eq_dec x (map fst T)); tauto.
      + rewrite app_length, map_length. lia. }
  rewrite LR, Nat.eqb_refl. cbn [obind].
  destruct rem eqn:Erem.
  - unfold rem in Erem. apply andb_true_iff in Erem as [Ec Ek2]. apply Z.eqb_eq in Ec. apply kneg in Ek2.
    exists R. split; auto. split; auto. intros z. rewrite VR, (drop_notin z0 D Ek2), drop_val, VD, VL, occ_app.
    rewrite Ec, VL, Z.eqb_refl in Vc. destruct (Z.eqb_spec z0 z) as [<-|]; lia.
  - rewrite !drop_false in VR, IR.
    destruct (ct_index_in R z0 SR) as (q & Eq & DQ). rewrite Eq. cbn [obind].
    assert (INR : In z0 (map fst R)) by (apply IR; auto).
    destruct DQ as [(i2 & c2 & -> & G2)|(_ & N)]; [|tauto].
    destruct (Z.ltb_spec (Z.of_nat i2) 0); [lia|]. rewrite Nat2Z.id, G2. cbn [obind].
    destruct (nth_error_split _ _ G2) as (A & B & -> & <-). rewrite set_app. eexists. split; [reflexivity|].
    assert (Vc2 : val (A ++ (z0, c2) :: B) z0 = c2) by (apply val_in; auto; apply in_or_app; right; left; auto).
    assert (C2 : 1 < c2).
    { rewrite <- Vc2, VR, Vc. unfold rem in Erem. apply andb_false_iff in Erem as [Ec|Ek2].
      - apply Z.eqb_neq in Ec. assert (0 < c) by (eapply PS; eauto). rewrite VD. pose proof (occ_nonneg subs z0). lia.
      - assert (I : In z0 (map fst D)).
        { destruct (in_dec Z.eq_dec z0 (map fst D)); auto. apply kneg in n. congruence. }
        apply in_fst_val in I; auto. assert (0 < c) by (eapply PS; eauto). lia. }
    split.
    + rewrite map_app in *. exact SR.
    + intros t ct I. apply in_app_or in I as [I|[[= <- <-]|I]]; [eapply PR; apply in_or_app; left; eauto|lia|eapply PR; apply in_or_app; right; right; eauto].
    + intros z. specialize (VR z). rewrite val_app in *. cbn [val] in *. rewrite VL, VD in VR. rewrite occ_app.
      destruct (Z.eqb z0 z); lia.
Qed.

(** ** sortedDistinctSubtasks *)
Lemma get_app_mid {A} (l1 l2 : list A) x : get (l1 ++ x :: l2) (length l1) = Some x.
Proof. unfold get. rewrite nth_error_app2, Nat.sub_diag by lia. reflexivity. Qed.

Lemma shift_left_ok : forall W U V J fuel k i n j, (0 < j)%nat -> length U = (i + k)%nat -> length V = j ->
  n = (i + k + j + length W)%nat -> (length W < fuel)%nat ->
  exists J', shift_left fuel (U ++ V ++ W ++ J) n i j k = Some (U ++ W ++ J') /\ length J' = (j + length J)%nat.
Proof.
  induction W as [|w W IH]; intros U V J fuel k i n j J0 LU LV En LF; (destruct fuel as [|f]; [cbn [length] in LF; lia|]); cbn [shift_left].
  - cbn [length] in En. destruct (Nat.ltb_spec (i + k + j) n); [lia|]. cbn [app]. exists (V ++ J). split; auto. rewrite app_length. lia.
  - cbn [length] in En, LF. destruct (Nat.ltb_spec (i + k + j) n); [|lia].
    assert (G : get (U ++ V ++ (w :: W) ++ J) (i + k + j) = Some w).
    { rewrite app_assoc. cbn [app]. replace (i + k + j)%nat with (length (U ++ V)) by (rewrite app_length; lia). apply get_app_mid. }
    rewrite G. cbn [obind]. destruct V as [|v V]; [cbn [length] in LV; lia|].
    assert (G2 : set (U ++ (v :: V) ++ (w :: W) ++ J) (i + k) w = Some ((U ++ [w]) ++ (V ++ [w]) ++ W ++ J)).
    { rewrite <- LU. cbn [app]. rewrite set_app. now rewrite <- !app_assoc. }
    rewrite G2. cbn [obind].
    destruct (IH (U ++ [w]) (V ++ [w]) J f (S k) i n j) as (J' & E & LJ).
    + auto.
    + rewrite app_length; cbn [length]; lia.
    + rewrite app_length; cbn [length] in *; lia.
    + lia.
    + lia.
    + rewrite E. exists J'. rewrite <- app_assoc. auto.
Qed.

(** [run_len] finds the maximal run. *)
Lemma run_len_ok x B J A n : n = (length A + S (length B))%nat -> forall fuel R1 R2, B = R1 ++ R2 -> (forall y, In y R1 -> y = x) ->
  (length R2 < fuel)%nat ->
  exists C D, R2 = C ++ D /\ (forall y, In y C -> y = x) /\ (forall y D', D = y :: D' -> y <> x) /\
    run_len fuel (A ++ x :: B ++ J) n (length A) (length R1) = Some (length R1 + length C)%nat.
Proof.
  intros En. induction fuel as [|f IH]; intros R1 R2 EB HR LF; [lia|]. cbn [run_len]. destruct R2 as [|y R2].
  - exists [], []. split; auto. split; [intros ? []|]. split; [discriminate|].
    rewrite EB, app_nil_r in En. destruct (Nat.ltb_spec (length A + length R1 + 1) n); [lia|]. f_equal. cbn [length]. lia.
  - rewrite EB, app_length in En. cbn [length] in En, LF. destruct (Nat.ltb_spec (length A + length R1 + 1) n); [|lia].
    rewrite get_app_mid. cbn [obind].
    assert (G : get (A ++ x :: B ++ J) (length A + length R1 + 1) = Some y).
    { rewrite EB. replace (A ++ x :: (R1 ++ y :: R2) ++ J) with ((A ++ x :: R1) ++ y :: R2 ++ J).
      - replace (length A + length R1 + 1)%nat with (length (A ++ x :: R1)) by (rewrite app_length; cbn [length]; lia). apply get_app_mid.
      - now rewrite <- !app_assoc. }
    rewrite G. cbn [obind]. destruct (Z.eqb_spec x y) as [Exy|N].
    + destruct (IH (R1 ++ [y]) R2) as (C & D & EC & HC & HD & E).
      * now rewrite <- app_assoc.
      * intros z Hz. apply in_app_or in Hz as [Hz|[<-|[]]]; auto.
      * lia.
      * exists (y :: C), D. split; [now rewrite EC|]. split; [intros z [<-|Hz]; auto|]. split; auto.
        rewrite app_length in E. cbn [length] in E. rewrite Nat.add_1_r in E. rewrite E. f_equal. cbn [length]. lia.
    + exists [], (y :: R2). split; auto. split; [intros ? []|]. split; [intros z D' [= <- <-]; auto|]. f_equal. cbn [length]. lia.
Qed.

Lemma asc_app A B : asc (A ++ B) -> asc A /\ asc B /\ forall a b, In a A -> In b B -> a <= b.
Proof.
  induction A as [|x A IH]; cbn [app].
  - intros H. split; [constructor|split; auto; intros ? ? []].
  - intros H. inversion H as [|? ? H1 H2]; subst. apply IH in H2 as (SA & SB & D). split.
    + constructor; auto. intros y Hy. apply H1. apply in_or_app; auto.
    + split; auto. intros a b [<-|Ha] Hb; [apply H1; apply in_or_app; auto|auto].
Qed.

Definition occz (l : list Z) (z : Z) : Z := Z.of_nat (count_occ Z.eq_dec l z).
Lemma occz_app A B z : occz (A ++ B) z = occz A z + occz B z.
Proof. unfold occz. rewrite count_occ_app. lia. Qed.
Lemma occz_cons a B z : occz (a :: B) z = (if Z.eqb a z then 1 else 0) + occz B z.
Proof.
  unfold occz. destruct (Z.eqb_spec a z) as [E|E].
  - rewrite count_occ_cons_eq by auto. lia.
  - rewrite count_occ_cons_neq by auto. lia.
Qed.
Lemma occz_const x l z : (forall y, In y l -> y = x) -> occz l z = if Z.eqb x z then Z.of_nat (length l) else 0.
Proof.
  induction l as [|a l IH]; intros H.
  - unfold occz. cbn. destruct (Z.eqb x z); auto.
  - rewrite occz_cons, IH by (intros; apply H; right; auto). rewrite (H a (or_introl eq_refl)). cbn [length]. destruct (Z.eqb x z); lia.
Qed.

Lemma combine_snoc {A B} (l1 : list A) (l2 : list B) a b : length l1 = length l2 -> combine (l1 ++ [a]) (l2 ++ [b]) = combine l1 l2 ++ [(a, b)].
Proof. revert l2. induction l1 as [|x l1 IH]; intros [|y l2] H; cbn in *; try discriminate; auto. now rewrite IH by lia. Qed.
Lemma map_fst_combine {A B} (l1 : list A) (l2 : list B) : length l1 = length l2 -> map fst (combine l1 l2) = l1.
Proof. revert l2. induction l1 as [|x l1 IH]; intros [|y l2] H; cbn in *; try discriminate; auto. now rewrite IH by lia. Qed.

Lemma distinct_loop_ok (tot : Z -> Z) N : forall fuel A B J cA cB n i,
  i = length A -> n = (length A + length B)%nat -> (length B < fuel)%nat -> length cA = length A ->
  length (A ++ B ++ J) = N -> cB = repeat 1 (N - length A) ->
  sasc A -> asc B -> (forall a b, In a A -> In b B -> a < b) ->
  (forall c, In c cA -> 0 < c) ->
  (forall z, val (combine A cA) z + occz B z = tot z) ->
  exists n' a c, distinct_loop fuel (A ++ B ++ J) (cA ++ cB) n i = Some (n', a, c) /\
    (n' <= length a)%nat /\ (n' <= length c)%nat /\ sasc (firstn n' a) /\ (forall t k, In (t, k) (combine (firstn n' a) (firstn n' c)) -> 0 < k) /\
    (forall z, val (combine (firstn n' a) (firstn n' c)) z = tot z).
Proof.
  induction fuel as [|f IH]; intros A B J cA cB n i Ei En LF LcA LN EcB SA SB AB PcA VT; [lia|]. cbn [distinct_loop].
  destruct B as [|x B].
  - cbn [length] in En. destruct (Nat.ltb_spec (S i) n); [lia|].
    exists n, (A ++ [] ++ J), (cA ++ cB). split; auto. cbn [app].
    assert (F1 : firstn n (A ++ J) = A).
    { replace n with (length A) by lia. rewrite firstn_app, firstn_all, Nat.sub_diag. cbn [firstn]. now rewrite app_nil_r. }
    assert (F2 : firstn n (cA ++ cB) = cA).
    { replace n with (length cA) by lia. rewrite firstn_app, firstn_all, Nat.sub_diag. cbn [firstn]. now rewrite app_nil_r. }
    rewrite F1, F2.
    split; [rewrite app_length; lia|]. split; [rewrite app_length; lia|]. split; auto. split.
    + intros t k Hk. apply in_combine_r in Hk. auto.
    + intros z. rewrite <- VT. unfold occz. cbn. lia.
  - cbn [length] in En, LF. rewrite !app_length in LN. cbn [length] in LN.
    assert (EcB' : cB = 1 :: repeat 1 (N - S (length A))).
    { rewrite EcB. replace (N - length A)%nat with (S (N - S (length A))) by lia. reflexivity. }
    inversion SB as [|? ? SB1 SB2]; subst x0 l.
    destruct (Nat.ltb_spec (S i) n) as [LT|GE].
    + destruct (run_len_ok x B J A n ltac:(lia) (S n) [] B) as (C & D & EB & HC & HD & ERL); auto; [intros ? []|lia|].
      cbn [length Nat.add] in ERL. cbn [app] in ERL |- *. subst i. rewrite ERL. cbn [obind].
      assert (DX : forall d, In d D -> x < d).
      { intros d Hd. destruct D as [|d0 D']; [destruct Hd|]. specialize (HD d0 D' eq_refl). subst B.
        apply asc_app in SB2 as (_ & SD & _). inversion SD as [|? ? SD1 SD2]; subst.
        assert (x <= d0) by (apply SB1; apply in_or_app; right; left; auto).
        destruct Hd as [<-|Hd]; [lia|]. specialize (SD1 d Hd). lia. }
      assert (SD : asc D) by (subst B; now apply asc_app in SB2).
      assert (SA' : sasc (A ++ [x])).
      { apply sasc_app. split; auto. split; [constructor; [intros ? []|constructor]|]. intros a b Ha [<-|[]]. apply AB; simpl; auto. }
      assert (AB' : forall a b, In a (A ++ [x]) -> In b D -> a < b).
      { intros a b Ha Hb. apply in_app_or in Ha as [Ha|[<-|[]]]; [|auto]. apply AB; auto. right. subst B. apply in_or_app; auto. }
      assert (VT' : forall z, val (combine (A ++ [x]) (cA ++ [1 + Z.of_nat (length C)])) z + occz D z = tot z).
      { intros z. rewrite combine_snoc by auto. rewrite val_app. cbn [val]. rewrite <- VT, EB, occz_cons, occz_app, (occz_const x C z HC).
        destruct (Z.eqb x z); lia. }
      destruct (Nat.ltb_spec 0 (length C)) as [CP|C0].
      * assert (G : get (cA ++ cB) (length A) = Some 1) by (rewrite EcB', <- LcA; apply get_app_mid). rewrite G. cbn [obind].
        assert (G1 : set (cA ++ cB) (length A) (1 + Z.of_nat (length C)) = Some (cA ++ (1 + Z.of_nat (length C)) :: repeat 1 (N - S (length A)))).
        { rewrite EcB'. set (X := repeat 1 _). rewrite <- LcA. apply set_app. }
        rewrite G1. cbn [obind].
        destruct (shift_left_ok (x :: D) A (x :: removelast C) J (S n) 0 (length A) n (length C)) as (J' & E & LJ); auto.
        -- cbn [length]. destruct C as [|c0 C0] using rev_ind; [cbn in CP; lia|]. rewrite removelast_last, app_length. cbn [length]. lia.
        -- cbn [length]. subst B. rewrite app_length in En. lia.
        -- cbn [length]. subst B. rewrite app_length in En. lia.
        -- assert (EQ : A ++ (x :: removelast C) ++ (x :: D) ++ J = A ++ x :: B ++ J).
           { f_equal. cbn [app]. f_equal. rewrite EB, <- app_assoc. destruct C as [|c0 C0] using rev_ind; [cbn in CP; lia|].
             rewrite removelast_last, <- app_assoc. cbn [app]. rewrite (HC c0); [auto|]. apply in_or_app; right; left; auto. }
           rewrite EQ in E. rewrite E. cbn [obind].
           replace (A ++ (x :: D) ++ J') with ((A ++ [x]) ++ D ++ J') by now rewrite <- app_assoc.
           replace (cA ++ (1 + Z.of_nat (length C)) :: repeat 1 (N - S (length A))) with ((cA ++ [1 + Z.of_nat (length C)]) ++ repeat 1 (N - S (length A))) by now rewrite <- app_assoc.
           subst B. rewrite app_length in *. eapply IH; auto; try (rewrite ?app_length; cbn [length]; lia).
           ++ rewrite app_length. cbn [length]. f_equal. lia.
           ++ intros c Hc. apply in_app_or in Hc as [Hc|[<-|[]]]; [auto|lia].
      * destruct C; [|cbn in C0; lia]. cbn [app] in EB. subst D. cbn [length] in VT'.
        replace (A ++ x :: B ++ J) with ((A ++ [x]) ++ B ++ J) by now rewrite <- app_assoc.
        rewrite EcB'. replace (cA ++ 1 :: repeat 1 (N - S (length A))) with ((cA ++ [1 + Z.of_nat 0]) ++ repeat 1 (N - S (length A))) by now rewrite <- app_assoc.
        eapply IH; auto; try (rewrite ?app_length; cbn [length]; lia).
        -- rewrite app_length. cbn [length]. f_equal. lia.
        -- intros c Hc. apply in_app_or in Hc as [Hc|[<-|[]]]; [auto|lia].
    + (* the last cell *)
      assert (B = []) by (destruct B; auto; cbn [length] in En; lia). subst B.
      exists n, (A ++ [x] ++ J), (cA ++ cB). split; auto.
      replace (A ++ [x] ++ J) with ((A ++ [x]) ++ J) by now rewrite <- app_assoc.
      rewrite EcB'. replace (cA ++ 1 :: repeat 1 (N - S (length A))) with ((cA ++ [1]) ++ repeat 1 (N - S (length A))) by now rewrite <- app_assoc.
      assert (F1 : firstn n ((A ++ [x]) ++ J) = A ++ [x]).
      { replace n with (length (A ++ [x])) by (rewrite app_length; cbn [length] in *; lia).
        rewrite firstn_app, firstn_all, Nat.sub_diag. cbn [firstn]. now rewrite app_nil_r. }
      assert (F2 : firstn n ((cA ++ [1]) ++ repeat 1 (N - S (length A))) = cA ++ [1]).
      { replace n with (length (cA ++ [1])) by (rewrite app_length; cbn [length] in *; lia).
        rewrite firstn_app, firstn_all, Nat.sub_diag. cbn [firstn]. now rewrite app_nil_r. }
      rewrite F1, F2. split; [rewrite !app_length; cbn [length] in *; lia|]. split; [rewrite !app_length; cbn [length] in *; lia|].
      split. { apply sasc_app. split; auto. split; [constructor; [intros ? []|constructor]|]. intros a b Ha [<-|[]]. apply AB; simpl; auto. }
      split.
      * intros t k Hk. apply in_combine_r in Hk. apply in_app_or in Hk as [Hk|[<-|[]]]; [auto|lia].
      * intros z. rewrite combine_snoc by auto. rewrite val_app, <- VT, occz_cons. cbn [val]. unfold occz. cbn. destruct (Z.eqb x z); lia.
Qed.

Lemma distinct_table_ok subs : exists D, distinct_table subs = Some D /\ table_ok subs D.
Proof.
  unfold distinct_table, distinct.
  destruct (sort_ok (map Z.of_nat subs) 0 (length subs)) as (a & E & L & PM & _ & SO); [now rewrite map_length|].
  rewrite E. cbn [obind]. rewrite map_length in L.
  assert (PA : Permutation (map Z.of_nat subs) a).
  { rewrite <- (slice_full 0 (map Z.of_nat subs)), <- (slice_full 0 a). now rewrite map_length, L. }
  assert (SA : asc a).
  { rewrite <- (slice_full 0 a). rewrite L. apply (asc_of_sorted a (length subs) 0). intros i j Hi Hij Hj. apply SO; auto. }
  destruct (distinct_loop_ok (occ subs) (length subs) (S (length subs)) [] a [] [] (repeat 1 (length subs)) (length subs) 0) as (n' & b & c & ED & Ln & Lc & SB & PB & VB); auto.
  - rewrite L. lia.
  - cbn [app]. now rewrite app_nil_r, L.
  - cbn [length]. now rewrite Nat.sub_0_r.
  - constructor.
  - intros ? ? [].
  - intros ? [].
  - intros z. cbn [combine val]. unfold occz, occ. rewrite (proj1 (Permutation_count_occ Z.eq_dec _ _) PA z). lia.
  - cbn [app] in ED. rewrite app_nil_r in ED. rewrite ED. cbn [obind]. eexists. split; [reflexivity|]. split; auto.
    rewrite map_fst_combine; auto. rewrite !firstn_length. lia.
Qed.

(** ** Loops over lists *)
Lemma ofold_prefix {A B} (f : A -> B -> option A) (Inv : list B -> A -> Prop) l : forall a, Inv [] a ->
  (forall pre x post a, l = pre ++ x :: post -> Inv pre a -> exists a', f a x = Some a' /\ Inv (pre ++ [x]) a') ->
  exists a', ofold f l a = Some a' /\ Inv l a'.
Proof.
  assert (G : forall post pre a, Inv pre a -> l = pre ++ post ->
    (forall pre x post a, l = pre ++ x :: post -> Inv pre a -> exists a', f a x = Some a' /\ Inv (pre ++ [x]) a') ->
    exists a', ofold f post a = Some a' /\ Inv l a').
  { induction post as [|x post IH]; intros pre a Ha E H; cbn [ofold].
    - exists a. rewrite app_nil_r in E. subst. auto.
    - destruct (H pre x post a E Ha) as (a' & E' & Ha'). rewrite E'. cbn [obind]. apply (IH (pre ++ [x])); auto.
      now rewrite <- app_assoc. }
  intros a Ha H. apply (G l [] a); auto.
Qed.

Lemma get_repeat {A} (a : A) n i : (i < n)%nat -> get (repeat a n) i = Some a.
Proof.
  intros H. unfold get. rewrite (nth_error_nth' (repeat a n) a) by (now rewrite repeat_length). f_equal. apply nth_repeat.
Qed.

Lemma get_set_any {A} (l : list A) i v l' j : set l i v = Some l' -> get l' j = if Nat.eqb j i then Some v else get l j.
Proof.
  intros E. destruct (Nat.eqb_spec j i) as [->|N]; [eapply get_set_eq; eauto|]. eapply get_set_neq; eauto.
Qed.

(** ** taskToMethods *)
Lemma seq_prefix n pre x post : seq 0 n = pre ++ x :: post -> x = length pre /\ pre = seq 0 (length pre) /\ (x < n)%nat.
Proof.
  intros E. assert (L : (length pre < n)%nat).
  { rewrite <- (seq_length n 0), E, app_length. cbn [length]. lia. }
  assert (X : nth (length pre) (seq 0 n) 0%nat = x) by (rewrite E, app_nth2, Nat.sub_diag by lia; auto).
  rewrite seq_nth in X by auto. cbn [Nat.add] in X. split; [auto|]. split; [|lia].
  replace pre with (firstn (length pre) (seq 0 n)) at 1 by (rewrite E, firstn_app, firstn_all, Nat.sub_diag; cbn [firstn]; apply app_nil_r).
  replace n with (length pre + (n - length pre))%nat by lia. rewrite seq_app, firstn_app, seq_length, Nat.sub_diag. cbn [firstn].
  rewrite app_nil_r. rewrite <- (seq_length (length pre) 0) at 1. apply firstn_all.
Qed.

Lemma ttm_table_ok P : (forall m, In m (p_methods P) -> (m_task m < length (p_prim P))%nat) ->
  exists T, ttm_table P = Some T /\ length T = length (p_prim P) /\
    forall t, (t < length (p_prim P))%nat -> get T t = Some (task_to_methods P t).
Proof.
  intros WM. unfold ttm_table. set (k := length (p_prim P)) in *.
  pose (good := fun t i => match nth_error (p_methods P) i with Some m => Nat.eqb (m_task m) t | None => false end).
  destruct (ofold_prefix (fun T i => m <- get (p_methods P) i ;; row <- get T (m_task m) ;; set T (m_task m) (row ++ [i]))
    (fun pre T => length T = k /\ forall t, (t < k)%nat -> get T t = Some (filter (good t) pre))
    (seq 0 (length (p_methods P))) (repeat [] k)) as (T & E & L & G).
  - split; [apply repeat_length|]. intros t Ht. cbn [filter]. now apply get_repeat.
  - intros pre i post T E [L G]. destruct (seq_prefix _ _ _ _ E) as (_ & _ & Hi).
    destruct (get_some (p_methods P) i) as (m & Gm); [auto|]. rewrite Gm. cbn [obind].
    assert (Ht : (m_task m < k)%nat) by (apply WM; eapply nth_error_In; exact Gm).
    rewrite (G _ Ht). cbn [obind]. destruct (set_some T (m_task m) (filter (good (m_task m)) pre ++ [i])) as (T' & ET); [lia|].
    exists T'. split; auto. split; [now rewrite (set_length _ _ _ _ ET)|]. intros t Hlt.
    rewrite (get_set_any _ _ _ _ t ET), filter_app. cbn [filter]. assert (GI : good t i = Nat.eqb (m_task m) t) by (unfold good; unfold get in Gm; now rewrite Gm). rewrite GI.
    destruct (Nat.eqb_spec t (m_task m)) as [->|N].
    + now rewrite Nat.eqb_refl.
    + destruct (Nat.eqb_spec (m_task m) t); [congruence|]. rewrite app_nil_r. auto.
  - exists T. auto.
Qed.

(** ** First and last tasks *)
Lemma collect_ok l : forall j, collect j l = filter (fun i => nth (i - j) l false) (seq j (length l)).
Proof.
  induction l as [|b l IH]; intros j; cbn [collect length seq filter]; auto.
  rewrite Nat.sub_diag. cbn [nth]. rewrite (IH (S j)).
  assert (X : filter (fun i => nth (i - S j) l false) (seq (S j) (length l)) = filter (fun i => nth (i - j) (b :: l) false) (seq (S j) (length l))).
  { apply filter_ext_in. intros i Hi. apply in_seq in Hi. replace (i - j)%nat with (S (i - S j)) by lia. reflexivity. }
  rewrite X. destruct b; auto.
Qed.

Lemma fl_table_ok m : (forall j k, In (j, k) (m_ord m) -> (j < length (m_subs m) /\ k < length (m_subs m))%nat) ->
  fl_table m = Some (first_tasks m, last_tasks m).
Proof.
  intros WO. unfold fl_table, fl_flags. set (k := length (m_subs m)) in *.
  destruct (ofold_prefix (fun '(fs, ls) '(p, s) => fs' <- set fs s false ;; ls' <- set ls p false ;; Some (fs', ls'))
    (fun pre q => length (fst q) = k /\ length (snd q) = k /\
       forall j, (j < k)%nat -> get (fst q) j = Some (forallb (fun o => negb (Nat.eqb (snd o) j)) pre) /\
                                get (snd q) j = Some (forallb (fun o => negb (Nat.eqb (fst o) j)) pre))
    (m_ord m) (repeat true k, repeat true k)) as ([fs ls] & E & LF & LL & G).
  - cbn [fst snd]. rewrite repeat_length. split; auto. split; auto. intros j Hj. cbn [forallb]. now rewrite get_repeat.
  - intros pre [p s] post [fs ls] E (LF & LL & G). cbn [fst snd] in *.
    destruct (WO p s) as [Hp Hs]; [rewrite E; apply in_or_app; right; left; auto|].
    destruct (set_some fs s false) as (fs' & EF); [lia|]. destruct (set_some ls p false) as (ls' & EL); [lia|].
    rewrite EF. cbn [obind]. rewrite EL. cbn [obind]. eexists. split; [reflexivity|]. cbn [fst snd].
    split; [now rewrite (set_length _ _ _ _ EF)|]. split; [now rewrite (set_length _ _ _ _ EL)|].
    intros j Hj. destruct (G j Hj) as [G1 G2]. rewrite (get_set_any _ _ _ _ j EF), (get_set_any _ _ _ _ j EL), !forallb_app. cbn [forallb fst snd].
    rewrite !andb_true_r, (Nat.eqb_sym s j), (Nat.eqb_sym p j), G1, G2.
    split; destruct (Nat.eqb j _); cbn [negb]; now rewrite ?andb_true_r, ?andb_false_r.
  - rewrite E. cbn [obind]. cbn [fst snd] in *. f_equal. f_equal; rewrite collect_ok; unfold first_tasks, last_tasks; fold k.
    + rewrite LF. apply filter_ext_in. intros j Hj. apply in_seq in Hj. rewrite Nat.sub_0_r. destruct (G j) as [G1 _]; [lia|].
      unfold get in G1. now rewrite (nth_error_nth _ _ _ G1).
    + rewrite LL. apply filter_ext_in. intros j Hj. apply in_seq in Hj. rewrite Nat.sub_0_r. destruct (G j) as [_ G2]; [lia|].
      unfold get in G2. now rewrite (nth_error_nth _ _ _ G2).
Qed.

(** ** stToMethod *)
Definition subs_of (P : problem) (m : nat) : list nat := match nth_error (p_methods P) m with Some md => m_subs md | None => [] end.
Definition st_pairs (P : problem) : list (nat * nat) :=
  flat_map (fun m => map (pair m) (subs_of P m)) (seq 0 (length (p_methods P))).

Lemma in_st_pairs P m st : In (m, st) (st_pairs P) <-> exists md, nth_error (p_methods P) m = Some md /\ In st (m_subs md).
Proof.
  unfold st_pairs, subs_of. rewrite in_flat_map. split.
  - intros (i & Hi & H). destruct (nth_error (p_methods P) i) as [md|] eqn:E; [|destruct H].
    apply in_map_iff in H as (s & [= -> ->] & H). eauto.
  - intros (md & E & H). exists m. split.
    + apply in_seq. split; [lia|]. apply nth_error_Some. congruence.
    + rewrite E. apply in_map_iff. eauto.
Qed.

Lemma ofold_app {A B} (f : A -> B -> option A) l1 l2 a : ofold f (l1 ++ l2) a = (x <- ofold f l1 a ;; ofold f l2 x).
Proof. revert a. induction l1 as [|b l1 IH]; intros a; cbn [app ofold obind]; auto. destruct (f a b); cbn [obind]; auto. Qed.
Lemma ofold_map {A B C} (f : A -> B -> option A) (g : C -> B) l a : ofold f (map g l) a = ofold (fun a c => f a (g c)) l a.
Proof. revert a. induction l as [|b l IH]; intros a; cbn [map ofold]; auto. destruct (f a (g b)); cbn [obind]; auto. Qed.
Lemma ofold_flat {A B C} (f : A -> B -> option A) (g : C -> list B) l a : ofold f (flat_map g l) a = ofold (fun a c => ofold f (g c) a) l a.
Proof.
  revert a. induction l as [|c l IH]; intros a; cbn [flat_map ofold]; auto. rewrite ofold_app. destruct (ofold f (g c) a); cbn [obind]; auto.
Qed.
Lemma ofold_ext_in {A B} (f g : A -> B -> option A) l : (forall a b, In b l -> f a b = g a b) -> forall a, ofold f l a = ofold g l a.
Proof.
  intros H. induction l as [|b l IH]; intros a; cbn [ofold]; auto. rewrite H by (left; auto). destruct (g a b); cbn [obind]; auto.
  apply IH. intros; apply H; right; auto.
Qed.

Lemma st_table_flat P : st_table P = (cap <- st_num P ;; ofold (fun T p => st_insert cap (fst p) T (snd p)) (st_pairs P) (repeat [] (length (p_prim P)), cap)).
Proof.
  unfold st_table. destruct (st_num P) as [cap|]; cbn [obind]; auto. unfold st_pairs. rewrite ofold_flat. apply ofold_ext_in.
  intros T m Hm. apply in_seq in Hm. rewrite ofold_map. cbn [fst snd]. unfold subs_of.
  destruct (get_some (p_methods P) m) as (md & G); [lia|]. rewrite G. cbn [obind]. unfold get in G. now rewrite G.
Qed.

Lemma st_num_flat P : st_num P = ofold (fun K st => c <- get K st ;; set K st (S c)) (map snd (st_pairs P)) (repeat 0%nat (length (p_prim P))).
Proof.
  unfold st_num. assert (X : map snd (st_pairs P) = flat_map m_subs (p_methods P)).
  { unfold st_pairs. rewrite !flat_map_concat_map, concat_map, !map_map.
    f_equal. transitivity (map (fun m => subs_of P m) (seq 0 (length (p_methods P)))).
    - apply map_ext. intros m. rewrite map_map. cbn [snd]. apply map_id.
    - unfold subs_of. assert (Q : forall l k, map (fun m => match nth_error l (m - k) with Some md => m_subs md | None => [] end) (seq k (length l)) = map m_subs l).
      { clear. induction l as [|a l IH]; intros k; cbn [length seq map]; auto. rewrite Nat.sub_diag. cbn [nth_error]. f_equal.
        rewrite <- (IH (S k)). apply map_ext_in. intros m Hm. apply in_seq in Hm. replace (m - k)%nat with (S (m - S k)) by lia. reflexivity. }
      rewrite <- (Q (p_methods P) 0%nat). apply map_ext. intros m. now rewrite Nat.sub_0_r. }
  rewrite X, ofold_flat. reflexivity.
Qed.

Definition cnt (l : list nat) (t : nat) : nat := count_occ Nat.eq_dec l t.
Lemma cnt_snoc l a t : cnt (l ++ [a]) t = (cnt l t + if Nat.eqb a t then 1 else 0)%nat.
Proof.
  unfold cnt. rewrite count_occ_app. f_equal. cbn [count_occ]. destruct (Nat.eq_dec a t), (Nat.eqb_spec a t); congruence.
Qed.

Lemma st_num_ok P : (forall m t, In m (p_methods P) -> In t (m_subs m) -> (t < length (p_prim P))%nat) ->
  exists K, st_num P = Some K /\ length K = length (p_prim P) /\
    forall t, (t < length (p_prim P))%nat -> get K t = Some (cnt (map snd (st_pairs P)) t).
Proof.
  intros WM. rewrite st_num_flat. set (k := length (p_prim P)) in *.
  apply (ofold_prefix (fun K st => c <- get K st ;; set K st (S c)) (fun pre K => length K = k /\ forall t, (t < k)%nat -> get K t = Some (cnt pre t))).
  - split; [apply repeat_length|]. intros t Ht. now rewrite get_repeat.
  - intros pre st post K E [L G].
    assert (Hs : (st < k)%nat).
    { assert (I : In st (map snd (st_pairs P))) by (rewrite E; apply in_or_app; right; left; auto).
      apply in_map_iff in I as ([m s] & Es & I). cbn [snd] in Es. subst s. apply in_st_pairs in I as (md & Em & I).
      eapply WM; eauto. eapply nth_error_In; eauto. }
    rewrite (G _ Hs). cbn [obind]. destruct (set_some K st (S (cnt pre st))) as (K' & EK); [lia|]. exists K'. split; auto.
    split; [now rewrite (set_length _ _ _ _ EK)|]. intros t Ht. rewrite (get_set_any _ _ _ _ t EK), cnt_snoc.
    destruct (Nat.eqb_spec t st) as [->|N].
    + rewrite Nat.eqb_refl. f_equal. lia.
    + destruct (Nat.eqb_spec st t); [congruence|]. rewrite Nat.add_0_r. auto.
Qed.

Lemma st_pairs_sorted P pre m st post : st_pairs P = pre ++ (m, st) :: post -> forall m' st', In (m', st') pre -> (m' <= m)%nat.
Proof.
  unfold st_pairs. generalize (length (p_methods P)) as n. intros n. generalize 0%nat as k. revert pre. induction n as [|n IH]; intros pre k E m' st' Hi.
  - cbn in E. destruct pre; discriminate.
  - cbn [seq flat_map] in E.
    assert (LE : forall q, In q (flat_map (fun m => map (pair m) (subs_of P m)) (seq (S k) n)) -> (k < fst q)%nat).
    { intros q Hq. apply in_flat_map in Hq as (i & Hii & Hq). apply in_seq in Hii. apply in_map_iff in Hq as (s & <- & _). cbn [fst]. lia. }
    assert (EK : forall q, In q (map (pair k) (subs_of P k)) -> fst q = k).
    { intros q Hq. apply in_map_iff in Hq as (s & <- & _). auto. }
    set (A := map (pair k) (subs_of P k)) in *. set (B := flat_map _ (seq (S k) n)) in *.
    assert (Q : (exists r, A = pre ++ (m, st) :: r) \/ exists pre2, pre = A ++ pre2 /\ B = pre2 ++ (m, st) :: post).
    { clear - E. revert pre E. induction A as [|a A IH]; intros pre E; cbn [app] in E.
      - right. exists pre. auto.
      - destruct pre as [|b pre]; cbn [app] in E.
        + injection E as -> E. left. exists A. auto.
        + injection E as -> E. destruct (IH pre E) as [(r & ->)|(p2 & -> & X)]; [left; exists r; auto|right; exists p2; auto]. }
    destruct Q as [(r & X)|(pre2 & -> & X)].
    + assert (fst (m', st') = k) by (apply EK; rewrite X; apply in_or_app; auto).
      assert (fst (m, st) = k) by (apply EK; rewrite X; apply in_or_app; right; left; auto). cbn [fst] in *. lia.
    + apply in_app_or in Hi as [Hi|Hi].
      * apply EK in Hi. cbn [fst] in Hi. assert (k < fst (m, st))%nat by (apply LE; rewrite X; apply in_or_app; right; left; auto). cbn [fst] in *. lia.
      * eapply (IH pre2 (S k)); eauto.
Qed.

Lemma st_table_ok P : (forall m t, In m (p_methods P) -> In t (m_subs m) -> (t < length (p_prim P))%nat) ->
  exists rows num, st_table P = Some (rows, num) /\
    forall t, (t < length (p_prim P))%nat -> exists row, get rows t = Some row /\ get num t = Some (length row) /\ sasc row /\
      forall z, In z row <-> exists m md, z = Z.of_nat m /\ nth_error (p_methods P) m = Some md /\ In t (m_subs md).
Proof.
  intros WM. rewrite st_table_flat. destruct (st_num_ok P WM) as (cap & EC & LC & GC). rewrite EC. cbn [obind].
  set (k := length (p_prim P)) in *.
  destruct (ofold_prefix (fun T p => st_insert cap (fst p) T (snd p))
    (fun pre T => length (fst T) = k /\ length (snd T) = k /\ forall t, (t < k)%nat -> exists row x, get (fst T) t = Some row /\ get (snd T) t = Some x /\
        sasc row /\ (forall z, In z row <-> exists m, z = Z.of_nat m /\ In (m, t) pre) /\
        (x + cnt (map snd pre) t = cnt (map snd (st_pairs P)) t + length row)%nat /\ (length row <= cnt (map snd pre) t)%nat)
    (st_pairs P) (repeat [] k, cap)) as ([rows num] & E & LR & LN & G).
  - cbn [fst snd]. rewrite repeat_length. split; auto. split; auto. intros t Ht. exists [], (cnt (map snd (st_pairs P)) t).
    rewrite get_repeat by auto. split; auto. split; auto. split; [constructor|]. split.
    + intros z. split; [intros []|intros (? & _ & [])].
    + cbn [map length]. unfold cnt. cbn. lia.
  - intros pre [m st] post [rows num] E (LR & LN & G). cbn [fst snd] in *.
    assert (Hs : (st < k)%nat).
    { assert (I : In (m, st) (st_pairs P)) by (rewrite E; apply in_or_app; right; left; auto).
      apply in_st_pairs in I as (md & Em & I). eapply WM; eauto. eapply nth_error_In; eauto. }
    destruct (G st Hs) as (row & x & Gr & Gn & SR & IR & CN & LE). unfold st_insert. rewrite Gr. cbn [obind].
    rewrite (GC st Hs). cbn [obind].
    destruct (index_loop_ok (Z.of_nat m) (S (length row - 0)) row 0 (length row)) as (i & EI & DI); [lia|lia|now apply sasc_sorted_from|].
    unfold indexOf. rewrite EI. cbn [obind].
    assert (TOT : (cnt (map snd pre) st + 1 <= cnt (map snd (st_pairs P)) st)%nat).
    { rewrite E, map_app. unfold cnt. rewrite count_occ_app. cbn [map snd]. rewrite count_occ_cons_eq by auto. lia. }
    assert (MX : forall z, In z row -> z <= Z.of_nat m).
    { intros z Hz. apply IR in Hz as (m' & -> & I). pose proof (st_pairs_sorted P pre m st post E _ _ I). lia. }
    destruct DI as [(j & Hj & -> & V)|(-> & N)].
    + destruct (Z.ltb_spec (Z.of_nat j) 0); [lia|]. rewrite Gn. cbn [obind].
      destruct (set_some num st (x - 1)%nat) as (num' & EN); [lia|]. rewrite EN. cbn [obind]. eexists. split; [reflexivity|]. cbn [fst snd].
      assert (Im : In (Z.of_nat m) row) by (rewrite <- V; apply nth_In; lia).
      split; auto. split; [now rewrite (set_length _ _ _ _ EN)|]. intros t Ht. rewrite map_app. cbn [map snd]. setoid_rewrite cnt_snoc.
      destruct (Nat.eqb_spec st t) as [<-|NT].
      * exists row, (x - 1)%nat. split; auto. split; [eapply get_set_eq; eauto|]. split; auto. split.
        -- intros z. rewrite IR. split; [intros (m' & -> & I); exists m'; split; auto; apply in_or_app; auto|].
           intros (m' & -> & I). apply in_app_or in I as [I|[[= <-]|[]]]; [eauto|]. now apply IR.
        -- assert (0 < length row)%nat by (destruct row; [destruct Im|cbn; lia]). lia.
      * destruct (G t Ht) as (row2 & x2 & Gr2 & Gn2 & SR2 & IR2 & CN2 & LE2). exists row2, x2. split; auto.
        split; [rewrite <- Gn2; eapply get_set_neq; eauto|]. split; auto. rewrite Nat.add_0_r. split; auto.
        intros z. rewrite IR2. split; [intros (m' & -> & I); exists m'; split; auto; apply in_or_app; auto|].
        intros (m' & -> & I). apply in_app_or in I as [I|[[= _ <-]|[]]]; [eauto|congruence].
    + change (-1 <? 0) with true. cbv iota.
      destruct (Nat.ltb_spec (length row) (cnt (map snd (st_pairs P)) st)); [|lia].
      destruct (set_some rows st (row ++ [Z.of_nat m])) as (rows' & ER); [lia|]. rewrite ER. cbn [obind]. eexists. split; [reflexivity|]. cbn [fst snd].
      split; [now rewrite (set_length _ _ _ _ ER)|]. split; auto. intros t Ht. rewrite map_app. cbn [map snd]. setoid_rewrite cnt_snoc.
      destruct (Nat.eqb_spec st t) as [<-|NT].
      * exists (row ++ [Z.of_nat m]), x. split; [eapply get_set_eq; eauto|]. split; auto. split.
        { apply sasc_app. split; auto. split; [constructor; [intros ? []|constructor]|]. intros a b Ha [<-|[]]. specialize (MX a Ha).
          assert (a <> Z.of_nat m); [|lia]. intros ->. apply In_nth with (d := 0) in Ha as (j & Hj & V). apply (N j); [lia|exact V]. }
        split.
        -- intros z. rewrite in_app_iff, IR. split.
           ++ intros [(m' & -> & I)|[<-|[]]]; [exists m'; split; auto; apply in_or_app; auto|exists m; split; auto; apply in_or_app; right; left; auto].
           ++ intros (m' & -> & I). apply in_app_or in I as [I|[[= <-]|[]]]; [left; eauto|right; left; auto].
        -- rewrite app_length. cbn [length]. lia.
      * destruct (G t Ht) as (row2 & x2 & Gr2 & Gn2 & SR2 & IR2 & CN2 & LE2). exists row2, x2.
        split; [rewrite <- Gr2; eapply get_set_neq; eauto|]. split; auto. split; auto. rewrite Nat.add_0_r. split; auto.
        intros z. rewrite IR2. split; [intros (m' & -> & I); exists m'; split; auto; apply in_or_app; auto|].
        intros (m' & -> & I). apply in_app_or in I as [I|[[= _ <-]|[]]]; [eauto|congruence].
  - exists rows, num. split; auto. intros t Ht. cbn [fst snd] in G. destruct (G t Ht) as (row & x & Gr & Gn & SR & IR & CN & LE).
    exists row. split; auto. split; [rewrite Gn; f_equal; lia|]. split; auto. intros z. rewrite IR. split.
    + intros (m & -> & I). apply in_st_pairs in I as (md & Em & I). eauto.
    + intros (m & md & -> & Em & I). exists m. split; auto. apply in_st_pairs. eauto.
Qed.

(** ** Contained tasks of the nodes of a history *)
Definition tk (h : list pstep) (a : nat) : nat := match get h a with Some ps => ps_task ps | None => 0%nat end.

(** [T] is the table of the tasks of the steps [A], which are the live steps of [n]. *)
Definition counts_live (h : list pstep) (n : node) (T : ctable) : Prop :=
  exists A, NoDup A /\ (forall a, In a A <-> live h n a) /\ table_ok (map (tk h) A) T.

Lemma nodup_split_perm (A : list nat) i : NoDup A -> In i A -> exists A', Permutation A (i :: A') /\ NoDup A' /\ forall a, In a A' <-> In a A /\ a <> i.
Proof.
  intros N I. apply in_split in I as (A1 & A2 & ->). exists (A1 ++ A2).
  assert (PM : Permutation (A1 ++ i :: A2) (i :: A1 ++ A2)) by (symmetry; apply Permutation_middle).
  split; auto. pose proof (Permutation_NoDup PM N) as N'. inversion N' as [|? ? H1 H2]; subst. split; auto.
  intros a. split.
  - intros Ha. split; [apply (Permutation_in a (Permutation_sym PM)); right; auto|]. intros ->. auto.
  - intros [Ha Na]. apply (Permutation_in a PM) in Ha as [<-|Ha]; tauto.
Qed.

Section Contained.
  Variables (P : problem) (C : config).
  Hypothesis WP : wf_problem P.
  Hypothesis HC : forall l, Permutation l (c_perm C l).

  Definition CInv (h : list pstep) (i : nat) (n : node) : Prop :=
    wf_heap P h /\ (exists s tn pi, Rep P h n s tn pi) /\ exists T, contained P n = Some T /\ counts_live h n T.

  Lemma contained_snoc n n' st : n_sol n' = st :: n_sol n -> contained P n' = (T <- contained P n ;; ct_step P T st).
  Proof using.
    intros E. unfold contained. rewrite E. cbn [rev]. rewrite ofold_app. destruct (ofold _ (rev (n_sol n)) _); cbn [obind ofold]; auto.
    destruct (ct_step P c st); auto.
  Qed.

  Lemma contained_history w l n : history P C w l -> In n l -> CInv (w_heap w) (w_inst w) n.
  Proof using WP HC.
    intros H. revert n. apply (history_pres P C CInv); auto.
    - (* apply1 *)
      intros fuel w0 n i w' n' (W & (s & tn & pi & R) & T & ET & A & NA & LA & TO) E.
      destruct (apply1_rep_full P C fuel w0 n i w' n' s tn pi HC W R E) as (x & ps & Gx & Gps & _ & _ & _ & Eh & LV & R').
      assert (Ix : In x A) by (apply LA, live_head; apply in_or_app; right; eapply nth_error_In; exact Gx).
      destruct (nodup_split_perm A x NA Ix) as (A' & PM & NA' & IA').
      unfold apply1 in E. rewrite Gx in E. cbn [obind] in E. rewrite Gps in E. cbn [obind] in E. inv_opt. destruct x2. inv_opt.
      destruct (n_sol n) as [|s0 sl] eqn:NS; [discriminate|]. injection E as <- <-. cbn [w_heap] in *.
      assert (PM' : Permutation (map (tk (w_heap w0)) A) (ps_task ps :: map (tk (w_heap w0)) A')).
      { rewrite PM. cbn [map]. unfold tk at 1. rewrite Gps. reflexivity. }
      destruct (ct_apply_ok _ _ _ _ TO PM') as (T' & ET' & TO').
      split; auto. split; [eauto|]. exists T'. split.
      + erewrite contained_snoc; [|cbn [n_sol]; rewrite NS; reflexivity]. rewrite ET. cbn [obind ct_step ss_method ss_task]. exact ET'.
      + exists A'. split; auto. split; auto. intros a. rewrite IA', LA. symmetry. apply LV.
    - (* dead end flag *)
      intros h i n (W & (s & tn & pi & R) & X). split; auto. split; [|exact X]. exists s, tn, pi.
      destruct R. split; auto.
    - (* decompose1 *)
      intros w0 n i mi w' n' x tsk (W & (s & tn & pi & R) & T & ET & A & NA & LA & TO) Gx Tx Hm E.
      assert (HM : forall i0 ps m, get (n_abs n) i = Some i0 -> get (w_heap w0) i0 = Some ps -> nth_error (p_methods P) mi = Some m -> ps_task ps = m_task m).
      { intros i0 ps m G1 G2 G3. rewrite Gx in G1. injection G1 as <-. unfold task_of in Tx. rewrite G2 in Tx. cbn [obind] in Tx. injection Tx as <-.
        unfold task_to_methods in Hm. apply filter_In in Hm as [_ Hm]. rewrite G3 in Hm. apply Nat.eqb_eq in Hm. auto. }
      destruct (decompose1_rep_full P C w0 n i mi w' n' s tn pi (wf_methods _ WP) W R E HM) as (y & ps & m & pi' & Gy & Gps & Gm & _ & Eh & W' & _ & _ & _ & LV & R').
      rewrite Gx in Gy. injection Gy as <-.
      assert (Ix : In x A) by (apply LA, live_head; apply in_or_app; left; eapply nth_error_In; exact Gx).
      destruct (nodup_split_perm A x NA Ix) as (A' & PM & NA' & IA').
      assert (NS : exists st, n_sol n' = st :: n_sol n /\ ss_method st = Some mi).
      { unfold decompose1 in E. inv_opt. destruct (forallb _ _); [|discriminate]. inv_opt. destruct x3. inv_opt. subst. cbn [n_sol]. eauto. }
      destruct NS as (st & NS & SM).
      assert (PM' : Permutation (map (tk (w_heap w0)) A) (m_task m :: map (tk (w_heap w0)) A')).
      { rewrite PM. cbn [map]. unfold tk at 1. rewrite Gps, (HM x ps m Gx Gps Gm). reflexivity. }
      destruct (distinct_table_ok (m_subs m)) as (D & ED & TD).
      destruct (ct_decompose_ok _ _ _ _ _ _ TO TD PM') as (T' & ET' & TO').
      split; auto. split; [eauto|]. exists T'. split.
      + rewrite (contained_snoc _ _ _ NS), ET. cbn [obind]. unfold ct_step. rewrite SM. unfold get. rewrite Gm. cbn [obind]. rewrite ED. cbn [obind]. exact ET'.
      + assert (LL : forall a, In a A' -> (a < length (w_heap w0))%nat).
        { intros a Ha. apply IA' in Ha as [Ha _]. apply LA in Ha. eapply live_lt; eauto. apply (r_lt _ _ _ _ _ _ R). }
        exists (A' ++ map (fun j => length (w_heap w0) + j)%nat (seq 0 (length (m_subs m)))). split; [|split].
        * apply nodup_app_iff. split; auto. split.
          -- apply FinFun.Injective_map_NoDup; [intros a b; lia|apply seq_NoDup].
          -- intros a Ha Hb. apply LL in Ha. apply in_map_iff in Hb as (j & <- & _). lia.
        * intros a. rewrite LV, in_app_iff, IA', LA. apply or_iff_compat_l. rewrite in_map_iff. split.
          -- intros (j & <- & Hj). apply in_seq in Hj. exists j. split; [lia|auto].
          -- intros (j & Hj & ->). exists j. split; auto. apply in_seq. lia.
        * rewrite map_app, map_map.
          assert (X1 : map (tk (w_heap w')) A' = map (tk (w_heap w0)) A').
          { apply map_ext_in. intros a Ha. unfold tk. rewrite Eh, get_app_l by auto. reflexivity. }
          assert (X2 : map (fun j => tk (w_heap w') (length (w_heap w0) + j)) (seq 0 (length (m_subs m))) = m_subs m).
          { apply nth_ext with (d := 0%nat) (d' := 0%nat); [now rewrite map_length, seq_length|]. rewrite map_length, seq_length. intros j Hj.
            assert (Hq : (j < length (map (fun j => tk (w_heap w') (length (w_heap w0) + j)) (seq 0 (length (m_subs m)))))%nat) by (rewrite map_length, seq_length; auto).
            rewrite (nth_indep _ 0%nat (tk (w_heap w') (length (w_heap w0) + 0)) Hq).
            rewrite (map_nth (fun j => tk (w_heap w') (length (w_heap w0) + j))), seq_nth by auto. cbn [Nat.add]. unfold tk. rewrite Eh, get_app_r.
            destruct (nth_error (m_subs m) j) as [t|] eqn:Et; [|apply nth_error_None in Et; lia].
            rewrite (method_steps_get _ _ _ _ _ _ Et). cbn [ps_task method_step]. now rewrite (nth_error_nth _ _ _ Et). }
          rewrite X1, X2. exact TO'.
    - (* stability *)
      intros h e i i' n q (W & (s & tn & pi & R) & T & ET & A & NA & LA & TO) (W' & _) _.
      split; auto. split; [exists s, tn, pi; now apply Rep_ext|]. exists T. split; auto. exists A. split; auto.
      pose proof (r_lt _ _ _ _ _ _ R) as LT. split.
      + intros a. rewrite LA. symmetry. eapply live_ext; eauto.
      + replace (map (tk (h ++ e)) A) with (map (tk h) A); auto. apply map_ext_in. intros a Ha. unfold tk. rewrite get_app_l; auto.
        apply LA in Ha. eapply live_lt; eauto.
    - (* root *)
      intros w0 n E. destruct (init_rep P WP w0 n E) as (W & N & _). destruct N as (R & _).
      split; auto. split; [eauto|]. unfold init_node in E. inv_opt. subst. cbn [w_heap] in *.
      exists (ct_init P). split; auto. exists [0%nat]. split; [constructor; [intros []|constructor]|]. split.
      + intros a. split.
        * intros [<-|[]]. apply live_head. left; auto.
        * intros (r & Hr & Hp). cbn in Hr. destruct Hr as [<-|[]]. apply Relations.Operators_Properties.clos_rt_rt1n in Hp.
          inversion Hp as [|y z Ey]; subst; [left; auto|]. destruct Ey as (ps & G & I). cbn in G. injection G as <-. destruct I.
      + cbn [map tk get nth_error ps_task]. split.
        * cbn [ct_init map fst]. constructor; [intros ? []|constructor].
        * intros t c [[= <- <-]|[]]. lia.
        * intros z. cbn [ct_init val]. rewrite occ_cons. unfold occ. cbn [map count_occ]. lia.
  Qed.
End Contained.
