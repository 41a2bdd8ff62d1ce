(** Correctness of the graph algorithms of Scc_model. *)
From Verif Require Import Base Scc_spec Scc_model Tab_proof.
From Coq Require Import Sorted.

Lemma reach_trans G u v w : reach G u v -> reach G v w -> reach G u w.
Proof. induction 1; auto. intros. eapply reach_step; eauto. Qed.
Lemma reach_edge G u v : edge G u v -> reach G u v.
Proof. intros. eapply reach_step; eauto. constructor. Qed.
Lemma reach_snoc G u v w : reach G u v -> edge G v w -> reach G u w.
Proof. intros. eapply reach_trans; eauto using reach_edge. Qed.

(** A path out of a set that is left only into a closed set. *)
Lemma reach_closed G (A B : nat -> Prop) : (forall x y, A x -> edge G x y -> A y \/ B y) -> (forall x y, B x -> edge G x y -> B y) ->
  forall x y, reach G x y -> A x \/ B x -> A y \/ B y.
Proof. intros HA HB x y R. induction R; auto. intros [H1|H1]; apply IHR; eauto. Qed.
Lemma reach_closed1 G (B : nat -> Prop) : (forall x y, B x -> edge G x y -> B y) -> forall x y, reach G x y -> B x -> B y.
Proof. intros HB x y R. induction R; auto. intros H1. apply IHR; eauto. Qed.

Definition W (st : tstate) v := get (t_U st) v = Some true.
Definition NW (st : tstate) v := get (t_U st) v = Some false.
Definition dfs (st : tstate) v := nth v (t_dfs st) 0.
Definition low (st : tstate) v := nth v (t_low st) 0.
Definition asg (st : tstate) v k := get (t_scc st) v = Some (Some k).
Definition cw (st : tstate) := length (filter (fun b => b) (t_U st)).

Lemma nth_set {A} (l : list A) i x l' j d : set l i x = Some l' -> nth j l' d = if Nat.eqb j i then x else nth j l d.
Proof.
  intros E. assert (G := get_set_any _ _ _ _ j E). unfold get in G.
  destruct (Nat.eqb_spec j i) as [->|N].
  - apply nth_error_nth with (d := d) in G. exact G.
  - destruct (nth_error l j) eqn:E1.
    + apply nth_error_nth with (d := d) in G. apply nth_error_nth with (d := d) in E1. congruence.
    + apply nth_error_None in G. apply nth_error_None in E1. rewrite !nth_overflow; auto.
Qed.

Lemma get_nth_def {A} (l : list A) i d : i < length l -> get l i = Some (nth i l d).
Proof. intros. unfold get. now apply nth_error_nth'. Qed.

Lemma filter_set (l : list bool) i l' : get l i = Some true -> set l i false = Some l' ->
  length (filter (fun b => b) l) = S (length (filter (fun b => b) l')).
Proof.
  revert i l'. induction l as [|a l IH]; intros [|i] l' H E; cbn in *; try discriminate.
  - injection H as ->. injection E as <-. reflexivity.
  - inv_opt. subst. cbn. destruct a; cbn; rewrite (IH _ _ H E0); reflexivity.
Qed.

Lemma filter_length_le' {A} (f : A -> bool) l : length (filter f l) <= length l.
Proof. induction l; cbn; auto. destruct (f a); cbn; lia. Qed.

Lemma sorted_ext (f g : nat -> nat) l : (forall x, In x l -> g x = f x) -> StronglySorted (fun x y => f y < f x) l ->
  StronglySorted (fun x y => g y < g x) l.
Proof.
  intros E H. induction H as [|a l H IH F]; constructor.
  - apply IH. intros; apply E; now right.
  - rewrite Forall_forall in *. intros y Hy. rewrite !E; auto; cbn; auto.
Qed.

Section Tarjan.
  Variable G : graph.
  Hypothesis WF : graph_wf G.
  Notation edge := (edge G).
  Notation reach := (reach G).

  Record Inv (st : tstate) (gs : list nat) : Prop := {
    i_len : length (t_U st) = length G /\ length (t_inS st) = length G /\ length (t_dfs st) = length G /\
            length (t_low st) = length G /\ length (t_scc st) = length G;
    i_in : forall v, get (t_inS st) v = Some true <-> In v (t_S st);
    i_sort : StronglySorted (fun x y => dfs st y < dfs st x) (t_S st);
    i_max : forall v, In v (t_S st) -> dfs st v < t_max st;
    i_white : forall v, W st v -> ~ In v (t_S st) /\ forall k, ~ asg st v k;
    i_nonwhite : forall v, NW st v -> In v (t_S st) \/ exists k, asg st v k;
    i_excl : forall v k, In v (t_S st) -> asg st v k -> False;
    i_gs : incl gs (t_S st);
    i_black : forall v w, NW st v -> ~ In v gs -> edge v w -> NW st w;
    i_num : forall v k, asg st v k -> k < t_num st;
    i_asg : forall v w k, asg st v k -> edge v w -> exists k', asg st w k' /\ k' <= k;
    i_same : forall u v k k', asg st u k -> asg st v k' -> (k = k' <-> mutual G u v);
    i_used : forall k, k < t_num st -> exists v, asg st v k;
    i_gray : forall y, In y (t_S st) -> exists g, In g gs /\ dfs st g <= dfs st y /\ reach y g;
    i_path : forall x y, In x (t_S st) -> In y (t_S st) -> dfs st x <= dfs st y -> reach x y
  }.

  Lemma inv_dec st gs v : Inv st gs -> v < length G -> W st v \/ NW st v.
  Proof using.
    intros I L. destruct (i_len _ _ I) as (LU & _). unfold W, NW.
    destruct (get_some (t_U st) v) as ([] & E); [lia|auto|auto].
  Qed.
  Lemma inv_S_nw st gs v : Inv st gs -> In v (t_S st) -> v < length G /\ NW st v.
  Proof using.
    intros I L. assert (LV : v < length G).
    { apply (i_in _ _ I) in L. apply get_lt in L. destruct (i_len _ _ I) as (_ & E & _). lia. }
    split; auto. destruct (inv_dec st gs v I LV) as [H|H]; auto. now apply (i_white _ _ I) in H as [H _].
  Qed.
  Lemma inv_asg_nw st gs v k : Inv st gs -> asg st v k -> v < length G /\ NW st v.
  Proof using.
    intros I L. assert (LV : v < length G).
    { apply get_lt in L. destruct (i_len _ _ I) as (_ & _ & _ & _ & E). lia. }
    split; auto. destruct (inv_dec st gs v I LV) as [H|H]; auto. apply (i_white _ _ I) in H as [_ H]. now apply H in L.
  Qed.
  Lemma W_NW st v : W st v -> NW st v -> False.
  Proof using. unfold W, NW. congruence. Qed.

  Lemma sorted_nodup st gs : Inv st gs -> NoDup (t_S st).
  Proof using.
    intros I. assert (H := i_sort _ _ I). induction H; constructor; auto.
    intros X. rewrite Forall_forall in H0. apply H0 in X. lia.
  Qed.
  Lemma sorted_split st gs A B x y : Inv st gs -> t_S st = A ++ B -> In x A -> In y B -> dfs st y < dfs st x.
  Proof using.
    intros I E HA HB. assert (H := i_sort _ _ I). rewrite E in H. clear E. induction A as [|a A IH]; [easy|].
    cbn in H. inversion H as [|? ? H1 H2]; subst. destruct HA as [->|HA].
    - rewrite Forall_forall in H2. apply H2. apply in_or_app; auto.
    - apply IH; auto.
  Qed.

  Record Ext (v0 : nat) (st st' : tstate) : Prop := {
    e_nw : forall v, NW st v -> NW st' v;
    e_w : forall v, W st' v -> W st v;
    e_new : forall v, NW st' v -> NW st v \/ reach v0 v;
    e_dfs : forall v, NW st v -> dfs st' v = dfs st v;
    e_low : forall v, NW st v -> low st' v = low st v;
    e_asg : forall v k, asg st v k -> asg st' v k;
    e_max : t_max st <= t_max st';
    e_cw : cw st' <= cw st;
    e_S : exists S2, t_S st' = S2 ++ t_S st /\ forall x, In x S2 -> W st x
  }.

  Definition post v (st st' : tstate) : Prop :=
    NW st' v /\ low st' v <= dfs st' v /\ t_max st <= dfs st' v /\
    (In v (t_S st') -> exists y, In y (t_S st) /\ low st' v = dfs st' y /\ reach v y) /\
    (~ In v (t_S st') -> low st' v = dfs st' v /\ t_S st' = t_S st) /\
    (forall S2 x y, t_S st' = S2 ++ t_S st -> In x S2 -> In y (t_S st) -> edge x y -> low st' v <= dfs st' y).

  (** The loop over the successors of [v]; [P] the processed ones, [st0] the state at entry,
      [b] a lower bound of the numbers of the older stack vertices that are successors of new ones. *)
  Record LInv (st0 : tstate) gs v (P : list nat) (b : nat) (st : tstate) : Prop := {
    l_inv : Inv st (v :: gs);
    l_nw : forall x, NW st0 x -> NW st x;
    l_w : forall x, W st x -> W st0 x;
    l_new : forall x, NW st x -> NW st0 x \/ reach v x;
    l_dfs : forall x, NW st0 x -> dfs st x = dfs st0 x;
    l_low : forall x, NW st0 x -> low st x = low st0 x;
    l_asg : forall x k, asg st0 x k -> asg st x k;
    l_max : t_max st0 <= t_max st;
    l_cw : S (cw st) <= cw st0;
    l_S : exists S2, t_S st = S2 ++ v :: t_S st0 /\ (forall x, In x S2 -> W st0 x) /\
          (forall x y, In x S2 -> In y (t_S st0) -> edge x y -> b <= dfs st y);
    l_v : t_max st0 <= dfs st v;
    l_le : low st v <= dfs st v;
    l_wit : exists y, In y (v :: t_S st0) /\ low st v = dfs st y /\ reach v y;
    l_done : forall w, In w P -> NW st w /\ (In w (t_S st0) -> b <= dfs st w)
  }.

  Lemma enter_ok st gs v : Inv st gs -> W st v -> (forall g, In g gs -> reach g v) ->
    exists st1, t_enter st v = Some st1 /\ LInv st gs v [] (low st1 v) st1.
  Proof.
    intros I HW HG. destruct (i_len _ _ I) as (LU & LI & LD & LL & LC).
    assert (LV : v < length G) by (apply get_lt in HW; lia).
    unfold t_enter. destruct (set_some (t_dfs st) v (t_max st)) as (d & Ed); [lia|]. rewrite Ed. cbn.
    destruct (set_some (t_low st) v (t_max st)) as (l & El); [lia|]. rewrite El. cbn.
    destruct (set_some (t_inS st) v true) as (i & Ei); [lia|]. rewrite Ei. cbn.
    destruct (set_some (t_U st) v false) as (u & Eu); [lia|]. rewrite Eu. cbn.
    eexists. split; [reflexivity|].
    set (st1 := {| t_max := _ |}).
    destruct (i_white _ _ I v HW) as [NS NA].
    assert (Dx : forall x, dfs st1 x = if Nat.eqb x v then t_max st else dfs st x).
    { intros x. unfold dfs. cbn. now apply nth_set. }
    assert (Lx : forall x, low st1 x = if Nat.eqb x v then t_max st else low st x).
    { intros x. unfold low. cbn. now apply nth_set. }
    assert (NVd : forall x, x <> v -> dfs st1 x = dfs st x).
    { intros x N. rewrite Dx. apply Nat.eqb_neq in N. now rewrite N. }
    assert (Vd : dfs st1 v = t_max st). { now rewrite Dx, Nat.eqb_refl. }
    assert (SN : forall x, In x (t_S st) -> x <> v) by (intros x H ->; auto).
    assert (NWx : forall x, NW st1 x <-> NW st x \/ x = v).
    { intros x. unfold NW. cbn. rewrite (get_set_any _ _ _ _ x Eu). destruct (Nat.eqb_spec x v); [|tauto]. subst. tauto. }
    assert (Wx : forall x, W st1 x -> W st x /\ x <> v).
    { intros x. unfold W. cbn. rewrite (get_set_any _ _ _ _ x Eu). destruct (Nat.eqb_spec x v); [discriminate|auto]. }
    assert (NV : forall x, NW st x -> x <> v). { intros x H ->. eapply W_NW; eauto. }
    split.
    - split; cbn [t_U t_inS t_dfs t_low t_scc t_S t_max t_num st1].
      + rewrite (set_length _ _ _ _ Ed), (set_length _ _ _ _ El), (set_length _ _ _ _ Ei), (set_length _ _ _ _ Eu). auto.
      + intros x. rewrite (get_set_any _ _ _ _ x Ei). destruct (Nat.eqb_spec x v) as [->|N]; [cbn; tauto|].
        rewrite (i_in _ _ I). cbn. split; auto. intros [H|H]; [congruence|auto].
      + constructor.
        * apply sorted_ext with (dfs st); auto. apply (i_sort _ _ I).
        * rewrite Forall_forall. intros x Hx. rewrite Vd, NVd by auto. now apply (i_max _ _ I).
      + intros x [<-|H]; [rewrite Vd; lia|]. rewrite NVd by auto. apply (i_max _ _ I) in H. lia.
      + intros x H. apply Wx in H as [H N]. destruct (i_white _ _ I x H) as [H1 H2]. split; auto. intros [H3|H3]; auto.
      + intros x H. apply NWx in H as [H|H]; [|subst; left; now left].
        destruct (i_nonwhite _ _ I x H) as [H1|H1]; [left; now right|now right].
      + intros x k [H|H] A; [subst; eapply NA; eauto|eapply (i_excl _ _ I); eauto].
      + intros x [H|H]; [subst; now left|right; now apply (i_gs _ _ I)].
      + intros x w H1 H2 E. apply NWx. left. apply NWx in H1 as [H1|H1]; [|subst; exfalso; apply H2; now left].
        eapply (i_black _ _ I); eauto. intros H3. apply H2. now right.
      + intros x k A. now apply (i_num _ _ I x).
      + apply (i_asg _ _ I).
      + apply (i_same _ _ I).
      + apply (i_used _ _ I).
      + intros y [<-|H].
        * exists v. split; [now left|]. split; [lia|constructor].
        * destruct (i_gray _ _ I y H) as (g & H1 & H2 & H3). exists g. split; [now right|]. split; auto.
          rewrite !NVd; auto. apply SN. now apply (i_gs _ _ I).
      + intros x y [<-|Hx] [<-|Hy] L.
        * constructor.
        * rewrite Vd, NVd in L by auto. apply (i_max _ _ I) in Hy. lia.
        * destruct (i_gray _ _ I x Hx) as (g & H1 & H2 & H3). eapply reach_trans; eauto.
        * rewrite !NVd in L by auto. now apply (i_path _ _ I).
    - intros. apply NWx. auto.
    - intros x H. now apply Wx.
    - intros x H. apply NWx in H as [H|H]; [auto|]. subst. right. constructor.
    - auto.
    - intros x H. rewrite Lx. destruct (Nat.eqb_spec x v); auto. subst. exfalso; eapply NV; eauto.
    - auto.
    - cbn. lia.
    - unfold cw. cbn. rewrite (filter_set _ _ _ HW Eu). lia.
    - exists []. split; [reflexivity|]. split; intros; easy.
    - lia.
    - rewrite Dx, Lx, Nat.eqb_refl. lia.
    - exists v. split; [now left|]. split; [|constructor]. now rewrite Dx, Lx, Nat.eqb_refl.
    - intros w [].
  Qed.

  (** Lowering the low value of [v] to that of a vertex on the stack reachable from it. *)
  Lemma lower_ok st0 gs v P st x : LInv st0 gs v P (Nat.min (low st v) x) st -> W st0 v ->
    (x < low st v -> exists y, In y (t_S st0) /\ x = dfs st y /\ reach v y) ->
    exists st', t_lower st v x = Some st' /\ LInv st0 gs v P (low st' v) st'.
  Proof using.
    intros L WV HX. destruct (i_len _ _ (l_inv _ _ _ _ _ _ L)) as (LU & LI & LD & LL & LC).
    assert (VS : In v (t_S st)) by (apply (i_gs _ _ (l_inv _ _ _ _ _ _ L)); now left).
    destruct (inv_S_nw _ _ _ (l_inv _ _ _ _ _ _ L) VS) as [LV NV].
    unfold t_lower. rewrite (get_nth_def _ _ 0) by lia. cbn [obind]. fold (low st v).
    destruct (Nat.ltb_spec x (low st v)) as [Hx|Hx].
    - destruct (set_some (t_low st) v x) as (l & El); [lia|]. rewrite El. cbn [obind]. eexists. split; [reflexivity|].
      set (st1 := {| t_max := _ |}).
      assert (Lx : forall z, low st1 z = if Nat.eqb z v then x else low st z).
      { intros z. unfold low. cbn. now apply nth_set. }
      assert (Lv : low st1 v = x). { now rewrite Lx, Nat.eqb_refl. }
      replace (Nat.min (low st v) x) with x in L by lia. rewrite Lv.
      destruct L as [L1 L2 L2' L3 L4 L5 L6 L7 L8 L9 L10 L11 L12 L13].
      split; auto.
      + destruct L1. split; cbn [t_U t_inS t_dfs t_low t_scc t_S t_max t_num st1]; auto.
        now rewrite (set_length _ _ _ _ El).
      + intros z H. rewrite Lx. destruct (Nat.eqb_spec z v); auto. subst. exfalso. eapply W_NW; eauto.
      + rewrite Lv. change (dfs st1 v) with (dfs st v). lia.
      + destruct (HX Hx) as (y & H1 & H2 & H3). exists y. split; [now right|]. rewrite Lv. auto.
    - exists st. split; [reflexivity|]. now replace (Nat.min (low st v) x) with (low st v) in L by lia.
  Qed.

  Lemma loop_rec st0 gs v P st w st' : LInv st0 gs v P (low st v) st -> Inv st0 gs -> W st0 v -> edge v w -> W st w ->
    Inv st' (v :: gs) -> Ext w st st' -> post w st st' ->
    exists st2, (lw <- get (t_low st') w ;; t_lower st' v lw) = Some st2 /\ LInv st0 gs v (P ++ [w]) (low st2 v) st2.
  Proof.
    intros L I0 WV HE WW I' X (P1 & P2 & P3 & P4 & P5 & P6).
    assert (I := l_inv _ _ _ _ _ _ L).
    destruct (i_len _ _ I') as (LU & LI & LD & LL & LC).
    assert (LW : w < length G). { apply WF with v. auto. }
    rewrite (get_nth_def _ _ 0) by lia. cbn. fold (low st' w).
    assert (VS : In v (t_S st)) by (apply (i_gs _ _ I); now left).
    destruct (inv_S_nw _ _ _ I VS) as [LV NV].
    assert (Dv : dfs st' v = dfs st v) by (apply (e_dfs _ _ _ X); auto).
    assert (Lv : low st' v = low st v) by (apply (e_low _ _ _ X); auto).
    destruct (l_S _ _ _ _ _ _ L) as (S2 & ES & S2W & S2E).
    destruct (e_S _ _ _ X) as (S3 & ES' & S3W).
    assert (MV : dfs st v < t_max st) by (apply (i_max _ _ I); auto).
    assert (S0 : forall y, In y (t_S st0) -> NW st0 y /\ NW st y /\ In y (t_S st) /\ dfs st' y = dfs st y).
    { intros y Hy. destruct (inv_S_nw _ _ _ I0 Hy) as [_ Hn]. split; auto.
      assert (Hn2 : NW st y) by (apply (l_nw _ _ _ _ _ _ L); auto). split; auto. split.
      - rewrite ES. apply in_or_app. right. now right.
      - now apply (e_dfs _ _ _ X). }
    assert (N0 : forall y, NW st0 y -> NW st y) by (intros; apply (l_nw _ _ _ _ _ _ L); auto).
    apply lower_ok; auto.
    - split; auto.
      + intros x H. apply (e_nw _ _ _ X). auto.
      + intros x H. apply (l_w _ _ _ _ _ _ L). now apply (e_w _ _ _ X).
      + intros x H. apply (e_new _ _ _ X) in H as [H|H]; [now apply (l_new _ _ _ _ _ _ L)|].
        right. eapply reach_step; eauto.
      + intros x H. rewrite (e_dfs _ _ _ X) by auto. now apply (l_dfs _ _ _ _ _ _ L).
      + intros x H. rewrite (e_low _ _ _ X) by auto. now apply (l_low _ _ _ _ _ _ L).
      + intros x k H. apply (e_asg _ _ _ X). now apply (l_asg _ _ _ _ _ _ L).
      + assert (H1 := e_max _ _ _ X). assert (H2 := l_max _ _ _ _ _ _ L). lia.
      + assert (H1 := e_cw _ _ _ X). assert (H2 := l_cw _ _ _ _ _ _ L). lia.
      + exists (S3 ++ S2). split; [rewrite ES', ES; now rewrite app_assoc|]. split.
        * intros x H. apply in_app_or in H as [H|H]; auto. apply (l_w _ _ _ _ _ _ L). auto.
        * intros x y H Hy E. destruct (S0 y Hy) as (_ & _ & Hy2 & Ey). apply in_app_or in H as [H|H].
          -- assert (Q := P6 S3 x y ES' H Hy2 E). lia.
          -- rewrite Ey. assert (Q := S2E x y H Hy E). lia.
      + rewrite Dv. apply (l_v _ _ _ _ _ _ L).
      + rewrite Dv, Lv. apply (l_le _ _ _ _ _ _ L).
      + destruct (l_wit _ _ _ _ _ _ L) as (y & H1 & H2 & H3). exists y. split; auto. split; auto.
        rewrite Lv, H2. symmetry. apply (e_dfs _ _ _ X). destruct H1 as [<-|H1]; auto. now apply S0.
      + intros z H. apply in_app_or in H as [H|[<-|[]]].
        * destruct (l_done _ _ _ _ _ _ L z H) as [H1 H2]. split; [now apply (e_nw _ _ _ X)|]. intros H3.
          destruct (S0 z H3) as (_ & _ & _ & ->). specialize (H2 H3). lia.
        * split; auto. intros H. destruct (S0 _ H) as (_ & H1 & _). exfalso. eapply W_NW; eauto.
    - intros Hlt. destruct (In_dec Nat.eq_dec w (t_S st')) as [Hin|Hin].
      + destruct (P4 Hin) as (y & H1 & H2 & H3). exists y. split; [|split; auto; eapply reach_step; eauto].
        assert (HL := l_le _ _ _ _ _ _ L). rewrite ES in H1. apply in_app_or in H1 as [H1|[<-|H1]]; auto.
        * exfalso. assert (Q := sorted_split st _ S2 (v :: t_S st0) y v I ES H1 (or_introl eq_refl)).
          assert (dfs st' y = dfs st y); [|lia]. apply (e_dfs _ _ _ X).
          apply (inv_S_nw _ _ _ I). rewrite ES. apply in_or_app; auto.
        * exfalso. lia.
      + destruct (P5 Hin) as [H1 H2]. assert (HL := l_le _ _ _ _ _ _ L). exfalso. lia.
  Qed.

  Lemma loop_nonwhite st0 gs v P st w : LInv st0 gs v P (low st v) st -> Inv st0 gs -> W st0 v -> edge v w -> NW st w ->
    exists st2, (i <- get (t_inS st) w ;; if (i : bool) then d <- get (t_dfs st) w ;; t_lower st v d else Some st) = Some st2 /\
      LInv st0 gs v (P ++ [w]) (low st2 v) st2.
  Proof.
    intros L I0 WV HE WW.
    assert (I := l_inv _ _ _ _ _ _ L).
    destruct (i_len _ _ I) as (LU & LI & LD & LL & LC).
    assert (LW : w < length G). { apply WF with v. auto. }
    destruct (get_some (t_inS st) w) as (b & Eb); [lia|]. rewrite Eb. cbn [obind].
    destruct (l_S _ _ _ _ _ _ L) as (S2 & ES & S2W & S2E).
    assert (S0 : forall y, In y (t_S st0) -> In y (t_S st)). { intros. rewrite ES. apply in_or_app. right. now right. }
    destruct b.
    - apply (i_in _ _ I) in Eb. rewrite (get_nth_def _ _ 0) by lia. cbn. fold (dfs st w). apply lower_ok; auto.
      + destruct L as [L1 L2 L2' L3 L4 L5 L6 L7 L8 L9 L10 L11 L12 L13]. split; auto.
        * exists S2. split; auto. split; auto. intros x y Hx Hy E. assert (Q := S2E x y Hx Hy E). lia.
        * intros z H. apply in_app_or in H as [H|[<-|[]]].
          -- destruct (L13 z H) as [H1 H2]. split; auto. intros H3. specialize (H2 H3). lia.
          -- split; auto. intros. lia.
      + intros Hlt. assert (HL := l_le _ _ _ _ _ _ L). exists w. split; [|split; auto using reach_edge].
        rewrite ES in Eb. apply in_app_or in Eb as [H1|[<-|H1]]; auto; exfalso.
        * assert (Q := sorted_split st _ S2 (v :: t_S st0) w v I ES H1 (or_introl eq_refl)). lia.
        * lia.
    - exists st. split; auto. destruct L as [L1 L2 L2' L3 L4 L5 L6 L7 L8 L9 L10 L11 L12 L13]. split; auto.
      intros z H. apply in_app_or in H as [H|[<-|[]]]; auto. split; auto. intros H. apply S0 in H. apply (i_in _ _ I) in H. congruence.
  Qed.

  Lemma pop_ok v num S0 : forall S2 inS scc, NoDup (S2 ++ v :: S0) -> (forall x, In x (S2 ++ [v]) -> x < length inS /\ x < length scc) ->
    exists i c, t_pop v num (S2 ++ v :: S0) inS scc = Some (S0, i, c) /\ length i = length inS /\ length c = length scc /\
      (forall x, get i x = if memb x (S2 ++ [v]) then Some false else get inS x) /\
      (forall x, get c x = if memb x (S2 ++ [v]) then Some (Some num) else get scc x).
  Proof using.
    induction S2 as [|a S2 IH]; intros inS scc ND LT.
    - cbn. destruct (LT v) as [L1 L2]; [now left|]. destruct (set_some inS v false) as (i & Ei); auto. rewrite Ei. cbn.
      destruct (set_some scc v (Some num)) as (c & Ec); auto. rewrite Ec. cbn. rewrite Nat.eqb_refl. exists i, c.
      split; auto. split; [now apply set_length in Ei|]. split; [now apply set_length in Ec|]. split; intros x.
      + rewrite (get_set_any _ _ _ _ x Ei). now destruct (Nat.eqb x v).
      + rewrite (get_set_any _ _ _ _ x Ec). now destruct (Nat.eqb x v).
    - cbn. destruct (LT a) as [L1 L2]; [now left|]. destruct (set_some inS a false) as (i & Ei); auto. rewrite Ei. cbn.
      destruct (set_some scc a (Some num)) as (c & Ec); auto. rewrite Ec. cbn.
      assert (Li := set_length _ _ _ _ Ei). assert (Lc := set_length _ _ _ _ Ec).
      cbn in ND. inversion ND as [|? ? ND1 ND2]; subst.
      destruct (Nat.eqb_spec a v) as [->|N]; [exfalso; apply ND1; apply in_or_app; right; now left|].
      destruct (IH i c ND2) as (i' & c' & E & H1 & H2 & H3 & H4).
      { intros x Hx. rewrite Li, Lc. apply LT. now right. }
      exists i', c'. split; auto. split; [lia|]. split; [lia|]. split; intros x.
      + rewrite H3. rewrite (get_set_any _ _ _ _ x Ei). cbn. fold (memb x (S2 ++ [v])).
        destruct (Nat.eqb x a), (memb x (S2 ++ [v])); auto.
      + rewrite H4. rewrite (get_set_any _ _ _ _ x Ec). cbn. fold (memb x (S2 ++ [v])).
        destruct (Nat.eqb x a), (memb x (S2 ++ [v])); auto.
  Qed.

  Lemma leave_ok st0 gs v P st : LInv st0 gs v P (low st v) st -> Inv st0 gs -> W st0 v -> (forall w, edge v w -> In w P) ->
    exists st', t_leave st v = Some st' /\ Inv st' gs /\ Ext v st0 st' /\ post v st0 st'.
  Proof.
    intros L I0 WV HP. assert (I := l_inv _ _ _ _ _ _ L).
    destruct (i_len _ _ I) as (LU & LI & LD & LL & LC).
    destruct L as [_ L2 L2' L3 L4 L5 L6 L7 L8 L9 L10 L11 L12 L13].
    destruct L9 as (S2 & ES & S2W & S2E).
    assert (VS : In v (t_S st)) by (apply (i_gs _ _ I); now left).
    destruct (inv_S_nw _ _ _ I VS) as [LV NV].
    assert (S0 : forall y, In y (t_S st0) -> In y (t_S st)). { intros. rewrite ES. apply in_or_app. right. now right. }
    assert (S20 : forall y, In y (t_S st) <-> In y (S2 ++ [v]) \/ In y (t_S st0)).
    { intros y. rewrite ES. rewrite !in_app_iff. cbn. tauto. }
    assert (ND := sorted_nodup _ _ I).
    assert (Vin : In v (S2 ++ [v])) by (apply in_or_app; right; now left).
    assert (Dlt : forall x y, In x (S2 ++ [v]) -> In y (t_S st0) -> dfs st y < dfs st x).
    { intros x y Hx Hy. apply (sorted_split st _ (S2 ++ [v]) (t_S st0) _ _ I); auto. rewrite ES. now rewrite <- app_assoc. }
    assert (Vlt : forall x, In x (S2 ++ [v]) -> dfs st v <= dfs st x).
    { intros x Hx. apply in_app_or in Hx as [Hx|[<-|[]]]; auto.
      assert (Q := sorted_split st _ S2 (v :: t_S st0) x v I ES Hx (or_introl eq_refl)). lia. }
    assert (NB : forall x y, In x (S2 ++ [v]) -> edge x y -> NW st y).
    { intros x y Hx E. destruct (Nat.eq_dec x v) as [->|N].
      - apply HP in E. now apply L13 in E.
      - apply (i_black _ _ I) with x; auto.
        + apply (inv_S_nw _ _ _ I). apply S20; auto.
        + intros [H|H]; [congruence|]. apply in_app_or in Hx as [Hx|[Hx|[]]]; [|congruence].
          apply (i_gs _ _ I0) in H. apply S2W in Hx. destruct (i_white _ _ I0 x Hx). auto. }
    assert (NE : forall x y, In x (S2 ++ [v]) -> In y (t_S st0) -> edge x y -> low st v <= dfs st y).
    { intros x y Hx Hy E. apply in_app_or in Hx as [Hx|[<-|[]]]; [eauto|]. now apply L13; auto. }
    assert (GS : forall g, In g gs -> In g (t_S st0)) by (intros; now apply (i_gs _ _ I0)).
    unfold t_leave. rewrite (get_nth_def (t_low st) _ 0), (get_nth_def (t_dfs st) _ 0) by lia. cbn. fold (dfs st v). fold (low st v).
    destruct (Nat.eqb_spec (low st v) (dfs st v)) as [EQ|NEQ].
    - destruct (pop_ok v (t_num st) (t_S st0) S2 (t_inS st) (t_scc st)) as (i & c & E & Li & Lc & Gi & Gc).
      { now rewrite <- ES. }
      { intros x Hx. rewrite LI, LC. assert (x < length G); [|lia]. apply (inv_S_nw st (v :: gs)); auto. apply S20; auto. }
      rewrite ES, E. cbn. eexists. split; [reflexivity|]. set (st' := {| t_max := _ |}).
      (* closedness of the component *)
      assert (CL : forall x y, In x (S2 ++ [v]) -> edge x y -> In y (S2 ++ [v]) \/ exists k, asg st y k).
      { intros x y Hx Ex. assert (H := NB x y Hx Ex). apply (i_nonwhite _ _ I) in H as [H|H]; auto.
        apply S20 in H as [H|H]; auto. exfalso. assert (Q := NE x y Hx H Ex).
        assert (Q2 := Dlt v y Vin H). lia. }
      assert (AC : forall x y, (exists k, asg st x k) -> edge x y -> exists k, asg st y k).
      { intros x y (k & A) Ex. destruct (i_asg _ _ I x y k A Ex) as (k' & A' & _). eauto. }
      assert (RV : forall x, In x (S2 ++ [v]) -> reach x v).
      { intros x Hx. destruct (i_gray _ _ I x) as (g & Hg & _ & R); [apply S20; auto|].
        destruct Hg as [<-|Hg]; auto. exfalso.
        destruct (reach_closed G (fun z => In z (S2 ++ [v])) (fun z => exists k, asg st z k) CL AC x g R (or_introl Hx)) as [H|(k & H)].
        - apply GS in Hg. assert (Q := Dlt g g H Hg). lia.
        - eapply (i_excl _ _ I g); eauto. }
      assert (RF : forall x, In x (S2 ++ [v]) -> reach v x).
      { intros x Hx. apply (i_path _ _ I); auto. apply S20; auto. }
      assert (Ax : forall x k, asg st' x k <-> (In x (S2 ++ [v]) /\ k = t_num st) \/ asg st x k).
      { intros x k. unfold asg. cbn. rewrite Gc. destruct (memb x (S2 ++ [v])) eqn:M.
        - apply memb_In in M. split; [intros [= <-]; auto|]. intros [[_ ->]|H]; auto.
          exfalso. eapply (i_excl _ _ I x); eauto. apply S20; auto.
        - apply memb_false in M. tauto. }
      assert (Mix : forall x y k, In x (S2 ++ [v]) -> asg st y k -> reach y x -> False).
      { intros x y k Hx A R. apply reach_closed1 with (B := fun z => exists k, asg st z k) in R; eauto.
        destruct R as (k' & A'). eapply (i_excl _ _ I x); eauto. apply S20; auto. }
      split; [|split].
      + split; cbn [t_U t_inS t_dfs t_low t_scc t_S t_max t_num st'].
        * rewrite Li, Lc. auto.
        * intros x. rewrite Gi. destruct (memb x (S2 ++ [v])) eqn:M.
          -- apply memb_In in M. split; [discriminate|]. intros H. exfalso. assert (Q := Dlt x x M H). lia.
          -- apply memb_false in M. rewrite (i_in _ _ I), S20. tauto.
        * apply sorted_ext with (dfs st); auto. assert (H := i_sort _ _ I). rewrite ES in H. clear -H.
          induction S2 as [|a S2 IH]; cbn in H; inversion H; subst; auto.
        * intros x H. apply (i_max _ _ I). auto.
        * intros x H. assert (Hs : ~ In x (t_S st)) by (apply (i_white _ _ I); auto). split; auto.
          intros k A. apply Ax in A as [[A _]|A]; [apply Hs; apply S20; auto|]. apply (i_white _ _ I x) in A; auto.
        * intros x H. apply (i_nonwhite _ _ I) in H as [H|(k & H)].
          -- apply S20 in H as [H|H]; auto. right. exists (t_num st). apply Ax; auto.
          -- right. exists k. apply Ax; auto.
        * intros x k H A. apply Ax in A as [[A _]|A]; [assert (Q := Dlt x x A H); lia|]. eapply (i_excl _ _ I x); eauto.
        * intros g Hg. auto.
        * intros x y H1 H2 E1. destruct (Nat.eq_dec x v) as [->|N]; [apply (NB v); auto|].
          apply (i_black _ _ I x y); auto. intros [H|H]; auto.
        * intros x k A. apply Ax in A as [[_ ->]|A]; [lia|]. apply (i_num _ _ I) in A. lia.
        * intros x y k A E1. apply Ax in A as [[A ->]|A].
          -- destruct (CL x y A E1) as [H|(k & H)].
             ++ exists (t_num st). split; [apply Ax; auto|lia].
             ++ exists k. split; [apply Ax; auto|]. apply (i_num _ _ I) in H. lia.
          -- destruct (i_asg _ _ I x y k A E1) as (k' & A' & LE). exists k'. split; auto. apply Ax; auto.
        * intros x y k k' A A'. apply Ax in A as [[A ->]|A]; apply Ax in A' as [[A' ->]|A'].
          -- split; auto. intros _. split; eapply reach_trans; eauto.
          -- split.
             ++ intros <-. apply (i_num _ _ I) in A'. lia.
             ++ intros [_ R]. exfalso. eapply Mix; eauto.
          -- split.
             ++ intros ->. apply (i_num _ _ I) in A. lia.
             ++ intros [R _]. exfalso. eapply Mix; eauto.
          -- now apply (i_same _ _ I).
        * intros k Hk. destruct (Nat.eq_dec k (t_num st)) as [->|N].
          -- exists v. apply Ax; auto.
          -- destruct (i_used _ _ I k) as (x & A); [lia|]. exists x. apply Ax; auto.
        * intros y Hy. destruct (i_gray _ _ I y (S0 y Hy)) as (g & [<-|Hg] & H1 & H2).
          -- assert (Q := Dlt v y Vin Hy). lia.
          -- exists g. auto.
        * intros x y Hx Hy H. apply (i_path _ _ I); auto.
      + split; auto.
        * intros x k A. apply Ax. auto.
        * cbn. unfold cw in *. cbn. lia.
        * exists []. split; auto. intros x [].
      + split; auto. split; [exact L11|]. split; [exact L10|]. split; [|split].
        * intros H. exfalso. assert (Q := Dlt v v Vin H). lia.
        * intros _. split; auto.
        * intros S3 x y H Hx. exfalso. change (t_S st') with (t_S st0) in H. destruct S3 as [|a S3]; [easy|].
          apply (f_equal (@length nat)) in H. rewrite app_length in H. cbn in H. lia.
    - eexists. split; [reflexivity|].
      assert (LT : low st v < dfs st v) by lia.
      destruct L12 as (y0 & [H1|H1] & H2 & H3); [subst y0; lia|].
      destruct (i_gray _ _ I0 y0 H1) as (g0 & G1 & G2 & G3).
      assert (D0 : dfs st g0 <= dfs st y0).
      { rewrite !L4; auto; apply (inv_S_nw _ _ _ I0); auto. }
      assert (Vg : ~ In v gs). { intros H. apply GS in H. apply (i_white _ _ I0 v WV); auto. }
      split; [|split].
      + destruct I as [J1 J2 J3 J4 J5 J6 J7 J8 J9 J10 J11 J12 J13 J14 J15]. split; auto.
        * intros x H. apply J8. now right.
        * intros x y Hx Hy E. destruct (Nat.eq_dec x v) as [->|N]; [now apply (NB v)|]. apply (J9 x); auto. intros [H|H]; auto.
        * intros y Hy. destruct (J14 y Hy) as (g & [<-|Hg] & Q1 & Q2).
          -- exists g0. split; auto. split; [lia|]. eapply reach_trans; [exact Q2|]. eapply reach_trans; eauto.
          -- exists g. auto.
      + split; auto.
        * lia.
        * exists (S2 ++ [v]). split; [rewrite ES; now rewrite <- app_assoc|].
          intros x Hx. apply in_app_or in Hx as [Hx|[<-|[]]]; auto.
      + split; auto. split; [lia|]. split; [exact L10|]. split; [|split].
        * intros _. exists y0. auto.
        * intros H. contradiction.
        * intros S3 x y H Hx Hy E. assert (S3 = S2 ++ [v]).
          { apply app_inv_tail with (t_S st0). rewrite <- H, ES. now rewrite <- app_assoc. }
          subst S3. eauto.
  Qed.

  Lemma tarjan_ok : forall fuel st gs v, Inv st gs -> W st v -> (forall g, In g gs -> reach g v) -> cw st <= fuel ->
    exists st', tarjan G fuel st v = Some st' /\ Inv st' gs /\ Ext v st st' /\ post v st st'.
  Proof.
    induction fuel as [|fuel IH]; intros st gs v I HW HG HF.
    - exfalso. destruct (i_len _ _ I) as (LU & _). unfold W in HW. destruct (set_some (t_U st) v false) as (u & Eu).
      { now apply get_lt in HW. } unfold cw in HF. rewrite (filter_set _ _ _ HW Eu) in HF. lia.
    - cbn [tarjan]. destruct (enter_ok st gs v I HW HG) as (st1 & E1 & L1). rewrite E1. cbn [obind].
      assert (LV : v < length G). { apply get_lt in HW. destruct (i_len _ _ I). lia. }
      destruct (get_some G v LV) as (ns & En). rewrite En. cbn [obind].
      match goal with |- context [ofold ?f _ _] => set (F := f) end.
      destruct (ofold_prefix F (fun P st' => LInv st gs v P (low st' v) st') ns st1 L1) as (st2 & E2 & L2).
      { intros pre w post s' EQ L. assert (HE : edge v w). { exists ns. split; auto. rewrite EQ. apply in_or_app. right; now left. }
        assert (I' := l_inv _ _ _ _ _ _ L). unfold F.
        destruct (inv_dec s' _ w I' (WF _ _ HE)) as [H|H].
        - unfold W in H. rewrite H. cbn [obind].
          destruct (IH s' (v :: gs) w I' H) as (s2 & T1 & T2 & T3 & T4).
          { intros g [<-|Hg]; [now apply reach_edge|]. eapply reach_snoc; eauto. }
          { assert (Q := l_cw _ _ _ _ _ _ L). lia. }
          rewrite T1. cbn [obind]. eapply loop_rec; eauto.
        - unfold NW in H. rewrite H. cbn [obind]. eapply loop_nonwhite; eauto. }
      rewrite E2. cbn [obind]. eapply leave_ok; eauto.
      intros w (ns' & En' & Hw). unfold get in En. congruence.
  Qed.

  Lemma init_inv d l : length d = length G -> length l = length G -> Inv (t_init (length G) d l) [].
  Proof using.
    intros Ld Ll. assert (NA : forall v k, ~ asg (t_init (length G) d l) v k).
    { intros v k A. unfold asg in A. cbn in A. assert (v < length G) by (apply get_lt in A; rewrite repeat_length in A; auto).
      rewrite get_repeat in A by auto. discriminate. }
    assert (NN : forall v, ~ NW (t_init (length G) d l) v).
    { intros v A. unfold NW in A. cbn in A. assert (v < length G) by (apply get_lt in A; rewrite repeat_length in A; auto).
      rewrite get_repeat in A by auto. discriminate. }
    split; cbn; rewrite ?repeat_length; auto; try easy.
    - intros v. split; [|easy]. intros A. assert (v < length G) by (apply get_lt in A; rewrite repeat_length in A; auto).
      rewrite get_repeat in A by auto. discriminate.
    - constructor.
    - intros v H. exfalso; eapply NN; eauto.
    - intros v w H. exfalso; eapply NN; eauto.
    - intros v k H. exfalso; eapply NA; eauto.
    - intros v w k H. exfalso; eapply NA; eauto.
    - intros v w k k' H. exfalso; eapply NA; eauto.
  Qed.

  Lemma inv_components st dom : Inv st [] -> (forall v, dom v <-> NW st v) -> components G dom (t_scc st) (t_num st).
  Proof.
    intros I D.
    assert (NS : forall y, ~ In y (t_S st)). { intros y H. destruct (i_gray _ _ I y H) as (g & [] & _). }
    split; try apply I.
    - intros v. rewrite D. split.
      + intros H. apply (i_nonwhite _ _ I) in H as [H|H]; auto. exfalso; eapply NS; eauto.
      + intros (k & A). eapply inv_asg_nw; eauto.
  Qed.

  Theorem scc_from_ok v0 d l : v0 < length G -> length d = length G -> length l = length G ->
    exists st, scc_from G v0 d l = Some st /\ components G (reach v0) (t_scc st) (t_num st).
  Proof.
    intros L Ld Ll. assert (I0 := init_inv d l Ld Ll).
    destruct (tarjan_ok (length G) (t_init (length G) d l) [] v0 I0) as (st & E & I & X & Po).
    - unfold W. cbn. now apply get_repeat.
    - easy.
    - unfold cw. cbn. etransitivity; [apply filter_length_le'|]. now rewrite repeat_length.
    - exists st. split; auto. apply inv_components; auto. intros v. split.
      + intros R. apply reach_closed1 with (B := fun z => NW st z) in R; auto; [|apply Po].
        intros x y Hx E1. apply (i_black _ _ I x y); auto.
      + intros H. apply (e_new _ _ _ X) in H as [H|H]; auto. exfalso. unfold NW in H. cbn in H.
        assert (v < length G) by (apply get_lt in H; rewrite repeat_length in H; auto).
        rewrite get_repeat in H by auto. discriminate.
  Qed.

  Theorem scc_all_ok d l : length d = length G -> length l = length G ->
    exists st, scc_all G d l = Some st /\ components G (fun v => v < length G) (t_scc st) (t_num st).
  Proof.
    intros Ld Ll. assert (I0 := init_inv d l Ld Ll). unfold scc_all.
    match goal with |- context [ofold ?f _ _] => set (F := f) end.
    destruct (ofold_prefix F (fun P st => Inv st [] /\ cw st <= length G /\ forall v, In v P -> NW st v) (seq 0 (length G)) (t_init (length G) d l)) as (st & E & I & _ & H).
    - split; auto. split; [|easy]. unfold cw. cbn. etransitivity; [apply filter_length_le'|]. now rewrite repeat_length.
    - intros pre v post st EQ (I & C & H). assert (LV : v < length G).
      { assert (Hin : In v (seq 0 (length G))) by (rewrite EQ; apply in_or_app; right; now left). apply in_seq in Hin. lia. }
      unfold F. destruct (inv_dec st [] v I LV) as [Hw|Hw].
      + assert (Hw' := Hw). unfold W in Hw'. rewrite Hw'. cbn [obind].
        destruct (tarjan_ok (length G) st [] v I Hw) as (st' & E & I' & X & Po); [easy|auto|]. exists st'. split; auto. split; auto.
        split; [assert (Q := e_cw _ _ _ X); lia|]. intros w Hin. apply in_app_or in Hin as [Hin|[<-|[]]].
        * apply (e_nw _ _ _ X). auto.
        * apply Po.
      + assert (Hw' := Hw). unfold NW in Hw'. rewrite Hw'. cbn [obind]. exists st. split; auto. split; auto. split; auto.
        intros w Hin. apply in_app_or in Hin as [Hin|[<-|[]]]; auto.
    - exists st. split; auto. apply inv_components; auto. intros v. split.
      + intros L. apply H. apply in_seq. lia.
      + intros Hn. apply get_lt in Hn. destruct (i_len _ _ I). lia.
  Qed.
End Tarjan.

(** ** The breadth-first query *)
Section Bfs.
  Variable G : graph.
  Hypothesis WF : graph_wf G.
  Variables from to : list nat.
  Hypothesis FromLt : forall x, In x from -> x < length G.

  Definition marked (visi : list bool) v := get visi v = Some true.
  Definition unm (visi : list bool) := length (filter negb visi).

  Record BInv (visi : list bool) (q ex : list nat) : Prop := {
    b_len : length visi = length G;
    b_q : forall x, In x q -> In x from \/ marked visi x;
    b_cover : forall x, In x from \/ marked visi x -> In x q \/ In x ex;
    b_not : forall x, In x from \/ marked visi x -> ~ In x to;
    b_ex : forall x y, In x ex -> edge G x y -> marked visi y;
    b_reach : forall x, marked visi x -> exists r, In r from /\ reach G r x }.

  Lemma unm_set visi y visi' : get visi y = Some false -> set visi y true = Some visi' -> unm visi = S (unm visi').
  Proof using.
    unfold unm. revert y visi'. induction visi as [|a l IH]; intros [|y] visi' H E; cbn in *; try discriminate.
    - injection H as ->. injection E as <-. reflexivity.
    - inv_opt. subst. cbn. destruct a; cbn; rewrite (IH _ _ H E0); reflexivity.
  Qed.

  (** [v] is being expanded: [pre] of its successors are done. *)
  Record BInner (v : nat) (pre : list nat) (visi : list bool) (q ex : list nat) : Prop := {
    bi_len : length visi = length G;
    bi_q : forall x, In x q -> In x from \/ marked visi x;
    bi_cover : forall x, In x from \/ marked visi x -> In x q \/ In x ex \/ x = v;
    bi_not : forall x, In x from \/ marked visi x -> ~ In x to;
    bi_ex : forall x y, In x ex -> edge G x y -> marked visi y;
    bi_pre : forall y, In y pre -> marked visi y;
    bi_reach : forall x, marked visi x -> exists r, In r from /\ reach G r x }.

  Lemma inner_ok v ex : (exists r, In r from /\ reach G r v) -> forall ns pre visi q,
    (forall y, In y ns -> edge G v y) -> BInner v pre visi q ex ->
    (reach_inner to ns visi q = Some None /\ exists r t, In r from /\ In t to /\ reach G r t) \/
    exists visi' q', reach_inner to ns visi q = Some (Some (visi', q')) /\ BInner v (pre ++ ns) visi' q' ex /\
       length q' + unm visi' = length q + unm visi.
  Proof.
    intros (r0 & R0 & R1). induction ns as [|y ns IH]; intros pre visi q HN B.
    - right. exists visi, q. rewrite app_nil_r. cbn. auto.
    - cbn. assert (HE : edge G v y) by (apply HN; now left).
      assert (LY : y < length visi) by (rewrite (bi_len _ _ _ _ _ B); eapply WF; eauto).
      destruct (get_some visi y LY) as (b & Eb). rewrite Eb. cbn. destruct b.
      + destruct (IH (pre ++ [y]) visi q) as [H|H].
        * intros; apply HN; now right.
        * destruct B. split; auto. intros z Hz. apply in_app_or in Hz as [Hz|[<-|[]]]; auto.
        * auto.
        * right. destruct H as (v' & q' & H1 & H2 & H3). exists v', q'. rewrite <- app_assoc in H2. auto.
      + destruct (memb y to) eqn:M.
        * apply memb_In in M. left. split; auto. exists r0, y. split; auto. split; auto. eapply reach_snoc; eauto.
        * apply memb_false in M. destruct (set_some visi y true LY) as (visi' & Ev). rewrite Ev. cbn.
          assert (MK : forall z, marked visi' z <-> marked visi z \/ z = y).
          { intros z. unfold marked. rewrite (get_set_any _ _ _ _ z Ev). destruct (Nat.eqb_spec z y) as [->|]; tauto. }
          destruct (IH (pre ++ [y]) visi' (q ++ [y])) as [H|H].
          -- intros; apply HN; now right.
          -- destruct B as [B1 B2 B3 B4 B5 B6 B7]. split.
             ++ rewrite (set_length _ _ _ _ Ev). auto.
             ++ intros z Hz. rewrite MK. apply in_app_or in Hz as [Hz|[<-|[]]]; auto. apply B2 in Hz. tauto.
             ++ intros z Hz. rewrite MK in Hz. rewrite in_app_iff. cbn. destruct Hz as [Hz|[Hz|Hz]]; auto.
                ** destruct (B3 z) as [Q|[Q|Q]]; auto.
                ** destruct (B3 z) as [Q|[Q|Q]]; auto.
             ++ intros z Hz. rewrite MK in Hz. destruct Hz as [Hz|[Hz|Hz]]; auto. now subst.
             ++ intros a c Ha Hc. apply MK. left. eauto.
             ++ intros z Hz. apply MK. apply in_app_or in Hz as [Hz|[<-|[]]]; auto.
             ++ intros z Hz. apply MK in Hz as [Hz|Hz]; auto. subst. exists r0. split; auto. eapply reach_snoc; eauto.
          -- auto.
          -- right. destruct H as (v' & q' & H1 & H2 & H3). exists v', q'. rewrite <- app_assoc in H2. split; auto. split; auto.
             rewrite H3, app_length. cbn. rewrite (unm_set _ _ _ Eb Ev). lia.
  Qed.

  Lemma bfs_ok : forall fuel visi q ex, BInv visi q ex -> length q + unm visi < fuel ->
    exists b, reach_loop G to fuel visi q = Some b /\ (b = true <-> exists r t, In r from /\ In t to /\ reach G r t).
  Proof.
    induction fuel as [|fuel IH]; intros visi q ex B HF; [lia|]. cbn. destruct q as [|x q].
    - exists false. split; auto. split; [discriminate|]. intros (r & t & Hr & Ht & R). exfalso.
      assert (H : In t from \/ marked visi t).
      { apply reach_closed1 with (B := fun z => In z from \/ marked visi z) in R; auto.
        intros a c Ha E. right. destruct (b_cover _ _ _ B a Ha) as [[]|Hx]. eapply (b_ex _ _ _ B); eauto. }
      eapply (b_not _ _ _ B); eauto.
    - assert (HX : In x from \/ marked visi x) by (apply (b_q _ _ _ B); now left).
      assert (LX : x < length G). { destruct HX as [HX|HX]; auto. apply get_lt in HX. rewrite (b_len _ _ _ B) in HX. auto. }
      destruct (get_some G x LX) as (ns & En). rewrite En. cbn.
      destruct (inner_ok x ex) with (ns := ns) (pre := @nil nat) (visi := visi) (q := q) as [H|H].
      + destruct HX as [HX|HX]; [exists x; split; auto; constructor|]. now apply (b_reach _ _ _ B).
      + intros y Hy. exists ns. auto.
      + destruct B as [B1 B2 B3 B4 B5 B6]. split; auto.
        * intros z Hz. apply B2. now right.
        * intros z Hz. destruct (B3 z Hz) as [[->|Q]|Q]; auto.
        * easy.
      + destruct H as [-> H]. cbn. exists true. tauto.
      + destruct H as (visi' & q' & -> & B' & HL). cbn.
        apply IH with (ex := x :: ex).
        * destruct B' as [B1 B2 B3 B4 B5 B6 B7]. split; auto.
          -- intros z Hz. destruct (B3 z Hz) as [Q|[Q|Q]]; [auto|right; now right|right; now left].
          -- intros a c [<-|Ha] E; eauto. destruct E as (ns' & E1 & E2). apply B6. unfold get in En. cbn. congruence.
        * cbn in HF. lia.
  Qed.

  Theorem can_reach_any_of_ok :
    exists b, can_reach_any_of G from to = Some b /\ (b = true <-> exists r t, In r from /\ In t to /\ reach G r t).
  Proof.
    unfold can_reach_any_of. destruct (existsb _ from) eqn:Ex.
    - exists true. split; auto. split; auto. intros _. apply existsb_exists in Ex as (x & H1 & H2). apply memb_In in H2.
      exists x, x. split; auto. split; auto. constructor.
    - apply bfs_ok with (ex := []).
      + assert (NM : forall x, ~ marked (repeat false (length G)) x).
        { intros v A. unfold marked in A. assert (v < length G) by (apply get_lt in A; rewrite repeat_length in A; auto).
          rewrite get_repeat in A by auto. discriminate. }
        split; auto.
        * apply repeat_length.
        * intros x [H|H]; auto. exfalso; eapply NM; eauto.
        * intros x [H|H] HT; [|eapply NM; eauto]. assert (existsb (fun x => memb x to) from = true); [|congruence].
          apply existsb_exists. exists x. split; auto. now apply memb_In.
        * easy.
        * intros x H. exfalso; eapply NM; eauto.
      + unfold unm. assert (length (filter negb (repeat false (length G))) <= length G); [|lia].
        etransitivity; [apply filter_length_le'|]. now rewrite repeat_length.
  Qed.

  Theorem can_reach_directly_ok :
    exists b, can_reach_any_of_directly G from to = Some b /\
      (b = true <-> exists r t, In r from /\ In t to /\ (r = t \/ edge G r t)).
  Proof using FromLt.
    clear WF. induction from as [|x l IH]; cbn.
    - exists false. split; auto. split; [discriminate|]. intros (r & t & [] & _).
    - destruct (memb x to) eqn:M.
      { apply memb_In in M. exists true. split; auto. split; auto. intros _. exists x, x. auto. }
      apply memb_false in M. destruct (get_some G x) as (ns & En); [apply FromLt; now left|]. rewrite En. cbn.
      destruct (existsb _ ns) eqn:Ex.
      { apply existsb_exists in Ex as (y & H1 & H2). apply memb_In in H2. exists true. split; auto. split; auto. intros _.
        exists x, y. split; [now left|]. split; auto. right. exists ns. auto. }
      destruct IH as (b & Eb & Hb); [intros; apply FromLt; now right|]. exists b. split; auto. rewrite Hb. split.
      + intros (r & t & H1 & H2 & H3). exists r, t. split; [now right|]. auto.
      + intros (r & t & [<-|H1] & H2 & H3); [|exists r, t; auto]. exfalso. destruct H3 as [->|(ns' & E1 & E2)]; [auto|].
        assert (existsb (fun y => memb y to) ns = true); [|congruence]. apply existsb_exists. exists t. split; [|now apply memb_In].
        unfold get in En. congruence.
  Qed.
End Bfs.
