(** Proofs about Pgb_model: the values only grow, they are lower bounds, the loop ends. *)
From Verif Require Import Base Htn_problem Htn_model Htn_spec Htn_sem Tab_model Tab_thm Mix_model Mix_spec Mix_proof Sas_model Sas_spec Pgb_model Pgb_spec.
Local Open Scope Z_scope.

(** ** The value of a method *)
Definition upd (T : list Z) (t n off : nat) (a : Z) (ix : nat * nat) : Z :=
  Z.max (if Nat.eqb (snd ix) t then Z.max a (Z.of_nat n - 1 - Z.of_nat (fst ix) - Z.of_nat off) else a) (at0 T (snd ix) - Z.of_nat n + Z.of_nat (fst ix) + Z.of_nat off).
Definition mval (T : list Z) (t n off : nat) (l : list (nat * nat)) (a : Z) : Z := fold_left (upd T t n off) l a.
Definition places (s : list nat) (off : nat) : list (nat * nat) := combine (seq 0 (length s - off)) (firstn (length s - off) s).
Definition fval (T : list Z) (t : nat) (s : list nat) (off : nat) : Z := Z.max 1 (Z.of_nat (length s - off)) + mval T t (length s) off (places s off) 0.

Lemma max_if a k : (if a <? k then k else a) = Z.max a k.
Proof. destruct (Z.ltb_spec a k); lia. Qed.
Lemma sub_val_upd T t n off a ix : sub_val T t n off a ix = if Nat.ltb (snd ix) (length T) then Some (upd T t n off a ix) else None.
Proof.
  unfold sub_val, upd. destruct (Nat.ltb_spec (snd ix) (length T)) as [L|L].
  - rewrite (at0_get T) by auto. cbn [obind]. f_equal. destruct (Nat.eqb (snd ix) t).
    + rewrite !max_if. reflexivity.
    + rewrite max_if. reflexivity.
  - unfold get. rewrite (proj2 (nth_error_None T (snd ix))) by lia. reflexivity.
Qed.
Lemma sub_vals_ok T t n off l : (forall i x, In (i, x) l -> (x < length T)%nat) -> forall a, ofold (sub_val T t n off) l a = Some (mval T t n off l a).
Proof.
  induction l as [|[i x] l IH]; intros H a; cbn [ofold]; auto. rewrite sub_val_upd. cbn [snd]. rewrite (proj2 (Nat.ltb_lt _ _)) by (eapply H; left; reflexivity). cbn [obind]. apply IH. intros; eapply H; right; eauto.
Qed.
Lemma sub_vals_some T t n off l : forall a r, ofold (sub_val T t n off) l a = Some r -> r = mval T t n off l a.
Proof.
  induction l as [|[i x] l IH]; intros a r; cbn [ofold]; [now intros [= <-]|]. rewrite sub_val_upd. destruct (Nat.ltb _ _); [|discriminate]. cbn [obind]. apply IH.
Qed.
Lemma meth_val_some T t s off v : meth_val T t s off = Some v -> v = fval T t s off /\ v <= int_max.
Proof.
  unfold meth_val. intros H. apply obind_some in H as (a & E & H). apply sub_vals_some in E. fold (places s off) in E. unfold iadd in H. destruct (_ <=? int_max) eqn:L; [|discriminate]. injection H as <-. apply Z.leb_le in L.
  split; auto. unfold fval. rewrite <- E. destruct (_ <? 1) eqn:Q; [apply Z.ltb_lt in Q|apply Z.ltb_ge in Q]; lia.
Qed.
Lemma meth_val_ok T t s off : (forall x, In x s -> (x < length T)%nat) -> fval T t s off <= int_max -> meth_val T t s off = Some (fval T t s off).
Proof.
  intros H B. unfold meth_val. fold (places s off). rewrite sub_vals_ok.
  - cbn [obind]. unfold iadd, fval in *. destruct (_ <? 1) eqn:Q; [apply Z.ltb_lt in Q|apply Z.ltb_ge in Q].
    + rewrite Z.max_l in B by lia. rewrite (proj2 (Z.leb_le _ _) B). rewrite Z.max_l by lia. reflexivity.
    + rewrite Z.max_r in B by lia. rewrite (proj2 (Z.leb_le _ _) B). rewrite Z.max_r by lia. reflexivity.
  - intros i x I. apply in_combine_r in I. apply H. rewrite <- (firstn_skipn (length s - off) s). apply in_or_app. now left.
Qed.

Lemma mval_ge T t n off l : forall a, a <= mval T t n off l a.
Proof. induction l as [|ix l IH]; intros a; cbn [mval fold_left]; [lia|]. fold (mval T t n off l (upd T t n off a ix)). specialize (IH (upd T t n off a ix)). unfold upd in *. destruct (Nat.eqb (snd ix) t); lia. Qed.
Lemma mval_case T t n off l : forall a, mval T t n off l a = a \/ exists i x, In (i, x) l /\ (mval T t n off l a = at0 T x - Z.of_nat n + Z.of_nat i + Z.of_nat off \/ (x = t /\ mval T t n off l a = Z.of_nat n - 1 - Z.of_nat i - Z.of_nat off)).
Proof.
  induction l as [|[i x] l IH]; intros a; cbn [mval fold_left]; [now left|]. fold (mval T t n off l (upd T t n off a (i, x))). destruct (IH (upd T t n off a (i, x))) as [E|(j & y & I & E)]; [|right; exists j, y; split; [now right|auto]].
  rewrite E. unfold upd. cbn [fst snd]. destruct (Nat.eqb_spec x t) as [->|N].
  - destruct (Z.max_spec (Z.max a (Z.of_nat n - 1 - Z.of_nat i - Z.of_nat off)) (at0 T t - Z.of_nat n + Z.of_nat i + Z.of_nat off)) as [[? ->]|[? ->]]; [right; exists i, t; split; [now left|auto]|].
    destruct (Z.max_spec a (Z.of_nat n - 1 - Z.of_nat i - Z.of_nat off)) as [[? ->]|[? ->]]; [right; exists i, t; split; [now left|auto]|now left].
  - destruct (Z.max_spec a (at0 T x - Z.of_nat n + Z.of_nat i + Z.of_nat off)) as [[? ->]|[? ->]]; [right; exists i, x; split; [now left|auto]|now left].
Qed.
Lemma mval_in T t n off l i x : forall a, In (i, x) l -> at0 T x - Z.of_nat n + Z.of_nat i + Z.of_nat off <= mval T t n off l a.
Proof.
  induction l as [|ix l IH]; intros a []; cbn [mval fold_left]; fold (mval T t n off l (upd T t n off a ix)); [|now apply IH]. subst ix. assert (X := mval_ge T t n off l (upd T t n off a (i, x))). unfold upd in *. cbn [fst snd] in *. destruct (Nat.eqb x t); lia.
Qed.
Lemma mval_mono T T' t n off l : (forall i x, In (i, x) l -> at0 T x <= at0 T' x) -> forall a a', a <= a' -> mval T t n off l a <= mval T' t n off l a'.
Proof.
  induction l as [|[i x] l IH]; intros H a a' L; cbn [mval fold_left]; auto. apply IH; [intros; eapply H; right; eauto|]. assert (X := H i x (or_introl eq_refl)). unfold upd. cbn [fst snd]. destruct (Nat.eqb x t); lia.
Qed.
Lemma mval_ext T T' t n off l : (forall i x, In (i, x) l -> at0 T x = at0 T' x) -> forall a, mval T t n off l a = mval T' t n off l a.
Proof. intros H a. apply Z.le_antisymm; apply mval_mono; try lia; intros i x I; rewrite (H i x I); lia. Qed.
Lemma places_in s off i x : In (i, x) (places s off) -> In x s /\ (i < length s - off)%nat.
Proof.
  unfold places. intros I. split.
  - apply in_combine_r in I. rewrite <- (firstn_skipn (length s - off) s). apply in_or_app. now left.
  - apply in_combine_l in I. apply in_seq in I. lia.
Qed.
Lemma fval_mono T T' t s off : (forall x, In x s -> at0 T x <= at0 T' x) -> fval T t s off <= fval T' t s off.
Proof. intros H. unfold fval. assert (X := mval_mono T T' t (length s) off (places s off) (fun i x I => H x (proj1 (places_in _ _ _ _ I))) 0 0 (Z.le_refl 0)). lia. Qed.
Lemma fval_ext T T' t s off : (forall x, In x s -> at0 T x = at0 T' x) -> fval T t s off = fval T' t s off.
Proof. intros H. apply Z.le_antisymm; apply fval_mono; intros x I; rewrite (H x I); lia. Qed.
Lemma fval_pos T t s off : 1 <= fval T t s off.
Proof. unfold fval. assert (X := mval_ge T t (length s) off (places s off) 0). lia. Qed.

Section Fix.
Variable P : problem.
Hypothesis WP : wf_problem P.
Hypothesis AF : Mix_spec.actions_first P.
Variable st : list (list Z).
Hypothesis ST : forall t, (t < length (p_prim P))%nat -> exists row, get st t = Some row /\ (length row <= length (p_methods P))%nat /\
  forall z, In z row <-> exists m md, z = Z.of_nat m /\ nth_error (p_methods P) m = Some md /\ In t (m_subs md).
Variable rs : list (list nat * nat).
Hypothesis RS : forall m md, nth_error (p_methods P) m = Some md -> exists s off, get rs m = Some (s, off) /\ length s = length (m_subs md) /\ (off <= length s)%nat /\ forall x, In x s -> In x (m_subs md).

Notation nt := (length (p_prim P)).
Notation na := (length (p_cost P)).
Notation nm := (length (p_methods P)).
Notation has_method := (Mix_spec.has_method P).
Notation ttm_spec := (Mix_proof.ttm_spec P).

Record inv (T M : list Z) (q : list mnode) : Prop := {
  i_lT : length T = nt;
  i_lM : length M = nm;
  i_act : forall t, (t < na)%nat -> at0 T t = 1;
  i_no : forall t, (na <= t)%nat -> ~ has_method t -> at0 T t = 0;
  i_nT : forall t, 0 <= at0 T t;
  i_nM : forall m, 0 <= at0 M m;
  i_bM : forall m, at0 M m <= int_max;
  i_bT : forall t, at0 T t <= int_max;
  i_up : forall m md s off, nth_error (p_methods P) m = Some md -> get rs m = Some (s, off) -> at0 M m <= fval T (m_task md) s off;
  i_lo : forall m md, nth_error (p_methods P) m = Some md -> at0 T (m_task md) <= at0 M m;
  i_q : forall n, In n q -> match n with NM m => (m < nm)%nat | NT t => has_method t end;
  i_m : forall m md s off, nth_error (p_methods P) m = Some md -> get rs m = Some (s, off) ->
    In (NM m) q \/ at0 M m = fval T (m_task md) s off \/ (at0 M m = 0 /\ forall t, In t (m_subs md) -> at0 T t = 0);
  i_t : forall t, has_method t -> In (NT t) q \/ at0 T t = minv M (task_to_methods P t) int_max }.

Lemma minv_ext v w l : (forall j, In j l -> at0 v j = at0 w j) -> forall s, minv v l s = minv w l s.
Proof. induction l as [|k l IHl]; intros Hv s; cbn; auto. rewrite (Hv k) by now left. apply IHl. intros; apply Hv; now right. Qed.

Lemma inv_step T M n q T' M' a : inv T M (n :: q) -> pgb_step P st rs T M n = Some (T', M', a) -> inv T' M' (q ++ a) /\
  (forall i, at0 T i <= at0 T' i /\ at0 M i <= at0 M' i) /\ (length a <= S nm)%nat /\
  (a = [] \/ exists i, at0 T i + at0 M i < at0 T' i + at0 M' i).
Proof.
  intros [lT lM act no nT nM bM bT up lo IQ IM IT] H. destruct n as [m|t]; cbn [pgb_step] in H.
  - apply obind_some in H as (md & E & H). apply obind_some in H as ([s off] & Es & H). apply obind_some in H as (c & Ec & H). apply obind_some in H as (v & Ev & H). apply obind_some in H as (M1 & EM & H). injection H as <- <- <-.
    apply get_at0 in Ec. apply meth_val_some in Ev as [-> VB]. set (v := fval T (m_task md) s off) in *. assert (AM : forall j, at0 M1 j = if Nat.eqb j m then v else at0 M j) by (intros j; now apply at0_set).
    assert (UP := up m md s off E Es). fold v in UP. split; [split; auto|split; [|split]].
    + now rewrite (set_length _ _ _ _ EM).
    + intros j. rewrite AM. destruct (Nat.eqb_spec j m); auto. specialize (nM m). lia.
    + intros j. rewrite AM. destruct (Nat.eqb_spec j m); auto.
    + intros j jd s' off' Ej Es'. rewrite AM. destruct (Nat.eqb_spec j m) as [->|N]; [|eauto]. unfold get in E. rewrite Ej in E. injection E as ->. rewrite Es' in Es. injection Es as -> ->. unfold v. lia.
    + intros j jd Ej. rewrite AM. destruct (Nat.eqb_spec j m) as [->|N]; auto. specialize (lo m jd Ej). lia.
    + intros n Hn. apply in_app_or in Hn as [Hn|Hn]; [apply IQ; now right|]. destruct (v =? c); [destruct Hn|]. destruct Hn as [<-|[]]. exists md. split; auto. eapply nth_error_In; eauto.
    + intros j jd s' off' Ej Es'. destruct (Nat.eq_dec j m) as [->|N].
      * right. left. rewrite AM, Nat.eqb_refl. unfold get in E. rewrite Ej in E. injection E as ->. rewrite Es' in Es. injection Es as -> ->. reflexivity.
      * rewrite AM, (proj2 (Nat.eqb_neq j m) N). destruct (IM j jd s' off' Ej Es') as [[HH|HH]|HH]; [congruence|left; apply in_or_app; auto|auto].
    + intros t Ht. destruct (IT t Ht) as [[HH|HH]|HH]; [discriminate|left; apply in_or_app; auto|]. destruct (Z.eqb_spec v c) as [EQ|NE].
      * right. rewrite HH. apply minv_ext. intros j _. rewrite AM. destruct (Nat.eqb_spec j m); congruence.
      * destruct (Nat.eq_dec (m_task md) t) as [<-|N]; [left; apply in_or_app; right; now left|]. right. rewrite HH. apply minv_ext. intros j Hj. rewrite AM. destruct (Nat.eqb_spec j m) as [->|]; auto.
        exfalso. apply ttm_spec in Hj as (jd & Ej & Ht2). unfold get in E. congruence.
    + intros i. rewrite AM. destruct (Nat.eqb_spec i m) as [->|]; lia.
    + destruct (v =? c); cbn; lia.
    + destruct (Z.eqb_spec v c) as [EQ|NE]; auto. right. exists m. rewrite AM, Nat.eqb_refl. lia.
  - apply obind_some in H as (c & Ec & H). apply obind_some in H as (v & Ev & H). apply obind_some in H as (T1 & ET & H). apply obind_some in H as (a' & Ea & H). injection H as <- <- <-. apply get_at0 in Ec.
    assert (HM : has_method t) by (apply (IQ (NT t)); now left). assert (NA : (na <= t < nt)%nat) by (destruct HM as (m & Hm & <-); now apply (task_abs P WP AF)).
    destruct (imin_some _ _ _ Ev) as (-> & _). set (v := minv M (task_to_methods P t) int_max) in *. assert (AT : forall j, at0 T1 j = if Nat.eqb j t then v else at0 T j) by (intros j; now apply at0_set).
    assert (GE : at0 T t <= v). { apply minv_ge; auto. intros m Hm. apply ttm_spec in Hm as (md & Em & <-). now apply lo. }
    assert (LE : forall j, at0 T j <= at0 T1 j) by (intros j; rewrite AT; destruct (Nat.eqb_spec j t) as [->|]; lia).
    destruct (queue_methods_ok P st ST t (proj2 NA)) as (qm & EQ & LQ & IQM). assert (A' : a' = if v =? c then [] else qm) by (destruct (v =? c); congruence). clear Ea.
    split; [split; auto|split; [|split]].
    + now rewrite (set_length _ _ _ _ ET).
    + intros u Hu. rewrite AT. destruct (Nat.eqb_spec u t) as [->|]; [lia|auto].
    + intros u Hu N. rewrite AT. destruct (Nat.eqb_spec u t) as [->|]; [contradiction|auto].
    + intros u. specialize (nT u). specialize (LE u). lia.
    + intros u. rewrite AT. destruct (Nat.eqb_spec u t); auto. unfold v. apply minv_le.
    + intros m md s off E Es. specialize (up m md s off E Es). assert (X := fval_mono T T1 (m_task md) s off (fun x _ => LE x)). lia.
    + intros m md E. rewrite AT. destruct (Nat.eqb_spec (m_task md) t) as [e|]; auto. unfold v. apply (minv_le M). apply ttm_spec. eauto.
    + intros n Hn. apply in_app_or in Hn as [Hn|Hn]; [apply IQ; now right|]. rewrite A' in Hn. destruct (_ =? _); [destruct Hn|]. apply IQM in Hn as (m & md & -> & E & _). cbn. apply nth_error_Some. congruence.
    + intros j jd s off Ej Es. destruct (IM j jd s off Ej Es) as [[HH|HH]|HH]; [discriminate|left; apply in_or_app; auto|]. destruct (RS j jd Ej) as (s' & off' & Es' & _ & _ & SUB). rewrite Es in Es'. injection Es' as <- <-. destruct (Z.eqb_spec v c) as [E1|E1].
      * right. assert (X : forall x, at0 T1 x = at0 T x) by (intros x; rewrite AT; destruct (Nat.eqb_spec x t); congruence). rewrite (fval_ext T1 T) by auto. destruct HH as [HH|[H1 H2]]; auto. right. split; auto. intros x Hx. rewrite X. auto.
      * destruct (in_dec Nat.eq_dec t (m_subs jd)) as [I|N]; [left; apply in_or_app; right; subst a'; apply IQM; eauto|]. right.
        assert (X : forall x, In x (m_subs jd) -> at0 T1 x = at0 T x). { intros x Hx. rewrite AT. assert (x <> t) by congruence. now rewrite (proj2 (Nat.eqb_neq x t)). }
        rewrite (fval_ext T1 T) by auto. destruct HH as [HH|[H1 H2]]; auto. right. split; auto. intros x Hx. rewrite X; auto.
    + intros u Hu. destruct (Nat.eq_dec u t) as [->|N]; [right; rewrite AT, Nat.eqb_refl; reflexivity|]. destruct (IT u Hu) as [[HH|HH]|HH]; [congruence|left; apply in_or_app; auto|]. right. now rewrite AT, (proj2 (Nat.eqb_neq u t) N).
    + intros i. specialize (LE i). lia.
    + rewrite A'. destruct (_ =? _); cbn; lia.
    + rewrite A'. destruct (Z.eqb_spec v c) as [E1|E1]; auto. right. exists t. rewrite AT, Nat.eqb_refl. lia.
Qed.

Lemma inv_init q : mix_queue P st = Some q -> inv (pgb_init P) (repeat 0 nm) q.
Proof.
  intros E. destruct (mix_queue_ok P AF st ST) as (q' & E' & IQ). assert (q' = q) by congruence; subst q'. clear E'. assert (N := na_nt P AF).
  assert (AT : forall t, at0 (pgb_init P) t = if Nat.ltb t na then 1 else 0). { intros t. unfold pgb_init. rewrite at0_app, repeat_length, at0_zero, at0_repeat. destruct (Nat.ltb t na); auto. }
  assert (NT : forall t, 0 <= at0 (pgb_init P) t). { intros t. rewrite AT. destruct (Nat.ltb t na); lia. }
  split; auto.
  - unfold pgb_init. rewrite app_length, !repeat_length. lia.
  - apply repeat_length.
  - intros t Ht. rewrite AT, (proj2 (Nat.ltb_lt _ _) Ht). auto.
  - intros t Ht _. rewrite AT. destruct (Nat.ltb_spec t na); auto. lia.
  - intros m. rewrite at0_zero. lia.
  - intros m. rewrite at0_zero. unfold int_max. lia.
  - intros t. rewrite AT. unfold int_max. destruct (Nat.ltb t na); lia.
  - intros m md s off _ _. rewrite at0_zero. assert (X := fval_pos (pgb_init P) (m_task md) s off). lia.
  - intros m md Em. rewrite at0_zero, AT. apply nth_error_In in Em. apply (task_abs P WP AF) in Em. destruct (Nat.ltb_spec (m_task md) na); lia.
  - intros n Hn. apply IQ in Hn as (t & m & md & _ & -> & Em & _). apply nth_error_Some. congruence.
  - intros m md s off Em Es. destruct (existsb (fun t => Nat.ltb t na) (m_subs md)) eqn:X.
    + left. apply existsb_exists in X as (t & Ht & L). apply Nat.ltb_lt in L. apply IQ. exists t, m, md. auto.
    + right. right. split; [apply at0_zero|]. intros t Ht. rewrite AT. destruct (Nat.ltb t na) eqn:L; auto. exfalso. assert (existsb (fun t => Nat.ltb t na) (m_subs md) = true); [|congruence]. apply existsb_exists. eauto.
  - intros t Ht. right. destruct Ht as (md & Hm & <-). assert (A := task_abs P WP AF md Hm). rewrite AT. destruct (Nat.ltb_spec (m_task md) na); [lia|]. apply In_nth_error in Hm as (m & Em). assert (IM : In m (task_to_methods P (m_task md))) by (apply ttm_spec; eauto).
    apply Z.le_antisymm; [apply minv_ge; [unfold int_max; lia|intros; rewrite at0_zero; lia]|]. destruct (minv_le (repeat 0 nm) (task_to_methods P (m_task md)) int_max) as [_ X]. specialize (X m IM). now rewrite at0_zero in X.
Qed.

Lemma loop_inv fuel : forall T M q, inv T M q -> match pgb_loop P st rs fuel T M q with PDone T' => exists M', inv T' M' [] | PUndef => True | PMore T' M' q' => inv T' M' q' end.
Proof.
  induction fuel as [|f IH]; intros T M q I; destruct q as [|n q]; cbn [pgb_loop]; eauto.
  destruct (pgb_step P st rs T M n) as [[[T' M'] a]|] eqn:E; auto. destruct (inv_step _ _ _ _ _ _ _ I E) as (I' & _). apply IH. exact I'.
Qed.

(** ** Termination *)
Definition weight (T M : list Z) : Z := total nt T + total nm M.
Lemma weight_cap T M q : inv T M q -> weight T M <= (Z.of_nat nt + Z.of_nat nm) * int_max.
Proof.
  intros I. unfold weight. assert (X := total_le nt T int_max (fun i _ => i_bT _ _ _ I i)). assert (Y := total_le nm M int_max (fun i _ => i_bM _ _ _ I i)). lia.
Qed.
Lemma weight_step T M n q T' M' a : inv T M (n :: q) -> pgb_step P st rs T M n = Some (T', M', a) -> a = [] /\ weight T M <= weight T' M' \/ weight T M < weight T' M'.
Proof.
  intros I E. destruct (inv_step _ _ _ _ _ _ _ I E) as (I' & MO & _ & C). unfold weight. destruct (total_mono nt T T' (fun i => proj1 (MO i))) as [A1 B1]. destruct (total_mono nm M M' (fun i => proj2 (MO i))) as [A2 B2].
  destruct C as [->|(i & C)]; [left; split; auto; lia|right]. destruct (MO i) as (M1 & M2). assert (OV : forall v k, (length v <= k)%nat -> at0 v k = 0) by (intros v k L; now apply nth_overflow).
  assert (L1 := i_lT _ _ _ I). assert (L2 := i_lM _ _ _ I). assert (L3 := i_lT _ _ _ I'). assert (L4 := i_lM _ _ _ I').
  destruct (Nat.lt_ge_cases i nt) as [Q1|Q1]; destruct (Nat.lt_ge_cases i nm) as [Q2|Q2].
  - specialize (B1 i Q1). specialize (B2 i Q2). lia.
  - specialize (B1 i Q1). rewrite (OV M), (OV M') in C by lia. lia.
  - specialize (B2 i Q2). rewrite (OV T), (OV T') in C by lia. lia.
  - rewrite (OV T), (OV T'), (OV M), (OV M') in C by lia. lia.
Qed.
Lemma loop_ends k : forall T M q, inv T M q -> (Z.of_nat nt + Z.of_nat nm) * int_max - weight T M <= Z.of_nat k ->
  forall fuel, (length q + k * S nm <= fuel)%nat -> forall T' M' q', pgb_loop P st rs fuel T M q <> PMore T' M' q'.
Proof.
  intros T M q I B fuel. revert k T M q I B. induction fuel as [|f IH]; intros k T M q I B F T' M' q'; destruct q as [|n q]; cbn [pgb_loop]; try discriminate; [cbn in F; lia|].
  destruct (pgb_step P st rs T M n) as [[[T1 M1] a]|] eqn:E; [|discriminate]. destruct (inv_step _ _ _ _ _ _ _ I E) as (I' & _ & LA & _).
  assert (WC := weight_cap _ _ _ I'). destruct (weight_step _ _ _ _ _ _ _ I E) as [[-> L]|L].
  - apply (IH k); auto; [lia|]. rewrite app_nil_r. cbn in F. lia.
  - destruct k as [|k]; [lia|]. apply (IH k); auto; [lia|]. rewrite app_length. cbn in F. nia.
Qed.

Lemma step_defined T M n q : inv T M (n :: q) -> (forall m md s off, nth_error (p_methods P) m = Some md -> get rs m = Some (s, off) -> fval T (m_task md) s off <= int_max) -> exists r, pgb_step P st rs T M n = Some r.
Proof.
  intros I B. destruct n as [m|t]; cbn [pgb_step].
  - assert (Lm : (m < nm)%nat) by (apply (i_q _ _ _ I (NM m)); now left). destruct (get_some (p_methods P) m Lm) as (md & E). rewrite E. cbn [obind]. destruct (RS m md E) as (s & off & Es & Ls & Lo & SUB). rewrite Es. cbn [obind].
    rewrite (at0_get M) by (rewrite (i_lM _ _ _ I); auto). cbn [obind]. assert (Hm : In md (p_methods P)) by (eapply nth_error_In; eauto).
    rewrite meth_val_ok; [|intros x Hx; rewrite (i_lT _ _ _ I); apply (wfm_subs _ _ (wf_methods _ WP md Hm)); auto|eapply B; eauto]. cbn [obind]. edestruct (set_some M m) as (M1 & ->); [rewrite (i_lM _ _ _ I); auto|]. cbn [obind]. eauto.
  - assert (HM : has_method t) by (apply (i_q _ _ _ I (NT t)); now left). assert (L : (t < nt)%nat) by (destruct HM as (m & Hm & <-); now apply (task_abs P WP AF)).
    rewrite (at0_get T) by (rewrite (i_lT _ _ _ I); auto). cbn [obind]. assert (TL : forall m, In m (task_to_methods P t) -> (m < nm)%nat). { intros m Hm. apply ttm_spec in Hm as (md & E & _). apply nth_error_Some. congruence. }
    rewrite imin_ok by (intros; rewrite (i_lM _ _ _ I); auto). cbn [obind]. edestruct (set_some T t) as (T1 & ->); [rewrite (i_lT _ _ _ I); auto|]. cbn [obind]. destruct (queue_methods_ok P st ST t L) as (qm & -> & _). destruct (_ =? _); cbn [obind]; eauto.
Qed.
End Fix.
