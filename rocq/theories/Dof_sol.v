(** The assignment that stands for a solution. *)
From Verif Require Import Base Htn_problem Htn_spec Htn_sem Heap_model IntUtil_model Tab_model Pg_model Pg_spec Pg_thm Rc_spec Rc_proof Lm_spec Dof_spec Dof_model Dof_count Dof_proof Dof_net Dof_main.
Import Rc_spec.
Local Open Scope Z_scope.

Lemma sum_one {A} (g : A -> nat) l p0 : NoDup l -> In p0 l -> g p0 = 1%nat -> (forall p, In p l -> p <> p0 -> g p = 0%nat) -> list_sum (map g l) = 1%nat.
Proof.
  assert (Z : forall l, (forall p, In p l -> g p = 0%nat) -> list_sum (map g l) = 0%nat).
  { induction l0 as [|a l0 IH]; intros H; cbn [map]; auto. rewrite sum_cons, (H a), IH; auto; [intros; apply H; now right|now left]. }
  induction 1 as [|a l N1 N2 IH]; intros I G H; [easy|]. cbn [map]. rewrite sum_cons. destruct I as [->|I].
  - rewrite G, Z; auto. intros p Hp. apply H; [now right|]. intros ->. easy.
  - rewrite (H a), IH; auto; [intros; apply H; auto; now right|now left|]. intros ->. easy.
Qed.
Lemma sum_none {A} (g : A -> nat) l : (forall p, In p l -> g p = 0%nat) -> list_sum (map g l) = 0%nat.
Proof. induction l as [|a l IH]; intros H; cbn [map]; auto. rewrite sum_cons, (H a), IH; auto; [intros; apply H; now right|now left]. Qed.
Lemma cnt_le (l : list nat) a : (cnt l a <= length l)%nat.
Proof. induction l as [|b l IH]; cbn; auto. destruct (Nat.eq_dec b a); lia. Qed.

Definition pos (f : nat) (l : list nat) : nat := length (take_while (fun g => negb (Nat.eqb g f)) l).
Lemma pos_in f l : In f l -> nth_error l (pos f l) = Some f.
Proof.
  unfold pos. induction l as [|a l IH]; [easy|]. cbn [take_while]. destruct (Nat.eqb_spec a f) as [->|N]; cbn [negb length nth_error]; auto. intros [->|H]; [easy|auto].
Qed.

Lemma in_inv_adds P f a i : In (a, i) (inv_adds P f) <-> exists l, nth_error (p_add P) a = Some l /\ nth_error l i = Some f.
Proof.
  unfold inv_adds. rewrite <- in_rev, in_flat_map. split.
  - intros ([b l] & H1 & H2). apply in_enum in H1. apply in_flat_map in H2 as ([j g] & H2 & H3). apply in_enum in H2. destruct (Nat.eqb_spec g f); [|easy]. subst g.
    destruct H3 as [H3|[]]. injection H3 as -> ->. eauto.
  - intros (l & E1 & E2). exists (a, l). split; [now apply in_enum|]. apply in_flat_map. exists (i, f). split; [now apply in_enum|]. rewrite Nat.eqb_refl. now left.
Qed.
Lemma inv_adds_nodup P f : NoDup (inv_adds P f).
Proof.
  apply NoDup_rev. apply flat_map_nodup; [apply enum_nodup| |].
  - intros [a l] _. apply flat_map_nodup; [apply enum_nodup| |].
    + intros [i g] _. destruct (Nat.eqb g f); repeat constructor; easy.
    + intros [i g] [j h] x H1 H2. destruct (Nat.eqb_spec g f), (Nat.eqb_spec h f); try easy. subst. intros [<-|[]] [E|[]]. injection E as <-. reflexivity.
  - intros [a l] [b l'] x H1 H2. rewrite !in_flat_map. intros ([i g] & _ & X) ([j h] & _ & Y). apply in_enum in H1, H2. destruct (Nat.eqb g f), (Nat.eqb h f); try easy.
    destruct X as [<-|[]], Y as [E|[]]. injection E as -> ->. congruence.
Qed.
Lemma in_methods_of P t m : In m (methods_of P t) <-> task_of P m = Some t.
Proof.
  unfold methods_of, task_of. rewrite in_map_iff. split.
  - intros ([i md] & <- & H). apply filter_In in H as [H1 H2]. apply in_enum in H1. apply Nat.eqb_eq in H2. cbn. rewrite H1. cbn. now rewrite H2.
  - destruct (nth_error (p_methods P) m) as [md|] eqn:E; cbn; [|easy]. intros H. injection H as H. exists (m, md). split; auto. apply filter_In. split; [now apply in_enum|]. now apply Nat.eqb_eq.
Qed.
Lemma filter_fst_nodup {A B} (p : A * B -> bool) l : NoDup (map fst l) -> NoDup (map fst (filter p l)).
Proof.
  induction l as [|a l IH]; cbn; intros N; [constructor|]. inversion N as [|? ? N1 N2]; subst. destruct (p a); cbn; auto. constructor; auto.
  intros H. apply N1. apply in_map_iff in H as (x & E & H). apply filter_In in H. apply in_map_iff. exists x. tauto.
Qed.
Lemma methods_of_nodup P t : NoDup (methods_of P t).
Proof. apply filter_fst_nodup. rewrite fst_enum. apply seq_NoDup. Qed.
Lemma consumed_uses P ms t : consumed P ms t = uses (methods_of P t) ms.
Proof.
  induction ms as [|m ms IH]; auto. rewrite uses_cons, <- IH. unfold consumed. cbn [map]. rewrite sum_cons. f_equal. destruct (memb m (methods_of P t)) eqn:E.
  - apply memb_In, in_methods_of in E. rewrite E. destruct (Nat.eq_dec t t); easy.
  - apply memb_false in E. destruct (task_of P m) as [v|] eqn:Q; auto. destruct (Nat.eq_dec v t); auto. subst v. exfalso. apply E. now apply in_methods_of.
Qed.
Lemma consumed_le P ms t : (consumed P ms t <= length ms)%nat.
Proof. rewrite consumed_uses. unfold uses. induction ms as [|m ms IH]; cbn; auto. destruct (memb m (methods_of P t)); cbn; lia. Qed.

Section Sol.
Variables (al : nat -> list Z) (P : problem) (T : pg_tables) (q0 : heap) (s R : list bool) (r : pg_result) (tn : tnet) (L : list tid) (C : ctable).
Hypothesis DI : dof_input al P T q0 s R r tn L C.
Notation na := (length (p_cost P)).
Notation lab := (map (t_lab tn) L).
Let WP : wf_problem P := pi_wp _ _ _ _ _ _ (di_pg _ _ _ _ _ _ _ _ _ _ DI).
Variables (ms plan : list nat).
Hypothesis SO : solves_by P (holds s) tn ms plan.

Definition u (t : nat) : nat := cnt lab t + produced P ms t.
Definition ev (a i : nat) : bool :=
  match nth_error (nth a (p_add P) []) i with
  | Some f => match achiever P plan f with Some b => Nat.eqb b a && Nat.eqb i (pos f (nth a (p_add P) [])) | None => false end
  | None => false
  end.
Definition z (v : var) : Z :=
  match v with
  | UF f => match achiever P plan f with Some _ => 1 | None => 0 end
  | UA t => Z.of_nat (u t)
  | MV m => Z.of_nat (cnt ms m)
  | EV a i => if ev a i then 1 else 0
  | TP f => match achiever P plan f with Some a => Z.of_nat (S (time plan a)) | None => 0 end
  | TA a => Z.of_nat (time plan a)
  | RV _ _ | IV _ _ _ => 0
  end.

Lemma plan_lt a : In a plan -> (a < na)%nat.
Proof.
  destruct SO as (tn' & L' & RF & PR & (_ & IL & _) & -> & EX & GO). intros Ha. apply in_map_iff in Ha as (x & <- & Hx). apply IL in Hx. apply (wf_prim _ WP), PR, Hx.
Qed.
Lemma reach_all : (forall a, In a plan -> taskReachable r a = true) /\ (forall m, In m ms -> methodReachable r m = true) /\
  (forall x, t_in tn x -> taskReachable r (t_lab tn x) = true) /\ (forall f, In f (p_goal P) -> factReachable r f = Some true).
Proof.
  pose proof plan_lt as PL. destruct SO as (tn' & L' & RF & PR & (_ & IL & _) & -> & EX & GO).
  destruct (pg_complete al P T q0 s R r (di_pg _ _ _ _ _ _ _ _ _ _ DI) (di_calc _ _ _ _ _ _ _ _ _ _ DI) (di_int _ _ _ _ _ _ _ _ _ _ DI)) as (C1 & C0 & C2 & C3).
  pose proof (di_closed _ _ _ _ _ _ _ _ _ _ DI) as CR. pose proof (di_tasks _ _ _ _ _ _ _ _ _ _ DI) as HR. pose proof (refines_by_refines _ _ _ _ RF) as RF'.
  destruct (plan_reach P (holds s) (holds R) (map (t_lab tn') L')) with (s' := holds s) as [A1 A2]; auto.
  { intros a Ha. split; auto. apply in_map_iff in Ha as (x & <- & Hx). apply IL in Hx. eapply refine_allowed; eauto. }
  { intros f Hf. now apply fr_state. }
  assert (TR : forall y, t_in tn' y -> task_reach P (holds R) (act_reach P (holds s) (holds R)) (t_lab tn' y)) by (intros y Hy; apply tr_action, A1, in_map; now apply IL).
  split; [auto|]. split; [|split].
  - intros m Hm. apply C3. eapply method_used; eauto.
  - intros x Hx. apply C2. eapply refine_reach; eauto.
  - intros f Hf. apply C1, A2, GO, Hf.
Qed.
Lemma plan_acts a : In a plan -> In a (acts P r).
Proof. intros H. eapply in_acts; [exact DI|]. split; [now apply reach_all|now apply plan_lt]. Qed.
Lemma ms_meths m : In m ms -> In m (r_meths r).
Proof. intros H. apply reach_all in H. now apply memb_In in H. Qed.
Lemma execs : executable P (holds s) plan /\ goal_state P (after P (holds s) plan).
Proof. destruct SO as (tn' & L' & RF & PR & IL & E & EX & GO). auto. Qed.
Lemma counts t : (cnt plan t + consumed P ms t = u t)%nat.
Proof.
  destruct SO as (tn' & L' & RF & PR & (N & IL & _) & -> & EX & GO). unfold u. eapply balance; [|exact RF|apply DI|apply DI|split; auto].
  intros m Hm. apply (wfm_acyclic _ _ (wf_methods _ WP m Hm)).
Qed.
Lemma u_act a : (a < na)%nat -> u a = cnt plan a.
Proof.
  intros Ha. rewrite <- counts. enough (consumed P ms a = 0%nat) by lia. unfold consumed. apply sum_none. intros m Hm. unfold task_of. destruct (nth_error (p_methods P) m) as [md|] eqn:E; cbn; auto.
  destruct (Nat.eq_dec (m_task md) a) as [<-|]; auto. apply nth_error_In in E. pose proof (wfm_task _ _ (wf_methods _ WP md E)) as X. rewrite (di_prim _ _ _ _ _ _ _ _ _ _ DI _ Ha) in X. discriminate.
Qed.
Lemma u_abs t : (na <= t)%nat -> u t = consumed P ms t.
Proof. intros H. rewrite <- counts. enough (cnt plan t = 0%nat) by lia. apply count_occ_not_In. intros X. apply plan_lt in X. lia. Qed.
Lemma zu_act a : (a < na)%nat -> z (UA a) = Z.of_nat (cnt plan a).
Proof. intros H. cbn. now rewrite u_act. Qed.

Lemma zval_mv (k : nat -> nat) l : zval z (flat_map (fun m => repeat (1, MV m) (k m)) l) = Z.of_nat (list_sum (map (fun m => k m * cnt ms m)%nat l)).
Proof.
  induction l as [|m l IH]; auto. cbn [flat_map map]. rewrite zval_app, sum_cons, IH. enough (E : forall n, zval z (repeat (1, MV m) n) = Z.of_nat (n * cnt ms m)) by (rewrite E; lia).
  induction n as [|n E]; cbn [repeat]; [reflexivity|]. rewrite zval_cons, E. cbn [z]. lia.
Qed.
Lemma repeat_filter {A B} (x : B) (p : A -> bool) l : map (fun _ => x) (filter p l) = repeat x (length (filter p l)).
Proof. induction (filter p l); cbn; congruence. Qed.
Lemma cnt_filter t l : length (filter (Nat.eqb t) l) = cnt l t.
Proof. induction l as [|a l IH]; cbn; auto. destruct (Nat.eqb_spec t a), (Nat.eq_dec a t); cbn; try congruence; lia. Qed.

(** *** The constraints *)
Lemma htn_ok hc : oflat (htn_cons P r C) (r_tasks r) = Some hc -> forall c, In c hc -> zsat z c.
Proof.
  intros E c Hc. apply (oflat_some _ _ _ E) in Hc as (t & l & Ht & El & Hc). unfold htn_cons in El.
  rewrite (tup_flat _ _ _ _ _ _ _ _ _ _ DI), (tn_count_ok _ _ _ _ _ _ _ _ _ _ DI) in El. cbn [obind] in El. injection El as <-.
  destruct (relative _ _ _ _ _ _ _ _ _ _ DI) as (A & N1 & N2 & _). destruct Hc as [<-|Hc].
  - unfold zsat. cbn [eqc l_terms l_rel l_rhs]. rewrite zval_app.
    rewrite (flat_map_ext _ (fun m => repeat (1, MV m) (cnt (subs_of P m) t))) by (intros m; rewrite repeat_filter, cnt_filter; reflexivity).
    rewrite zval_mv, sum_over; auto; [|apply ms_meths]. rewrite zval_cons. cbn [z zval fold_right]. unfold u. fold (produced P ms t). lia.
  - destruct (Nat.leb_spec na t) as [Q|Q]; [|easy]. destruct Hc as [<-|[]]. unfold zsat. cbn [eqc l_terms l_rel l_rhs]. rewrite zval_app, zval_cons.
    rewrite (zval_map z 1 MV (cnt ms)) by reflexivity. rewrite uses_sum by (apply NoDup_filter, methods_of_nodup).
    rewrite uses_filter by (apply reach_all). rewrite <- consumed_uses. cbn [z zval fold_right]. rewrite u_abs by auto. lia.
Qed.

Lemma uf_new f : ~ holds s f -> (exists k, after P (holds s) (firstn k plan) f) -> z (UF f) = 1.
Proof. intros N (k & H). destruct (achieved_prefix P plan k _ _ H N) as (a & E). cbn. now rewrite E. Qed.
Lemma uf_goal f : In f (p_goal P) -> ~ holds s f -> z (UF f) = 1.
Proof. intros H N. apply uf_new; auto. exists (length plan). rewrite firstn_all. apply execs, H. Qed.

Lemma pg_ok o pc : (o_pg o <> PgNone -> forall a, (cnt plan a <= 100)%nat) -> pg_cons P o r = Some pc -> forall c, In c pc -> zsat z c.
Proof.
  intros H100 E c Hc. unfold pg_cons in E. pose proof (useful_new _ _ _ _ _ _ _ _ _ _ DI) as UN. pose proof (in_acts _ _ _ _ _ _ _ _ _ _ DI) as IA.
  assert (G1 : forall c, In c (c1 P r) -> zsat z c).
  { intros c' H. unfold c1 in H. apply in_map_iff in H as (f & <- & H). apply filter_In in H as [H1 H2]. unfold zsat. cbn [eqc l_terms l_rel l_rhs]. rewrite zval_cons, uf_goal; [reflexivity|auto|now apply UN]. }
  assert (G23 : o_pg o <> PgNone -> forall a l, In a (acts P r) -> c23 P r a = Some l -> forall c, In c l -> zsat z c).
  { intros NO a l Ha Hl c' H. specialize (H100 NO a). apply IA in Ha as [_ Ha]. unfold c23 in Hl. apply obind_some in Hl as (ps & Ep & Hl). apply obind_some in Hl as (es & Ee & Hl). injection Hl as <-.
    apply in_app_or in H as [H|H]; apply in_map_iff in H.
    - destruct H as (p & <- & H). unfold p_list, get in Ep. apply obind_some in Ep as (l & El & Ep). injection Ep as <-. apply filter_In in H as [H1 H2]. unfold zsat. cbn [ge0 l_terms l_rel l_rhs].
      rewrite !zval_cons, (zu_act a Ha). cbn [z zval fold_right]. destruct (in_dec Nat.eq_dec a plan) as [I|I].
      + destruct (achieved_before P a p plan (holds s) (proj1 execs) I (ex_intro _ l (conj El H1)) (proj2 (UN p H2))) as (b & Eb & _). rewrite Eb. lia.
      + apply (count_occ_not_In Nat.eq_dec) in I. rewrite I. destruct (achiever P plan p); lia.
    - destruct H as ([i f] & <- & H). unfold zsat. cbn [ge0 l_terms l_rel l_rhs]. rewrite !zval_cons, (zu_act a Ha). cbn [z zval fold_right]. destruct (ev a i) eqn:Q; [|lia]. unfold ev in Q.
      destruct (nth_error _ i) as [g|]; [|easy]. destruct (achiever P plan g) as [b|] eqn:Qb; [|easy]. apply andb_prop in Q as [Q _]. apply Nat.eqb_eq in Q. subst b. apply achiever_in in Qb as [Qb _].
      apply (count_occ_In Nat.eq_dec) in Qb. lia. }
  assert (G4 : forall f, useful r f = true -> zsat z (c4 P r f)).
  { intros f Uf. unfold zsat, c4. cbn [eqc l_terms l_rel l_rhs]. rewrite zval_app, zval_cons. set (D := filter _ (inv_adds P f)).
    assert (ND : NoDup D) by apply NoDup_filter, inv_adds_nodup.
    assert (EM : map (fun '(a, i) => (1, EV a i)) D = map (fun p => (1, EV (fst p) (snd p))) D) by (apply map_ext; intros [a i]; reflexivity). rewrite EM.
    rewrite (zval_map z 1 (fun p => EV (fst p) (snd p)) (fun p => if ev (fst p) (snd p) then 1%nat else 0%nat)) by (intros [a i] _; cbn; destruct (ev a i); reflexivity).
    assert (DP : forall a i, In (a, i) D -> exists l, nth_error (p_add P) a = Some l /\ nth_error l i = Some f) by (intros a i H; apply filter_In in H as [H _]; now apply in_inv_adds in H).
    cbn [z zval fold_right]. destruct (achiever P plan f) as [b|] eqn:Eb.
    - destruct (achiever_in _ _ _ _ Eb) as [B1 (l & B2 & B3)]. assert (EN : nth b (p_add P) [] = l) by now apply nth_error_nth. rewrite (sum_one _ D (b, pos f l)); auto.
      + apply filter_In. split; [|now apply reach_all]. apply in_inv_adds. exists l. split; auto. now apply pos_in.
      + cbn [fst snd]. unfold ev. rewrite EN, pos_in, Eb, !Nat.eqb_refl by auto. reflexivity.
      + intros [a i] H NE. cbn [fst snd]. destruct (DP a i H) as (l' & E1 & E2). unfold ev. rewrite (nth_error_nth _ _ _ E1), E2, Eb. destruct (Nat.eqb_spec b a) as [<-|]; auto.
        replace l' with l in * by congruence. cbn [andb]. destruct (Nat.eqb_spec i (pos f l)) as [->|]; auto. now elim NE.
    - rewrite sum_none; [reflexivity|]. intros [a i] H. cbn [fst snd]. destruct (DP a i H) as (l' & E1 & E2). unfold ev. now rewrite (nth_error_nth _ _ _ E1), E2, Eb. }
  assert (G5 : forall a l, In a (acts P r) -> c5 P r a = Some l -> forall c, In c l -> zsat z c).
  { intros a l Ha Hl c' H. unfold c5 in Hl. apply obind_some in Hl as (ps & Ep & Hl). injection Hl as <-. apply in_map_iff in H as (p & <- & H).
    unfold p_list, get in Ep. apply obind_some in Ep as (l & El & Ep). injection Ep as <-. apply filter_In in H as [H1 H2]. unfold zsat. cbn [ge0 l_terms l_rel l_rhs]. rewrite !zval_cons. cbn [z zval fold_right].
    destruct (in_dec Nat.eq_dec a plan) as [I|I].
    - destruct (achieved_before P a p plan (holds s) (proj1 execs) I (ex_intro _ l (conj El H1)) (proj2 (UN p H2))) as (b & Eb & Ib). rewrite Eb. apply time_lt in Ib. lia.
    - destruct (achiever P plan p) as [b|] eqn:Eb; [|lia]. apply achiever_in in Eb as [Eb _]. assert (time plan b < time plan a)%nat by (apply time_lt; rewrite upto_all; auto). lia. }
  assert (G6 : forall a l, In a (acts P r) -> c6 P r a = Some l -> forall c, In c l -> zsat z c).
  { intros a l Ha Hl c' H. unfold c6, e_list, get in Hl. apply obind_some in Hl as (es & Ep & Hl). injection Hl as <-. apply in_map_iff in H as ([i f] & <- & H).
    apply obind_some in Ep as (l & El & Ep). injection Ep as <-. apply filter_In in H as [H1 H2]. apply in_enum in H1. unfold zsat. cbn [l_terms l_rel l_rhs]. rewrite !zval_cons. cbn [z zval fold_right].
    unfold ev. rewrite (nth_error_nth _ _ _ El), H1. pose proof (time_le plan a na plan_lt) as TL. destruct (achiever P plan f) as [b|]; [|lia]. destruct (Nat.eqb_spec b a) as [->|]; cbn [andb]; [|lia].
    destruct (Nat.eqb i (pos f l)); lia. }
  destruct (o_pg o) eqn:OP; [| |injection E as <-; easy].
  - apply obind_some in E as (l23 & E23 & E). apply obind_some in E as (l56 & E56 & E). apply obind_some in E56 as (l5 & E5 & E56). apply obind_some in E56 as (l6 & E6 & E56). injection E56 as <-. injection E as <-.
    rewrite !in_app_iff in Hc. destruct Hc as [Hc|[Hc|[Hc|[Hc|Hc]]]]; auto.
    + apply (oflat_some _ _ _ E23) in Hc as (a & l & Ha & El & Hc). eapply G23; eauto. easy.
    + apply in_map_iff in Hc as (f & <- & Hc). apply G4. now apply memb_In.
    + apply (oflat_some _ _ _ E5) in Hc as (a & l & Ha & El & Hc). eapply G5; eauto.
    + apply (oflat_some _ _ _ E6) in Hc as (a & l & Ha & El & Hc). eapply G6; eauto.
  - apply obind_some in E as (l23 & E23 & E). cbn [obind] in E. injection E as <-.
    rewrite !in_app_iff in Hc. destruct Hc as [Hc|[Hc|[Hc|[]]]]; auto.
    + apply (oflat_some _ _ _ E23) in Hc as (a & l & Ha & El & Hc). eapply G23; eauto. easy.
    + apply in_map_iff in Hc as (f & <- & Hc). apply G4. now apply memb_In.
Qed.

Local Notation hit := (hit ms plan).
Local Notation met := (met P (holds s) tn ms plan).
Lemma zval_ge ts v : (forall c w, In (c, w) ts -> c = 1 /\ 0 <= z w) -> In (1, v) ts -> 1 <= z v -> 1 <= zval z ts.
Proof.
  induction ts as [|[c w] ts IH]; intros H I V; [easy|]. rewrite zval_cons. destruct (H c w (or_introl eq_refl)) as [-> W].
  assert (NN : 0 <= zval z ts). { clear IH I. induction ts as [|[d y] ts IH]; [cbn; lia|]. rewrite zval_cons. destruct (H d y) as [-> Y]; [right; now left|]. assert (0 <= zval z ts) by (apply IH; intros c x [Q|Q]; apply H; [now left|right; now right]). lia. }
  destruct I as [I|I]; [injection I as <-; lia|]. assert (1 <= zval z ts) by (apply IH; auto; intros; apply H; now right). lia.
Qed.
Lemma cut_ok cut : hit cut -> zsat z (cut_cons r cut).
Proof.
  intros (i & x & E & H). unfold zsat, cut_cons. cbn [ge1 l_terms l_rel l_rhs]. set (ts := flat_map _ _).
  assert (H0 : forall c w, In (c, w) ts -> c = 1 /\ 0 <= z w).
  { intros c w Hw. apply in_flat_map in Hw as ([j y] & _ & Hw). destruct (Nat.ltb j (fst cut)); [destruct (taskReachable r (Z.to_nat y))|destruct (methodReachable r (Z.to_nat y))]; try easy;
    destruct Hw as [Hw|[]]; injection Hw as <- <-; split; auto; cbn [z]; lia. }
  destruct H as [[Q H]|[Q H]].
  - apply (zval_ge ts (UA x) H0); [|rewrite zu_act by (now apply plan_lt); pose proof (proj1 (count_occ_In Nat.eq_dec plan x) H); lia]. apply in_flat_map. exists (i, Z.of_nat x). split; [now apply in_enum|].
    rewrite Nat2Z.id. apply Nat.ltb_lt in Q. rewrite Q. rewrite (proj1 reach_all x H). now left.
  - apply (zval_ge ts (MV x) H0); [|cbn [z]; pose proof (proj1 (count_occ_In Nat.eq_dec ms x) H); lia]. apply in_flat_map. exists (i, Z.of_nat x). split; [now apply in_enum|].
    rewrite Nat2Z.id. apply Nat.ltb_ge in Q. rewrite Q. rewrite (proj1 (proj2 reach_all) x H). now left.
Qed.
Lemma lms_ok lms lc : (forall e, In e lms -> met e) -> oflat (lm_cons r s) lms = Some lc -> forall c, In c lc -> zsat z c.
Proof.
  intros HM E c Hc. apply (oflat_some _ _ _ E) in Hc as (e & l & He & El & Hc). specialize (HM e He). destruct e as [f|t|m]; cbn [lm_cons Dof_spec.met] in *.
  - apply obind_some in El as (b & Eb & El). injection El as <-. destruct b; cbn [negb andb] in Hc; [easy|]. destruct (useful r f); [|easy]. destruct Hc as [<-|[]]. unfold zsat. cbn [ge1 l_terms l_rel l_rhs].
    rewrite zval_cons, uf_new; [cbn; lia| |tauto]. unfold holds. unfold get in Eb. congruence.
  - injection El as <-. destruct (taskReachable r t); [|easy]. destruct Hc as [<-|[]]. unfold zsat. cbn [ge1 l_terms l_rel l_rhs]. rewrite zval_cons. cbn [z zval fold_right]. enough (1 <= u t)%nat by lia. unfold u.
    destruct HM as [(x & X1 & X2)|(m & md & M1 & M2 & M3)].
    + assert (X : In t lab) by (subst t; apply in_map; now apply (di_enum _ _ _ _ _ _ _ _ _ _ DI)). apply (count_occ_In Nat.eq_dec) in X. lia.
    + apply (count_occ_In Nat.eq_dec) in M3. enough (1 <= produced P ms t)%nat by lia. assert (MS : m_subs md = subs_of P m) by (unfold subs_of; now rewrite M2). rewrite MS in M3. unfold produced. clear -M1 M3. induction ms as [|n l IH]; [easy|]. cbn [map]. rewrite sum_cons.
      destruct M1 as [->|M1]; [lia|specialize (IH M1); lia].
  - injection El as <-. destruct (methodReachable r m); [|easy]. destruct Hc as [<-|[]]. unfold zsat. cbn [ge1 l_terms l_rel l_rhs]. rewrite zval_cons. cbn [z zval fold_right]. apply (count_occ_In Nat.eq_dec) in HM. lia.
Qed.
Lemma nets_ok V o nc : (o_net o = true -> vars_ok P V /\ sas_ok P V) -> net_cons P V o r s = Some nc -> forall c, In c nc -> zsat z c.
Proof.
  intros HV E c Hc. unfold net_cons in E. destruct (o_net o); [|injection E as <-; easy]. destruct (HV eq_refl) as [VO SA]. destruct (nc_tables_ok P V WP VO) as (x & Ex & AO & PO). rewrite Ex in E. cbn [obind] in E.
  apply (oflat_some _ _ _ E) in Hc as (f & l & Hf & El & Hc). unfold net_con in El. destruct (useful r f) eqn:Uf; [|injection El as <-; easy]. cbn [negb] in El. rewrite map_length in El.
  destruct (useful_new _ _ _ _ _ _ _ _ _ _ DI f Uf) as [Lf Nf]. destruct (containsInt_sound (p_goal P) f) as (g & Eg & Hg). rewrite Eg in El. cbn [obind] in El.
  apply obind_some in El as (w & _ & El). apply obind_some in El as (b & Eb & El). injection El as <-. destruct Hc as [<-|[]]. unfold holds in Nf. unfold get in Eb. assert (b = false) by (destruct b; congruence). subst b.
  destruct (net_change P V SA x AO PO f plan (holds s) false) as (b' & B1 & B2); [apply plan_lt|split; [easy|discriminate]|apply execs|]. cbn [b2n] in B2.
  unfold zsat. cbn [l_terms l_rel l_rhs]. rewrite !zval_app.
  assert (ON : forall c l, zval z (map (fun a => (c, UA a)) (filter (taskReachable r) (row na l f))) = c * Z.of_nat (uses (row na l f) plan)).
  { intros c l. rewrite (zval_map z c UA (cnt plan)).
    - rewrite uses_sum by (apply NoDup_filter, NoDup_filter, seq_NoDup). rewrite uses_filter by apply reach_all. reflexivity.
    - intros a Ha. apply filter_In in Ha as [Ha _]. apply in_row in Ha as [Ha _]. now apply zu_act. }
  rewrite !ON. destruct g; [|lia]. assert (b' = true) by (apply B1, execs, Hg; reflexivity). subst b'. cbn [b2n] in B2. lia.
Qed.

Lemma vars_in_bounds o vs : Z.of_nat (length plan) <= INT_MAX -> Z.of_nat (length ms) <= INT_MAX -> dof_vars P o r = Some vs -> forall v lo hi, In (v, (lo, hi)) vs -> lo <= z v <= hi.
Proof.
  intros LP LM E v lo hi H. unfold dof_vars in E. apply obind_some in E as (es & Ee & E). injection E as <-. rewrite !in_app_iff in H.
  assert (UB : forall t, 0 <= Z.of_nat (u t) <= INT_MAX).
  { intros t. destruct (Nat.lt_ge_cases t na) as [Q|Q]; [rewrite u_act by auto; pose proof (cnt_le plan t); lia|rewrite u_abs by auto; pose proof (consumed_le P ms t); lia]. }
  destruct H as [H|[H|[H|[H|H]]]].
  - apply in_map_iff in H as (f & H & _). injection H as <- <- <-. cbn [z]. destruct (achiever P plan f); lia.
  - apply in_map_iff in H as (t & H & _). injection H as <- <- <-. apply UB.
  - apply in_map_iff in H as (m & H & _). injection H as <- <- <-. cbn [z]. pose proof (cnt_le ms m). lia.
  - apply (oflat_some _ _ _ Ee) in H as (a & l & _ & El & H). apply obind_some in El as (l' & _ & El). injection El as <-. apply in_map_iff in H as ([i f] & H & _). injection H as <- <- <-. cbn [z]. destruct (ev a i); lia.
  - assert (X : In (v, (lo, hi)) (map (fun f => (TP f, (0, Z.of_nat na))) (r_useful r) ++ map (fun a => (TA a, (0, Z.of_nat na))) (acts P r))) by (destruct (o_pg o); [exact H|exact H|easy]). clear H.
    apply in_app_or in X as [H|H]; apply in_map_iff in H as (f & H & _); injection H as <- <- <-; cbn [z].
    + destruct (achiever P plan f) as [b|] eqn:Eb; [|lia]. apply achiever_in in Eb as [Eb _]. pose proof (time_lt_all plan b na plan_lt Eb). lia.
    + pose proof (time_le plan f na plan_lt). lia.
Qed.

(** *** All together *)
Lemma z_feasible V o cuts lms J : (o_pg o <> PgNone -> forall a, (cnt plan a <= 100)%nat) -> Z.of_nat (length plan) <= INT_MAX -> Z.of_nat (length ms) <= INT_MAX ->
  (forall c, In c cuts -> hit c) -> (forall e, In e lms -> met e) -> (o_net o = true -> vars_ok P V /\ sas_ok P V) ->
  dof_ilp P V o r s C cuts lms = Some J -> zfeasible J z.
Proof.
  intros H100 LP LM HC HL HV E. unfold dof_ilp in E. apply obind_some in E as (vs & E1 & E). apply obind_some in E as (ob & E2 & E). apply obind_some in E as (pc & E3 & E). apply obind_some in E as (hc & E4 & E).
  apply obind_some in E as (lc & E5 & E). apply obind_some in E as (nc & E6 & E). injection E as <-. split; cbn [i_vars i_cons].
  - eapply vars_in_bounds; eauto.
  - intros c Hc. rewrite !in_app_iff in Hc. destruct Hc as [Hc|[Hc|[Hc|[Hc|Hc]]]].
    + eapply pg_ok; eauto.
    + eapply htn_ok; eauto.
    + apply in_map_iff in Hc as (k & <- & Hc). apply cut_ok; auto.
    + eapply lms_ok; eauto.
    + eapply nets_ok; eauto.
Qed.
Definition measure (o : dof_opts) : nat := match o_setting o with Optimal => plan_cost P plan | Satisficing => length plan + length ms end.
Lemma length_sum (l : list nat) : list_sum (map (fun _ => 1%nat) l) = length l.
Proof. induction l as [|a l IH]; cbn [map length]; rewrite ?sum_cons; [reflexivity|lia]. Qed.
Lemma z_obj o ob : dof_obj P o r = Some ob -> zval z ob = Z.of_nat (measure o).
Proof.
  intros E. unfold dof_obj in E. destruct (relative _ _ _ _ _ _ _ _ _ _ DI) as (A & N1 & N2 & _). pose proof (acts_nodup P r N1) as NA. pose proof (in_acts _ _ _ _ _ _ _ _ _ _ DI) as IA. unfold measure. destruct (o_setting o).
  - injection E as <-. rewrite zval_app. rewrite (zval_map z 1 UA (fun a => 1 * cnt plan a)%nat) by (intros a Ha; apply IA in Ha; rewrite zu_act by tauto; lia).
    rewrite (zval_map z 1 MV (fun a => 1 * cnt ms a)%nat) by (intros; cbn [z]; lia). rewrite (sum_over (fun _ => 1%nat)); auto; [|apply plan_acts]. rewrite (sum_over (fun _ => 1%nat)); auto; [|apply ms_meths].
    rewrite !length_sum. lia.
  - unfold plan_cost. rewrite <- (sum_over (cost_of P) (acts P r) plan NA plan_acts). assert (HA : forall a, In a (acts P r) -> (a < na)%nat) by (intros a Ha; now apply IA). clear -E HA SO DI WP. revert ob E.
    induction (acts P r) as [|a l IH]; intros ob E; cbn [omap] in E; [injection E as <-; reflexivity|]. apply obind_some in E as (b & Eb & E). apply obind_some in E as (bs & Ebs & E). injection E as <-.
    apply obind_some in Eb as (k & Ek & Eb). injection Eb as <-. cbn [map]. rewrite sum_cons, zval_cons, (IH (fun x Hx => HA x (or_intror Hx)) bs Ebs), zu_act by (apply HA; now left). unfold cost_of, get in *. rewrite (nth_error_nth _ _ _ Ek) || rewrite Ek. lia.
Qed.
End Sol.
