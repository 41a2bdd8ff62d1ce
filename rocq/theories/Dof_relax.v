(** The variables of the program are declared; integral assignments are relaxed plans. *)
From Verif Require Import Base Htn_problem Htn_spec Heap_model IntUtil_model Tab_model Pg_model Pg_spec Pg_thm Rc_spec Lm_spec Dof_spec Dof_model Dof_count Dof_proof Dof_net Dof_main Dof_sol.
Local Open Scope Z_scope.

Lemma map_flat {A B D} (h : B -> D) (g : A -> list B) l : map h (flat_map g l) = flat_map (fun a => map h (g a)) l.
Proof. induction l as [|a l IH]; cbn; auto. now rewrite map_app, IH. Qed.

Section Relax.
Variables (al : nat -> list Z) (P : problem) (T : pg_tables) (q0 : heap) (s R : list bool) (r : pg_result) (tn : tnet) (L : list tid) (C : ctable).
Hypothesis DI : dof_input al P T q0 s R r tn L C.
Notation na := (length (p_cost P)).
Notation lab := (map (t_lab tn) L).
Let WP : wf_problem P := pi_wp _ _ _ _ _ _ (di_pg _ _ _ _ _ _ _ _ _ _ DI).
Let IA := in_acts _ _ _ _ _ _ _ _ _ _ DI.

Lemma acts_tasks a : In a (acts P r) -> In a (r_tasks r).
Proof. apply take_while_in. Qed.
Lemma reach_act a : In a (r_tasks r) -> (a < na)%nat -> In a (acts P r).
Proof. intros H1 H2. apply IA. split; auto. now apply memb_In. Qed.

(** *** Declarations *)
Section Decl.
Variables (o : dof_opts) (vs : list (var * (Z * Z))).
Hypothesis EVS : dof_vars P o r = Some vs.
Definition evs (a : nat) : list (var * (Z * Z)) := map (fun '(i, _) => (EV a i, (0, 1))) (filter (fun '(_, f) => useful r f) (enum (nth a (p_add P) []))).
Lemma vs_eq : vs = map (fun f => (UF f, (0, 1))) (r_useful r) ++ map (fun t => (UA t, (0, INT_MAX))) (r_tasks r) ++ map (fun m => (MV m, (0, INT_MAX))) (r_meths r) ++ flat_map evs (acts P r) ++
  match o_pg o with PgNone => [] | _ => map (fun f => (TP f, (0, Z.of_nat na))) (r_useful r) ++ map (fun a => (TA a, (0, Z.of_nat na))) (acts P r) end.
Proof.
  unfold dof_vars in EVS. erewrite oflat_map in EVS; [cbn [obind] in EVS; injection EVS as <-; reflexivity|]. intros a Ha. destruct (add_def _ _ _ _ _ _ _ _ _ _ DI a Ha) as (l & El).
  unfold e_list, get. rewrite El. cbn [obind]. unfold evs. now rewrite (nth_error_nth _ _ _ El).
Qed.
Definition bounds (v : var) : option (Z * Z) :=
  match v with UF _ | EV _ _ => Some (0, 1) | UA _ | MV _ => Some (0, INT_MAX) | TP _ | TA _ => Some (0, Z.of_nat na) | RV _ _ | IV _ _ _ => None end.
Lemma decl_uf f : useful r f = true -> In (UF f, (0, 1)) vs.
Proof. intros H. rewrite vs_eq. apply in_or_app. left. apply in_map_iff. exists f. split; auto. now apply memb_In. Qed.
Lemma decl_ua t : In t (r_tasks r) -> In (UA t, (0, INT_MAX)) vs.
Proof. intros H. rewrite vs_eq. rewrite !in_app_iff. right. left. apply in_map_iff. eauto. Qed.
Lemma decl_mv m : In m (r_meths r) -> In (MV m, (0, INT_MAX)) vs.
Proof. intros H. rewrite vs_eq. rewrite !in_app_iff. right. right. left. apply in_map_iff. eauto. Qed.
Lemma decl_ev a i l f : In a (acts P r) -> nth_error (p_add P) a = Some l -> nth_error l i = Some f -> useful r f = true -> In (EV a i, (0, 1)) vs.
Proof.
  intros Ha El Ei U. rewrite vs_eq. rewrite !in_app_iff. do 3 right. left. apply in_flat_map. exists a. split; auto. unfold evs. rewrite (nth_error_nth _ _ _ El). apply in_map_iff. exists (i, f). split; auto.
  apply filter_In. split; auto. now apply in_enum.
Qed.
Lemma decl_tp f : o_pg o <> PgNone -> useful r f = true -> In (TP f, (0, Z.of_nat na)) vs.
Proof. intros NO H. rewrite vs_eq. rewrite !in_app_iff. do 4 right. apply memb_In in H. destruct (o_pg o); [| |easy]; apply in_or_app; left; apply in_map_iff; eauto. Qed.
Lemma decl_ta a : o_pg o <> PgNone -> In a (acts P r) -> In (TA a, (0, Z.of_nat na)) vs.
Proof. intros NO H. rewrite vs_eq. rewrite !in_app_iff. do 4 right. destruct (o_pg o); [| |easy]; apply in_or_app; right; apply in_map_iff; eauto. Qed.

Lemma vs_nodup : NoDup (map fst vs).
Proof.
  destruct (relative _ _ _ _ _ _ _ _ _ _ DI) as (A & N1 & N2 & N3 & _). pose proof (acts_nodup P r N1) as NA. rewrite vs_eq, !map_app, !map_map. cbn [fst].
  assert (J : forall (K : nat -> var) l, (forall a b, K a = K b -> a = b) -> NoDup l -> NoDup (map K l)) by (intros K l HK; apply FinFun.Injective_map_NoDup; exact HK).
  apply nodup_app_iff. split; [apply J; auto; congruence|]. split.
  - apply nodup_app_iff. split; [apply J; auto; congruence|]. split.
    + apply nodup_app_iff. split; [apply J; auto; congruence|]. split.
      * apply nodup_app_iff. split; [|split].
        -- rewrite map_flat. apply flat_map_nodup; auto.
           ++ intros a _. unfold evs. rewrite map_map. rewrite (map_ext _ (fun p => EV a (fst p))) by (intros [i f]; reflexivity). rewrite <- (map_map fst (EV a)). apply J; [congruence|]. apply filter_fst_nodup. rewrite fst_enum. apply seq_NoDup.
           ++ intros a b v _ _ H1 H2. unfold evs in *. rewrite map_map in *. apply in_map_iff in H1 as ([i f] & <- & _). apply in_map_iff in H2 as ([j g] & H2 & _). cbn in H2. congruence.
        -- destruct (o_pg o); [| |constructor]; rewrite map_app, !map_map; cbn [fst]; (apply nodup_app_iff; split; [apply J; auto; congruence|]; split; [apply J; auto; congruence|]);
           intros v H1 H2; apply in_map_iff in H1 as (? & <- & _); apply in_map_iff in H2 as (? & ? & _); discriminate.
        -- intros v H1 H2. rewrite map_flat in H1. apply in_flat_map in H1 as (a & _ & H1). unfold evs in H1. rewrite map_map in H1. apply in_map_iff in H1 as ([i f] & <- & _). cbn [fst] in H2.
           destruct (o_pg o); [| |easy]; rewrite map_app, !map_map in H2; apply in_app_or in H2 as [H2|H2]; apply in_map_iff in H2 as (? & H2 & _); discriminate.
      * intros v H1 H2. apply in_map_iff in H1 as (m & <- & _). apply in_app_or in H2 as [H2|H2].
        -- rewrite map_flat in H2. apply in_flat_map in H2 as (a & _ & H2). unfold evs in H2. rewrite map_map in H2. apply in_map_iff in H2 as ([i f] & H2 & _). discriminate.
        -- destruct (o_pg o); [| |easy]; rewrite map_app, !map_map in H2; apply in_app_or in H2 as [H2|H2]; apply in_map_iff in H2 as (? & H2 & _); discriminate.
    + intros v H1 H2. apply in_map_iff in H1 as (t & <- & _). rewrite !in_app_iff in H2. destruct H2 as [H2|[H2|H2]].
      * apply in_map_iff in H2 as (? & H2 & _). discriminate.
      * rewrite map_flat in H2. apply in_flat_map in H2 as (a & _ & H2). unfold evs in H2. rewrite map_map in H2. apply in_map_iff in H2 as ([i f] & H2 & _). discriminate.
      * destruct (o_pg o); [| |easy]; rewrite map_app, !map_map in H2; apply in_app_or in H2 as [H2|H2]; apply in_map_iff in H2 as (? & H2 & _); discriminate.
  - intros v H1 H2. apply in_map_iff in H1 as (t & <- & _). rewrite !in_app_iff in H2. destruct H2 as [H2|[H2|[H2|H2]]].
    + apply in_map_iff in H2 as (? & H2 & _). discriminate.
    + apply in_map_iff in H2 as (? & H2 & _). discriminate.
    + rewrite map_flat in H2. apply in_flat_map in H2 as (a & _ & H2). unfold evs in H2. rewrite map_map in H2. apply in_map_iff in H2 as ([i f] & H2 & _). discriminate.
    + destruct (o_pg o); [| |easy]; rewrite map_app, !map_map in H2; apply in_app_or in H2 as [H2|H2]; apply in_map_iff in H2 as (? & H2 & _); discriminate.
Qed.
End Decl.

Definition known (vs : list (var * (Z * Z))) (ts : list (Z * var)) : Prop := forall k v, In (k, v) ts -> In v (map fst vs).
Lemma known_app vs a b : known vs a -> known vs b -> known vs (a ++ b).
Proof. intros H1 H2 k v H. apply in_app_or in H as [H|H]; eauto. Qed.
Lemma known_cons vs k v b l : In (v, l) vs -> known vs b -> known vs ((k, v) :: b).
Proof. intros H1 H2 k' v' [H|H]; [injection H as _ <-; apply in_map_iff; exists (v, l); auto|eauto]. Qed.
Lemma known_nil vs : known vs [].
Proof. easy. Qed.
Lemma known_map {A} vs k (F : A -> var) l : (forall a, In a l -> exists b, In (F a, b) vs) -> known vs (map (fun a => (k, F a)) l).
Proof. intros H k' v I. apply in_map_iff in I as (a & E & I). injection E as _ <-. destruct (H a I) as (b & Hb). apply in_map_iff. exists (F a, b). auto. Qed.

Lemma declared V o cuts lms J : dof_ilp P V o r s C cuts lms = Some J ->
  NoDup (map fst (i_vars J)) /\ known (i_vars J) (i_obj J) /\ forall c, In c (i_cons J) -> known (i_vars J) (l_terms c).
Proof.
  intros E. unfold dof_ilp in E. apply obind_some in E as (vs & E1 & E). apply obind_some in E as (ob & E2 & E). apply obind_some in E as (pc & E3 & E). apply obind_some in E as (hc & E4 & E).
  apply obind_some in E as (lc & E5 & E). apply obind_some in E as (nc & E6 & E). injection E as <-. cbn [i_vars i_obj i_cons].
  pose proof (decl_uf o vs E1) as DUF. pose proof (decl_ua o vs E1) as DUA. pose proof (decl_mv o vs E1) as DMV. pose proof (decl_ev o vs E1) as DEV. pose proof (decl_tp o vs E1) as DTP. pose proof (decl_ta o vs E1) as DTA.
  assert (TR : forall t, taskReachable r t = true -> In (UA t, (0, INT_MAX)) vs) by (intros t H; apply DUA; now apply memb_In).
  assert (MR : forall t, methodReachable r t = true -> In (MV t, (0, INT_MAX)) vs) by (intros t H; apply DMV; now apply memb_In).
  split; [eapply vs_nodup; eauto|]. split.
  - unfold dof_obj in E2. destruct (o_setting o).
    + injection E2 as <-. apply known_app; apply known_map; intros a Ha; [eauto using acts_tasks|eauto].
    + intros k v H. apply (omap_in _ _ _ E2) in H as (a & Ha & H). apply obind_some in H as (c & _ & H). injection H as _ <-. apply in_map_iff. exists (UA a, (0, INT_MAX)). split; auto. apply DUA, acts_tasks, Ha.
  - intros c Hc. rewrite !in_app_iff in Hc. destruct Hc as [Hc|[Hc|[Hc|[Hc|Hc]]]].
    + unfold pg_cons in E3. destruct (o_pg o) eqn:OP; [| |injection E3 as <-; easy].
      * apply obind_some in E3 as (l23 & E23 & E). apply obind_some in E as (l56 & E56 & E). apply obind_some in E56 as (l5 & E5' & E56). apply obind_some in E56 as (l6 & E6' & E56). injection E56 as <-. injection E as <-.
        assert (NO : PgFull <> PgNone) by discriminate.
        rewrite !in_app_iff in Hc. destruct Hc as [Hc|[Hc|[Hc|[Hc|Hc]]]].
        -- unfold c1 in Hc. apply in_map_iff in Hc as (f & <- & Hc). apply filter_In in Hc as [_ Hc]. eapply known_cons; eauto using known_nil.
        -- apply (oflat_some _ _ _ E23) in Hc as (a & l & Ha & El & Hc). unfold c23, p_list, e_list, get in El. apply obind_some in El as (ps & Ep & El). apply obind_some in El as (es & Ee & El). injection El as <-.
           apply obind_some in Ep as (lp & Elp & Ep). injection Ep as <-. apply obind_some in Ee as (le & Ele & Ee). injection Ee as <-. apply in_app_or in Hc as [Hc|Hc]; apply in_map_iff in Hc.
           ++ destruct Hc as (p & <- & Hc). apply filter_In in Hc as [_ Hc]. eapply known_cons; eauto. eapply known_cons; eauto using known_nil, acts_tasks.
           ++ destruct Hc as ([i f] & <- & Hc). apply filter_In in Hc as [Hc Hu]. apply in_enum in Hc. eapply known_cons; [eauto using acts_tasks|]. eapply known_cons; eauto using known_nil.
        -- apply in_map_iff in Hc as (f & <- & Hc). assert (Uf : useful r f = true) by now apply memb_In. unfold c4. cbn [eqc l_terms]. apply known_app; [|eapply known_cons; eauto using known_nil].
           intros k v H. apply in_map_iff in H as ([a i] & H & Hp). injection H as _ <-. apply filter_In in Hp as [Hp Ht]. apply in_inv_adds in Hp as (l & L1 & L2). apply in_map_iff. exists (EV a i, (0, 1)). split; auto.
           eapply DEV; eauto. apply IA. split; auto. rewrite <- (wf_add _ WP). apply nth_error_Some. congruence.
        -- apply (oflat_some _ _ _ E5') in Hc as (a & l & Ha & El & Hc). unfold c5, p_list, get in El. apply obind_some in El as (ps & Ep & El). injection El as <-. apply obind_some in Ep as (lp & Elp & Ep). injection Ep as <-.
           apply in_map_iff in Hc as (p & <- & Hc). apply filter_In in Hc as [_ Hc]. eapply known_cons; [eapply DTA; auto|]. eapply known_cons; [eapply DTP; auto|apply known_nil].
        -- apply (oflat_some _ _ _ E6') in Hc as (a & l & Ha & El & Hc). unfold c6, e_list, get in El. apply obind_some in El as (ps & Ep & El). injection El as <-. apply obind_some in Ep as (lp & Elp & Ep). injection Ep as <-.
           apply in_map_iff in Hc as ([i f] & <- & Hc). apply filter_In in Hc as [Hc Hu]. apply in_enum in Hc. eapply known_cons; [eapply DTA; auto|]. eapply known_cons; [eapply DTP; auto|]. eapply known_cons; [eauto|apply known_nil].
      * apply obind_some in E3 as (l23 & E23 & E). cbn [obind] in E. injection E as <-. rewrite !in_app_iff in Hc. destruct Hc as [Hc|[Hc|[Hc|[]]]].
        -- unfold c1 in Hc. apply in_map_iff in Hc as (f & <- & Hc). apply filter_In in Hc as [_ Hc]. eapply known_cons; eauto using known_nil.
        -- apply (oflat_some _ _ _ E23) in Hc as (a & l & Ha & El & Hc). unfold c23, p_list, e_list, get in El. apply obind_some in El as (ps & Ep & El). apply obind_some in El as (es & Ee & El). injection El as <-.
           apply obind_some in Ep as (lp & Elp & Ep). injection Ep as <-. apply obind_some in Ee as (le & Ele & Ee). injection Ee as <-. apply in_app_or in Hc as [Hc|Hc]; apply in_map_iff in Hc.
           ++ destruct Hc as (p & <- & Hc). apply filter_In in Hc as [_ Hc]. eapply known_cons; eauto. eapply known_cons; eauto using known_nil, acts_tasks.
           ++ destruct Hc as ([i f] & <- & Hc). apply filter_In in Hc as [Hc Hu]. apply in_enum in Hc. eapply known_cons; [eauto using acts_tasks|]. eapply known_cons; eauto using known_nil.
        -- apply in_map_iff in Hc as (f & <- & Hc). assert (Uf : useful r f = true) by now apply memb_In. unfold c4. cbn [eqc l_terms]. apply known_app; [|eapply known_cons; eauto using known_nil].
           intros k v H. apply in_map_iff in H as ([a i] & H & Hp). injection H as _ <-. apply filter_In in Hp as [Hp Ht]. apply in_inv_adds in Hp as (l & L1 & L2). apply in_map_iff. exists (EV a i, (0, 1)). split; auto.
           eapply DEV; eauto. apply IA. split; auto. rewrite <- (wf_add _ WP). apply nth_error_Some. congruence.
    + apply (oflat_some _ _ _ E4) in Hc as (t & l & Ht & El & Hc). unfold htn_cons in El. rewrite (tup_flat _ _ _ _ _ _ _ _ _ _ DI) in El. cbn [obind] in El. apply obind_some in El as (k & _ & El). injection El as <-. destruct Hc as [<-|Hc].
      * cbn [eqc l_terms]. apply known_app; [|eapply known_cons; eauto using known_nil]. intros k' v H. apply in_flat_map in H as (m & Hm & H). apply in_map_iff in H as (x & H & _). injection H as _ <-.
        apply in_map_iff. exists (MV m, (0, INT_MAX)). auto.
      * destruct (Nat.leb na t); [|easy]. destruct Hc as [<-|[]]. cbn [eqc l_terms]. apply known_app; [|eapply known_cons; eauto using known_nil]. apply known_map. intros m Hm. apply filter_In in Hm as [_ Hm]. eauto.
    + apply in_map_iff in Hc as (cut & <- & Hc). unfold cut_cons. cbn [ge1 l_terms]. intros k v H. apply in_flat_map in H as ([i x] & _ & H). apply in_map_iff.
      destruct (Nat.ltb i (fst cut)); [destruct (taskReachable r (Z.to_nat x)) eqn:Q|destruct (methodReachable r (Z.to_nat x)) eqn:Q]; try easy; destruct H as [H|[]]; injection H as _ <-;
      [exists (UA (Z.to_nat x), (0, INT_MAX))|exists (MV (Z.to_nat x), (0, INT_MAX))]; auto.
    + apply (oflat_some _ _ _ E5) in Hc as (e & l & He & El & Hc). destruct e as [f|t|m]; cbn [lm_cons] in El.
      * apply obind_some in El as (b & Eb & El). injection El as <-. destruct (negb b); [|easy]. cbn [andb] in Hc. destruct (useful r f) eqn:Q; [|easy]. destruct Hc as [<-|[]]. eapply known_cons; eauto using known_nil.
      * injection El as <-. destruct (taskReachable r t) eqn:Q; [|easy]. destruct Hc as [<-|[]]. eapply known_cons; eauto using known_nil.
      * injection El as <-. destruct (methodReachable r m) eqn:Q; [|easy]. destruct Hc as [<-|[]]. eapply known_cons; eauto using known_nil.
    + unfold net_cons in E6. destruct (o_net o); [|injection E6 as <-; easy]. apply obind_some in E6 as (x & Ex & E6). apply (oflat_some _ _ _ E6) in Hc as (f & l & Hf & El & Hc). unfold net_con in El.
      destruct (negb (useful r f)); [injection El as <-; easy|]. apply obind_some in El as (g & _ & El). apply obind_some in El as (w & _ & El). apply obind_some in El as (b & _ & El). injection El as <-. destruct Hc as [<-|[]].
      cbn [l_terms]. repeat apply known_app; apply known_map; intros a Ha; apply filter_In in Ha as [_ Ha]; eauto.
Qed.

(** *** Integral assignments *)
Lemma action_row a p : In a (acts P r) -> precs P a p -> useful r p = true \/ holds s p.
Proof.
  intros Ha Hp. destruct (relative _ _ _ _ _ _ _ _ _ _ DI) as (A & _ & _ & _ & HA & HT & _ & HU). apply IA in Ha as [Ha La].
  assert (IAA : In a A).
  { apply HT in Ha. inversion Ha as [? H|m md H Hm]; subst; auto. exfalso. apply nth_error_In in Hm. pose proof (wfm_task _ _ (wf_methods _ WP md Hm)) as X.
    rewrite (di_prim _ _ _ _ _ _ _ _ _ _ DI _ La) in X. discriminate. }
  destruct Hp as (l & El & Il). assert (Lp : (p < p_nfacts P)%nat) by (eapply (wf_facts _ WP l); [left; eapply nth_error_In; eauto|auto]).
  destruct (nth_error s p) as [[|]|] eqn:E; [right; exact E| |].
  - left. apply memb_In. apply HU. split; auto. split; [unfold holds; congruence|]. right. exists a. split; auto. exists l. auto.
  - apply nth_error_None in E. rewrite (pi_s _ _ _ _ _ _ (di_pg _ _ _ _ _ _ _ _ _ _ DI)) in E. lia.
Qed.

Lemma sum_pos {A} (zz : var -> Z) (F : A -> var) l : (forall a, In a l -> 0 <= zz (F a)) -> 1 <= zval zz (map (fun a => (1, F a)) l) -> exists a, In a l /\ 1 <= zz (F a).
Proof.
  induction l as [|a l IH]; intros H Q; [cbn in Q; lia|]. cbn [map] in Q. rewrite zval_cons in Q. destruct (Z.le_gt_cases 1 (zz (F a))) as [G|G]; [exists a; split; auto; now left|].
  destruct IH as (b & B1 & B2); [intros; apply H; now right|specialize (H a (or_introl eq_refl)); lia|]. exists b. split; auto. now right.
Qed.

Section Integral.
Variables (V : list (nat * nat)) (o : dof_opts) (cuts : list (nat * list Z)) (lms : list elem) (J : ilp) (w : var -> Z).
Hypothesis EJ : dof_ilp P V o r s C cuts lms = Some J.
Hypothesis FJ : zfeasible J w.

Lemma parts : exists vs pc hc, dof_vars P o r = Some vs /\ pg_cons P o r = Some pc /\ oflat (htn_cons P r C) (r_tasks r) = Some hc /\
  (forall v lo hi, In (v, (lo, hi)) vs -> lo <= w v <= hi) /\ (forall c, In c pc -> zsat w c) /\ (forall c, In c hc -> zsat w c).
Proof.
  destruct FJ as [F1 F2]. unfold dof_ilp in EJ. apply obind_some in EJ as (vs & E1 & E). apply obind_some in E as (ob & E2 & E). apply obind_some in E as (pc & E3 & E). apply obind_some in E as (hc & E4 & E).
  apply obind_some in E as (lc & E5 & E). apply obind_some in E as (nc & E6 & E). injection E as <-. cbn [i_vars i_obj i_cons] in *. exists vs, pc, hc. split; auto. split; auto. split; auto. split; auto.
  split; intros c Hc; apply F2; rewrite !in_app_iff; auto.
Qed.

Definition used_act (a : nat) : Prop := taskReachable r a = true /\ 1 <= w (UA a).
Lemma relaxed : o_pg o = PgFull -> forall n f, useful r f = true -> 1 <= w (UF f) -> w (TP f) <= Z.of_nat n -> fact_reach P (holds s) used_act f.
Proof.
  intros OP. destruct parts as (vs & pc & hc & Evs & Epc & _ & B & PC & _). unfold pg_cons in Epc. rewrite OP in Epc.
  apply obind_some in Epc as (l23 & E23 & E). apply obind_some in E as (l56 & E56 & E). apply obind_some in E56 as (l5 & E5' & E56). apply obind_some in E56 as (l6 & E6' & E56). injection E56 as <-. injection E as <-.
  induction n as [n IH] using lt_wf_ind. intros f Uf Wf Tf.
  assert (X : exists p, In p (filter (fun '(a, _) => taskReachable r a) (inv_adds P f)) /\ 1 <= w (EV (fst p) (snd p))).
  { assert (Q : zsat w (c4 P r f)) by (apply PC; rewrite !in_app_iff; right; right; left; apply in_map; now apply memb_In). unfold zsat, c4 in Q. cbn [eqc l_terms l_rel l_rhs] in Q. rewrite zval_app, zval_cons in Q. cbn [zval fold_right] in Q. fold (zval w (map (fun '(a, i) => (1, EV a i)) (filter (fun '(a, _) => taskReachable r a) (inv_adds P f)))) in Q.
    rewrite (map_ext (fun '(a, i) => (1, EV a i)) (fun p => (1, EV (fst p) (snd p)))) in Q by (intros [a i]; reflexivity). apply sum_pos; [|lia].
    intros [a i] H. apply filter_In in H as [H1 H2]. apply in_inv_adds in H1 as (l & L1 & L2). cbn [fst snd]. enough (G : 0 <= w (EV a i) <= 1) by lia. apply B. eapply decl_ev; eauto. apply IA. split; auto.
    rewrite <- (wf_add _ WP). apply nth_error_Some. congruence. }
  destruct X as ([a i] & H & We). cbn [fst snd] in We. apply filter_In in H as [H1 H2]. apply in_inv_adds in H1 as (l & L1 & L2).
  assert (Ha : In a (acts P r)). { apply IA. split; auto. rewrite <- (wf_add _ WP). apply nth_error_Some. congruence. }
  assert (EE : e_list P r a = Some (filter (fun '(_, f) => useful r f) (enum l))) by (unfold e_list, get; rewrite L1; reflexivity).
  assert (IE : In (i, f) (filter (fun '(_, f) => useful r f) (enum l))) by (apply filter_In; split; [now apply in_enum|auto]).
  destruct (prec_def _ _ _ _ _ _ _ _ _ _ DI a Ha) as (lp & Elp). assert (EP : p_list P r a = Some (filter (useful r) lp)) by (unfold p_list, get; rewrite Elp; reflexivity).
  assert (C3 : 1 <= w (UA a)).
  { assert (Q : zsat w (ge0 [(1, UA a); (-1, EV a i)])).
    { apply PC. rewrite !in_app_iff. right. left. apply (oflat_some _ _ _ E23). exists a. eexists. split; auto. unfold c23. rewrite EP, EE. cbn [obind]. split; [reflexivity|]. apply in_or_app. right. apply in_map_iff. exists (i, f). auto. }
    unfold zsat in Q. cbn [ge0 l_terms l_rel l_rhs zval fold_right] in Q. lia. }
  assert (C6 : w (TA a) + 1 <= w (TP f)).
  { assert (Q : zsat w {| l_terms := [(1, TA a); (-1, TP f); (Z.of_nat na + 1, EV a i)]; l_rel := LE; l_rhs := Z.of_nat na |}).
    { apply PC. rewrite !in_app_iff. do 4 right. apply (oflat_some _ _ _ E6'). exists a. eexists. split; auto. unfold c6. rewrite EE. cbn [obind]. split; [reflexivity|]. apply in_map_iff. exists (i, f). auto. }
    unfold zsat in Q. cbn [l_terms l_rel l_rhs zval fold_right] in Q. nia. }
  apply (fr_add _ _ _ a); [|exists l; split; auto; eapply nth_error_In; eauto]. apply IA in Ha as [Ra La]. constructor; auto; [split; auto|].
  intros p Hp. assert (Ha : In a (acts P r)) by (apply IA; auto). destruct (action_row a p Ha Hp) as [Up|Sp]; [|now apply fr_state].
  destruct Hp as (lp' & Elp' & Ip). assert (lp' = lp) by congruence. subst lp'. assert (Fp : In p (filter (useful r) lp)) by (apply filter_In; auto).
  assert (C2 : 1 <= w (UF p)).
  { assert (Q : zsat w (ge0 [(100, UF p); (-1, UA a)])).
    { apply PC. rewrite !in_app_iff. right. left. apply (oflat_some _ _ _ E23). exists a. eexists. split; auto. unfold c23. rewrite EP, EE. cbn [obind]. split; [reflexivity|]. apply in_or_app. left. apply in_map_iff. eauto. }
    unfold zsat in Q. cbn [ge0 l_terms l_rel l_rhs zval fold_right] in Q. lia. }
  assert (C5 : w (TP p) <= w (TA a)).
  { assert (Q : zsat w (ge0 [(1, TA a); (-1, TP p)])).
    { apply PC. rewrite !in_app_iff. do 3 right. left. apply (oflat_some _ _ _ E5'). exists a. eexists. split; auto. unfold c5. rewrite EP. cbn [obind]. split; [reflexivity|]. apply in_map_iff. eauto. }
    unfold zsat in Q. cbn [ge0 l_terms l_rel l_rhs zval fold_right] in Q. lia. }
  assert (T0 : 0 <= w (TP p) <= Z.of_nat na) by (apply B; eapply decl_tp; eauto; rewrite OP; discriminate).
  apply (IH (Z.to_nat (w (TP p)))); auto; lia.
Qed.
Lemma relaxed_plan : o_pg o = PgFull -> (forall a, (a < na)%nat -> used_act a -> act_reach P (holds s) used_act a) /\ (forall f, In f (p_goal P) -> fact_reach P (holds s) used_act f).
Proof.
  intros OP. destruct parts as (vs & pc & hc & Evs & Epc & _ & B & PC & _). unfold pg_cons in Epc. rewrite OP in Epc.
  apply obind_some in Epc as (l23 & E23 & E). apply obind_some in E as (l56 & E56 & E). injection E as <-.
  assert (RX : forall f, useful r f = true -> 1 <= w (UF f) -> fact_reach P (holds s) used_act f).
  { intros f Uf Wf. assert (T0 : 0 <= w (TP f) <= Z.of_nat na) by (apply B; eapply decl_tp; eauto; rewrite OP; discriminate). apply (relaxed OP na); auto; lia. }
  split.
  - intros a La [Ra Wa]. assert (Ha : In a (acts P r)) by (apply IA; auto). constructor; auto; [split; auto|]. intros p Hp. destruct (action_row a p Ha Hp) as [Up|Sp]; [|now apply fr_state]. apply RX; auto.
    destruct Hp as (lp & Elp & Ip). assert (EP : p_list P r a = Some (filter (useful r) lp)) by (unfold p_list, get; rewrite Elp; reflexivity). destruct (e_list_def _ _ _ _ _ _ _ _ _ _ DI a Ha) as (le & EE).
    assert (Q : zsat w (ge0 [(100, UF p); (-1, UA a)])).
    { apply PC. rewrite !in_app_iff. right. left. apply (oflat_some _ _ _ E23). exists a. eexists. split; auto. unfold c23. rewrite EP, EE. cbn [obind]. split; [reflexivity|]. apply in_or_app. left. apply in_map_iff. exists p. split; auto. now apply filter_In. }
    unfold zsat in Q. cbn [ge0 l_terms l_rel l_rhs zval fold_right] in Q. lia.
  - intros f Hf. destruct (useful r f) eqn:Uf.
    + apply RX; auto. assert (Q : zsat w (eqc [(1, UF f)] 1)) by (apply PC; rewrite in_app_iff; left; apply in_map_iff; exists f; split; auto; now apply filter_In).
      unfold zsat in Q. cbn [eqc l_terms l_rel l_rhs zval fold_right] in Q. lia.
    + apply fr_state. destruct (relative _ _ _ _ _ _ _ _ _ _ DI) as (A & _ & _ & _ & _ & _ & _ & HU). pose proof (wf_goal _ WP f Hf) as Lf. destruct (nth_error s f) as [[|]|] eqn:E; [exact E| |].
      * exfalso. apply memb_false in Uf. apply Uf. apply HU. split; auto. split; [unfold holds; congruence|auto].
      * apply nth_error_None in E. rewrite (pi_s _ _ _ _ _ _ (di_pg _ _ _ _ _ _ _ _ _ _ DI)) in E. lia.
Qed.

(** The tasks and methods with a positive value support each other. *)
Lemma supported : (forall x, t_in tn x -> taskReachable r (t_lab tn x) = true -> 1 <= w (UA (t_lab tn x))) /\
  (forall t, (na <= t)%nat -> taskReachable r t = true -> 1 <= w (UA t) -> exists m md, methodReachable r m = true /\ nth_error (p_methods P) m = Some md /\ m_task md = t /\ 1 <= w (MV m)) /\
  (forall m md t, methodReachable r m = true -> nth_error (p_methods P) m = Some md -> 1 <= w (MV m) -> In t (m_subs md) -> taskReachable r t = true /\ 1 <= w (UA t)).
Proof.
  destruct parts as (vs & pc & hc & Evs & _ & Ehc & B & _ & HC).
  assert (MN : forall m, In m (r_meths r) -> 0 <= w (MV m)) by (intros m Hm; enough (0 <= w (MV m) <= INT_MAX) by lia; apply B; eapply decl_mv; eauto).
  assert (C7 : forall t, taskReachable r t = true -> w (UA t) = zval w (flat_map (fun m => map (fun _ => (1, MV m)) (filter (Nat.eqb t) (subs_of P m))) (r_meths r)) + Z.of_nat (cnt lab t)).
  { intros t Ht. apply memb_In in Ht. match goal with |- _ = zval w ?ts + _ => assert (Q : zsat w (eqc (ts ++ [(-1, UA t)]) (- Z.of_nat (cnt lab t)))) end.
    { apply HC. apply (oflat_some _ _ _ Ehc). exists t. eexists. split; auto. unfold htn_cons. rewrite (tup_flat _ _ _ _ _ _ _ _ _ _ DI), (tn_count_ok _ _ _ _ _ _ _ _ _ _ DI). cbn [obind]. split; [reflexivity|]. now left. }
    unfold zsat in Q. cbn [eqc l_terms l_rel l_rhs] in Q. rewrite zval_app, zval_cons in Q. cbn [zval fold_right] in Q. fold (zval w (flat_map (fun m => map (fun _ => (1, MV m)) (filter (Nat.eqb t) (subs_of P m))) (r_meths r))) in Q. lia. }
  assert (NN : forall ts, (forall k v, In (k, v) ts -> k = 1 /\ exists m, v = MV m /\ In m (r_meths r)) -> 0 <= zval w ts).
  { induction ts as [|[k v] ts IH]; intros H; [cbn; lia|]. rewrite zval_cons. destruct (H k v (or_introl eq_refl)) as (-> & m & -> & Hm). specialize (MN m Hm). assert (0 <= zval w ts) by (apply IH; intros; apply H; now right). lia. }
  assert (MT : forall t k v, In (k, v) (flat_map (fun m => map (fun _ => (1, MV m)) (filter (Nat.eqb t) (subs_of P m))) (r_meths r)) -> k = 1 /\ exists m, v = MV m /\ In m (r_meths r)).
  { intros t k v H. apply in_flat_map in H as (m & Hm & H). apply in_map_iff in H as (y & H & _). injection H as <- <-. eauto. }
  split; [|split].
  - intros x Hx Rx. rewrite C7 by auto. pose proof (NN _ (MT (t_lab tn x))). enough (1 <= cnt lab (t_lab tn x))%nat by lia. apply (count_occ_In Nat.eq_dec). apply in_map. now apply (di_enum _ _ _ _ _ _ _ _ _ _ DI).
  - intros t Lt Rt Wt. assert (Q : zsat w (eqc (map (fun m => (1, MV m)) (filter (methodReachable r) (methods_of P t)) ++ [(-1, UA t)]) 0)).
    { apply HC. apply (oflat_some _ _ _ Ehc). exists t. eexists. split; [now apply memb_In|]. unfold htn_cons. rewrite (tup_flat _ _ _ _ _ _ _ _ _ _ DI), (tn_count_ok _ _ _ _ _ _ _ _ _ _ DI). cbn [obind]. split; [reflexivity|].
      right. apply Nat.leb_le in Lt. rewrite Lt. now left. }
    unfold zsat in Q. cbn [eqc l_terms l_rel l_rhs] in Q. rewrite zval_app, zval_cons in Q. cbn [zval fold_right] in Q. fold (zval w (map (fun m => (1, MV m)) (filter (methodReachable r) (methods_of P t)))) in Q.
    destruct (sum_pos w MV (filter (methodReachable r) (methods_of P t))) as (m & Hm & Wm); [|lia|].
    + intros m Hm. apply filter_In in Hm as [_ Hm]. apply MN. now apply memb_In.
    + apply filter_In in Hm as [H1 H2]. apply in_methods_of in H1. unfold task_of in H1. destruct (nth_error (p_methods P) m) as [md|] eqn:E; [|discriminate]. cbn in H1. injection H1 as H1. exists m, md. auto.
  - intros m md t Rm Em Wm It.
    assert (Rt : taskReachable r t = true).
    { destruct (relative _ _ _ _ _ _ _ _ _ _ DI) as (A & _ & _ & _ & _ & HT & HM & _). apply HM in Rm. inversion Rm as [? md' E' _ Hs]; subst. assert (md' = md) by congruence. subst. apply HT. auto. }
    split; auto. rewrite C7 by auto.
    assert (G : forall ts, In (1, MV m) ts -> (forall k v, In (k, v) ts -> k = 1 /\ exists m, v = MV m /\ In m (r_meths r)) -> 1 <= zval w ts).
    { induction ts as [|[k v] ts IH]; intros I H; [easy|]. rewrite zval_cons. destruct (H k v (or_introl eq_refl)) as (-> & m' & -> & Hm'). specialize (MN m' Hm').
      assert (0 <= zval w ts) by (apply NN; intros; apply H; now right). destruct I as [I|I]; [injection I as ->; lia|]. assert (1 <= zval w ts) by (apply IH; auto; intros; apply H; now right). lia. }
    enough (1 <= zval w (flat_map (fun m => map (fun _ => (1, MV m)) (filter (Nat.eqb t) (subs_of P m))) (r_meths r))) by lia. apply G; [|apply MT].
    apply in_flat_map. exists m. split; [now apply memb_In|]. apply in_map_iff. exists t. split; auto. apply filter_In. split; [unfold subs_of; now rewrite Em|apply Nat.eqb_refl].
Qed.

Lemma zval_pos ts : (forall k v, In (k, v) ts -> k = 1 /\ 0 <= w v) -> 1 <= zval w ts -> exists v, In (1, v) ts /\ 1 <= w v.
Proof.
  induction ts as [|[k v] ts IH]; intros H Q; [cbn in Q; lia|]. rewrite zval_cons in Q. destruct (H k v (or_introl eq_refl)) as [-> Wv]. destruct (Z.le_gt_cases 1 (w v)) as [G|G]; [exists v; split; auto; now left|].
  destruct IH as (y & Y1 & Y2); [intros; apply H; now right|lia|]. exists y. split; auto. now right.
Qed.
(** The cuts are hit and the landmarks are met by the assignment. *)
Lemma enforced : (forall fm lm, In (fm, lm) cuts -> exists i x, nth_error lm i = Some x /\
    (((i < fm)%nat /\ taskReachable r (Z.to_nat x) = true /\ 1 <= w (UA (Z.to_nat x))) \/ ((fm <= i)%nat /\ methodReachable r (Z.to_nat x) = true /\ 1 <= w (MV (Z.to_nat x))))) /\
  (forall e, In e lms -> match e with EF f => holds s f \/ (useful r f = true -> 1 <= w (UF f)) | ET t => taskReachable r t = true -> 1 <= w (UA t) | EM m => methodReachable r m = true -> 1 <= w (MV m) end).
Proof.
  destruct FJ as [F1 F2]. unfold dof_ilp in EJ. apply obind_some in EJ as (vs & E1 & E). apply obind_some in E as (ob & E2 & E). apply obind_some in E as (pc & E3 & E). apply obind_some in E as (hc & E4 & E).
  apply obind_some in E as (lc & E5 & E). apply obind_some in E as (nc & E6 & E). injection E as <-. cbn [i_vars i_obj i_cons] in *.
  assert (MN : forall m, methodReachable r m = true -> 0 <= w (MV m)) by (intros m Hm; apply memb_In in Hm; enough (0 <= w (MV m) <= INT_MAX) by lia; apply F1; eapply decl_mv; eauto).
  assert (TN : forall m, taskReachable r m = true -> 0 <= w (UA m)) by (intros m Hm; apply memb_In in Hm; enough (0 <= w (UA m) <= INT_MAX) by lia; apply F1; eapply decl_ua; eauto).
  split.
  - intros fm lm H. assert (Q : zsat w (cut_cons r (fm, lm))) by (apply F2; rewrite !in_app_iff; right; right; left; now apply in_map).
    unfold zsat, cut_cons in Q. cbn [ge1 l_terms l_rel l_rhs fst snd] in Q. apply zval_pos in Q as (v & Iv & Wv).
    + apply in_flat_map in Iv as ([i x] & Ix & Iv). apply in_enum in Ix. exists i, x. split; auto. destruct (Nat.ltb_spec i fm).
      * destruct (taskReachable r (Z.to_nat x)) eqn:Q; [|easy]. destruct Iv as [Iv|[]]. injection Iv as <-. auto.
      * destruct (methodReachable r (Z.to_nat x)) eqn:Q; [|easy]. destruct Iv as [Iv|[]]. injection Iv as <-. auto.
    + intros k v' I. apply in_flat_map in I as ([i x] & _ & I). destruct (Nat.ltb i fm); [destruct (taskReachable r (Z.to_nat x)) eqn:G|destruct (methodReachable r (Z.to_nat x)) eqn:G]; try easy; destruct I as [I|[]]; injection I as <- <-; auto.
  - assert (K : forall e l c, In e lms -> lm_cons r s e = Some l -> In c l -> zsat w c) by (intros e l c He El Hc; apply F2; rewrite !in_app_iff; right; right; right; left; apply (oflat_some _ _ _ E5); eauto).
    intros [f|t|m] He.
    + destruct (get s f) as [b|] eqn:Eb; [|exfalso; unfold oflat in E5; apply obind_some in E5 as (ls & E5 & _); clear -E5 He Eb; revert ls E5; induction lms as [|e l IH]; intros ls E5; [easy|];
        cbn [omap] in E5; apply obind_some in E5 as (c & Ec & E5); apply obind_some in E5 as (cs' & Ecs & E5); destruct He as [->|He]; [cbn in Ec; rewrite Eb in Ec; discriminate|eauto]].
      destruct b; [left; exact Eb|]. right. intros Uf. specialize (K (EF f) [ge1 [(1, UF f)]] (ge1 [(1, UF f)]) He). cbn [lm_cons] in K. rewrite Eb in K. cbn [obind negb andb] in K. rewrite Uf in K.
      specialize (K eq_refl (or_introl eq_refl)). unfold zsat in K. cbn [ge1 l_terms l_rel l_rhs zval fold_right] in K. lia.
    + intros Q. specialize (K (ET t) [ge1 [(1, UA t)]] (ge1 [(1, UA t)]) He). cbn [lm_cons] in K. rewrite Q in K. specialize (K eq_refl (or_introl eq_refl)). unfold zsat in K. cbn [ge1 l_terms l_rel l_rhs zval fold_right] in K. lia.
    + intros Q. specialize (K (EM m) [ge1 [(1, MV m)]] (ge1 [(1, MV m)]) He). cbn [lm_cons] in K. rewrite Q in K. specialize (K eq_refl (or_introl eq_refl)). unfold zsat in K. cbn [ge1 l_terms l_rel l_rhs zval fold_right] in K. lia.
Qed.
End Integral.
End Relax.
