(** The written task for partially ordered problems: initial state, goal and operators, and its runs. *)
From Verif Require Import Base Htn_problem Htn_spec To_spec Sas_model Sas_spec Sas_proof Sas_sim Sas_act Sas_rep Sas_stack Sas_ops Push_model Push_spec Push_net Push_sys Push_run Push_sim.

(** ** The order of the subtasks *)
Section Reorder.
  Variables (prim : list bool) (m : method) (n : nat).
  Hypotheses (En : n = length (m_subs m)) (LT : forall a b, In (a, b) (m_ord m) -> a < b) (LN : forall a b, In (a, b) (m_ord m) -> b < n).
  Hypothesis (LAST : m_ord m <> [] -> In (n - 2, n - 1) (m_ord m)).

  Lemma chosen_seq k a : forall j b, b <= k < b + j -> k <= a -> chosen (seq b j) k a = SeenK.
  Proof.
    induction j as [|j IH]; intros b L La; [lia|]. cbn [seq chosen]. destruct (Nat.eqb_spec k b); auto. destruct (Nat.eqb_spec a b); [lia|]. apply IH; lia.
  Qed.
  Lemma not_alone_seq ord a b j k : In (a, b) ord -> k < j -> k <= a -> not_alone ord (seq 0 j) k = true.
  Proof.
    intros I Lj La. induction ord as [|[x y] r IH]; [destruct I|]. cbn [not_alone]. destruct I as [[= -> ->]|I]; [now rewrite chosen_seq by lia|]. destruct (chosen (seq 0 j) k x); auto. destruct (y =? k); auto.
  Qed.
  Lemma po_pick_next j : m_ord m <> [] -> j < n -> pick n (m_ord m) (seq 0 j) = Some j.
  Proof.
    intros NE L. unfold pick. replace (seq 0 n) with (seq 0 j ++ j :: seq (S j) (n - S j)).
    - apply find_first.
      + intros y Hy. apply in_seq in Hy. now rewrite (not_alone_seq _ (n - 2) (n - 1)) by (auto; lia).
      + rewrite not_alone_free; auto; [rewrite in_seq; lia|]. intros a I. apply LT in I. apply in_seq. lia.
    - replace n with (j + S (n - S j)) at 2 by lia. rewrite seq_app. reflexivity.
  Qed.
  Lemma po_picks k : m_ord m <> [] -> forall j, j + k = n -> picks n (m_ord m) k (seq 0 j) = Some (seq 0 n).
  Proof.
    intros NE. induction k as [|k IH]; intros j E; cbn [picks]; [do 2 f_equal; lia|]. rewrite po_pick_next by (auto; lia). cbn [obind]. replace (seq 0 j ++ [j]) with (seq 0 (S j)) by (replace (S j) with (j + 1) by lia; now rewrite seq_app). apply IH; lia.
  Qed.
  Lemma po_reorder_id : m_subs m <> [] -> (forall t, In t (m_subs m) -> t < length prim) -> po_reorder prim m = Some (rev (m_subs m), mord m).
  Proof.
    intros NE LP. destruct (lead_some prim (m_subs m) LP) as (f & Lf). assert (X := fun q => po_picks n q 0 eq_refl). unfold po_reorder. rewrite <- En.
    assert (M : omap (fun e => a <- get (seq 0 n) (fst e) ;; b <- get (seq 0 n) (snd e) ;; Some (n - 1 - a, n - 1 - b)) (m_ord m) = Some (mord m)).
    { apply omap_f2. unfold mord. rewrite <- En. assert (Q : forall e, In e (m_ord m) -> fst e < n /\ snd e < n) by (intros [a b] I; split; [apply LN in I as Y; apply LT in I; cbn; lia|apply (LN a b I)]). clear - Q. induction (m_ord m) as [|e l IH]; cbn [map]; constructor; [|apply IH; intros; apply Q; now right].
      destruct (Q e (or_introl eq_refl)) as [A B]. unfold get. rewrite !(nth_error_nth' _ 0) by (rewrite seq_length; auto). now rewrite !seq_nth. }
    destruct (m_subs m) as [|t [|t2 r]] eqn:Es; [congruence| |].
    - destruct (get_some prim t) as (b & Eb); [apply LP; now left|]. rewrite Eb. cbn [obind rev app]. do 2 f_equal. destruct (m_ord m) as [|[x y] l] eqn:Eo; [unfold mord; now rewrite Eo|]. exfalso. assert (Y := LN x y (or_introl eq_refl)). assert (Z := LT x y (or_introl eq_refl)). cbn in En. lia.
    - destruct (m_ord m) as [|o os] eqn:Eo; [unfold mord; now rewrite Eo|]. change (@nil nat) with (seq 0 0). rewrite X by discriminate. cbn [obind]. rewrite M. rewrite En, omap_rev_get. cbn [obind]. rewrite Lf. reflexivity.
  Qed.
End Reorder.

Section Ops.
  Variables (P : problem) (V : list (nat * nat)) (S : sproblem) (pgb : nat) (c : list (option (nat * nat))) (u : nat -> nat -> nat -> nat * nat).
  Hypotheses (WF : wf_problem P) (IV : intervals 0 V (p_nfacts P)) (SP : sp_ok P V S).
  Hypotheses (OV : one_value_reach P V) (PF : prec_functional P V) (SE : single_effects P V) (AF : actions_first P).
  Hypothesis (PG : 1 <= pgb).
  Hypothesis (EC : conv_array (pvars P S pgb) = Some c).
  Hypotheses (LP : listed_po P) (ZU : zeroed u) (NZ : length (sp_var S) <> 0).
  Notation W := (sp_var S).
  Notation nV := (length (sp_var S)).
  Notation cv := (conv c).
  Notation like := (like P V S pgb).
  Notation agrees := (agrees pgb).
  Notation fact := (fact P S pgb).

  Lemma reordered m : In m (p_methods P) -> po_reorder (p_prim P) m = Some (rev (m_subs m), mord m).
  Proof.
    intros I. assert (WM := wf_methods P WF m I). destruct (LP m I) as [L1 L2]. apply (po_reorder_id _ m (length (m_subs m))); auto.
    - intros a b J. apply (wfm_ord P m WM a b J).
    - apply (wfm_nonempty P m WM).
    - apply (wfm_subs P m WM).
  Qed.

  Definition opl (n : pname) (f : cd_op) : Prop :=
    match n with
    | QPrim i j => i < length (p_cost P) /\ j < pgb /\ like [i] (act_s pgb i j) (cost_of P i) f
    | QMeth i j _ => exists m, nth_error (p_methods P) i = Some m /\ length (m_subs m) + j <= pgb /\ like [] (msop pgb m j) 0 f
    | QMove i j _ => i < ntasks P /\ 1 <= j < pgb /\ like [] (move_s pgb i j) 0 f
    end.

  Lemma concat_in {A B} (f : A -> option (list B)) l l' x : omap f l = Some l' -> (In x (concat l') <-> exists a y, In a l /\ f a = Some y /\ In x y).
  Proof.
    intros E. rewrite in_concat. split.
    - intros (y & I & J). destruct (omap_in _ _ _ _ E I) as (a & Ia & Ea). eauto.
    - intros (a & y & I & Ea & J). destruct (omap_in' _ _ _ _ E I) as (y' & I' & Ea'). rewrite Ea in Ea'. injection Ea' as <-. eauto.
  Qed.
  Lemma nth_combine {A} (l : list A) : forall k i x, In (i, x) (combine (seq k (length l)) l) <-> k <= i /\ nth_error l (i - k) = Some x.
  Proof.
    induction l as [|y l IH]; intros k i x; cbn [length seq combine In]; [split; [tauto|intros [_ H]; now destruct (i - k)]|]. rewrite IH. split.
    - intros [[= <- <-]|[L E]]; [now rewrite Nat.sub_diag|]. split; [lia|]. replace (i - k) with (Datatypes.S (i - Datatypes.S k)) by lia. exact E.
    - intros [L E]. destruct (Nat.eq_dec i k) as [->|N]; [rewrite Nat.sub_diag in E; cbn in E; left; congruence|]. right. split; [lia|]. replace (i - k) with (Datatypes.S (i - Datatypes.S k)) in E by lia. exact E.
  Qed.

  Lemma pacts_ok : exists l, pact_ops P S pgb = Some l /\
    forall o, In o l <-> exists i j p a, i < length (p_cost P) /\ j < pgb /\ get (sp_prec S) i = Some p /\ get (sp_add S) i = Some a /\ o = pact_op P S pgb i p a (cost_of P i) j.
  Proof.
    assert (CO : forall i, i < length (p_cost P) -> get (p_cost P) i = Some (cost_of P i)) by (intros i L; unfold get, cost_of; now apply nth_error_nth').
    set (f := fun i => p <- get (sp_prec S) i ;; a <- get (sp_add S) i ;; c0 <- get (p_cost P) i ;; Some (map (pact_op P S pgb i p a c0) (seq 0 pgb))).
    destruct (omap_some f (seq 0 (length (p_cost P)))) as (l & E).
    { intros i I. apply in_seq in I. destruct (act_lists P V S WF SP i ltac:(lia)) as (p & a & Ep & Ea). unfold f. rewrite Ep, Ea, CO by lia. cbn. eauto. }
    exists (concat l). unfold pact_ops. fold f. rewrite E. split; [reflexivity|]. intros o. rewrite (concat_in f _ _ _ E). split.
    - intros (i & y & I & Ey & J). apply in_seq in I. unfold f in Ey. apply obind_some in Ey as (p & Ep & Ey). apply obind_some in Ey as (a & Ea & Ey). rewrite CO in Ey by lia. injection Ey as <-. apply in_map_iff in J as (j & <- & J). apply in_seq in J. exists i, j, p, a. repeat split; auto; lia.
    - intros (i & j & p & a & Li & Lj & Ep & Ea & ->). exists i, (map (pact_op P S pgb i p a (cost_of P i)) (seq 0 pgb)). split; [apply in_seq; lia|]. split; [unfold f; now rewrite Ep, Ea, CO|]. apply in_map, in_seq. lia.
  Qed.
  Lemma pmeths_ok : exists l, pmeth_ops P S pgb = Some l /\
    forall o, In o l <-> exists i m j, nth_error (p_methods P) i = Some m /\ j < pgb /\ o = pmeth_op P S pgb i m (rev (m_subs m)) (mord m) j.
  Proof.
    set (f := fun im : nat * method => '(s, o) <- po_reorder (p_prim P) (snd im) ;; Some (map (pmeth_op P S pgb (fst im) (snd im) s o) (seq 0 pgb))).
    assert (F : forall i m, nth_error (p_methods P) i = Some m -> f (i, m) = Some (map (pmeth_op P S pgb i m (rev (m_subs m)) (mord m)) (seq 0 pgb))).
    { intros i m E. unfold f. cbn [fst snd]. rewrite reordered by (eapply nth_error_In; eauto). reflexivity. }
    destruct (omap_some f (combine (seq 0 (length (p_methods P))) (p_methods P))) as (l & E).
    { intros [i m] I. apply nth_combine in I as [_ I]. rewrite Nat.sub_0_r in I. rewrite F by auto. eauto. }
    exists (concat l). unfold pmeth_ops. fold f. rewrite E. split; [reflexivity|]. intros o. rewrite (concat_in f _ _ _ E). split.
    - intros ([i m] & y & I & Ey & J). apply nth_combine in I as [_ I]. rewrite Nat.sub_0_r in I. rewrite F in Ey by auto. injection Ey as <-. apply in_map_iff in J as (j & <- & J). apply in_seq in J. exists i, m, j. repeat split; auto; lia.
    - intros (i & m & j & En & Lj & ->). exists (i, m). eexists. split; [apply nth_combine; rewrite Nat.sub_0_r; split; [lia|auto]|]. split; [now apply F|]. apply in_map, in_seq. lia.
  Qed.
  Lemma moves_in o : In o (move_ops P S pgb u) <-> exists i j, i < ntasks P /\ 1 <= j < pgb /\ o = move_op P S pgb u i j.
  Proof.
    unfold move_ops. rewrite in_concat. split.
    - intros (y & I & J). apply in_map_iff in I as (i & <- & I). apply in_map_iff in J as (j & <- & J). apply in_seq in I, J. exists i, j. repeat split; lia.
    - intros (i & j & Li & Lj & ->). exists (map (move_op P S pgb u i) (seq 1 (pgb - 1))). split; [apply (in_map (fun i => map (move_op P S pgb u i) (seq 1 (pgb - 1)))), in_seq; lia|]. apply in_map, in_seq. lia.
  Qed.

  (** ** The initial state *)
  Definition c0 : conf := fun s => match s with ST 0 => Datatypes.S (p_init P) | SK 0 => 1 | _ => 0 end.
  Lemma cons_slots n : forall a, a + n <= tri pgb -> exists l, map (ix pgb) l = seq (pgb + a) n /\ (forall s, In s l -> valid pgb s /\ exists k j, s = SC k j) /\ map (fun s => fact (s, c0 s)) l = map (cn P S pgb) (seq a n).
  Proof.
    induction n as [|n IH]; intros a L; [exists []; cbn; repeat split; auto; tauto|]. destruct (IH (Datatypes.S a) ltac:(lia)) as (l & E & H & F).
    destruct (ix_surj pgb (pgb + a)) as (s & Vs & Es); [unfold nslots; lia|]. destruct s as [p|k j|p|p]; cbn [ix valid] in Es, Vs; try lia.
    exists (SC k j :: l). cbn [map seq ix]. split; [|split].
    - f_equal; [lia|]. rewrite E. f_equal. lia.
    - intros s [<-|I]; [|auto]. split; [exact Vs|eauto].
    - rewrite F. f_equal. unfold Push_sim.fact. cbn [fst snd bs c0]. rewrite Nat.add_0_r. f_equal. lia.
  Qed.
  Lemma seq_map_ix (g : nat -> slot) b k : (forall p, ix pgb (g p) = b + p) -> forall a, map (ix pgb) (map g (seq a k)) = seq (b + a) k.
  Proof. intros H. induction k as [|k IH]; intros a; cbn [seq map]; auto. f_equal; [apply H|]. rewrite IH. f_equal. lia. Qed.
  Lemma init_slots : exists l, map (ix pgb) l = seq 0 (nslots pgb) /\ (forall s, In s l -> valid pgb s) /\ map (fun s => fact (s, c0 s)) l = ps0 P S pgb.
  Proof.
    destruct (cons_slots (tri pgb) 0 (le_n _)) as (l & E & H & F). rewrite Nat.add_0_r in E.
    assert (SQ : seq 0 pgb = 0 :: seq 1 (pgb - 1)) by (replace pgb with (Datatypes.S (pgb - 1)) at 1 by lia; reflexivity).
    exists (map ST (seq 0 pgb) ++ l ++ map SK (seq 0 pgb) ++ map SM (seq 0 pgb)). split; [|split].
    - rewrite !map_app, E, (seq_map_ix ST 0), (seq_map_ix SK (pgb + tri pgb)), (seq_map_ix SM (pgb + tri pgb + pgb)) by (intros p; reflexivity). unfold nslots. rewrite !seq_app. rewrite !Nat.add_0_r. cbn [Nat.add]. now rewrite <- !app_assoc.
    - intros s I. rewrite !in_app_iff in I. destruct I as [I|[I|[I|I]]]; [|apply H; auto| |]; apply in_map_iff in I as (p & <- & I); apply in_seq in I; cbn; lia.
    - assert (T1 : map (fun s => fact (s, c0 s)) (map ST (seq 0 pgb)) = [tk P S 0 + p_init P + 1] ++ map (tk P S) (seq 1 (pgb - 1))).
      { rewrite SQ, map_map. cbn [map app]. apply f_equal2; [unfold Push_sim.fact; cbn; lia|]. apply map_ext_in. intros p I. apply in_seq in I. destruct p; [lia|]. unfold Push_sim.fact. cbn [fst snd bs c0]. lia. }
      assert (T2 : map (fun s => fact (s, c0 s)) (map SK (seq 0 pgb)) = [st P S pgb 0 + 1] ++ map (st P S pgb) (seq 1 (pgb - 1))).
      { rewrite SQ, map_map. cbn [map app]. apply f_equal2; [reflexivity|]. apply map_ext_in. intros p I. apply in_seq in I. destruct p; [lia|]. unfold Push_sim.fact. cbn [fst snd bs c0]. lia. }
      assert (T3 : map (fun s => fact (s, c0 s)) (map SM (seq 0 pgb)) = map (mv P S pgb) (seq 0 pgb)) by (rewrite map_map; apply map_ext; intros p; unfold Push_sim.fact; cbn [fst snd bs c0]; lia).
      rewrite !map_app, F, T1, T2, T3. unfold ps0. now rewrite <- !app_assoc.
  Qed.
  Lemma init_agrees : exists r0 i2, omap cv (ps0 P S pgb) = Some i2 /\ map snd i2 = r0 /\ agrees r0 c0.
  Proof.
    assert (Lt : p_init P < ntasks P) by (apply nth_error_Some; rewrite (wf_init P WF); discriminate).
    destruct init_slots as (l & E & H & F). exists (map c0 l), (map (tgt S pgb) (map (fun s => (s, c0 s)) l)). split; [|split].
    - rewrite <- F, <- (map_map (fun s => (s, c0 s)) fact). apply (omap_slots P V S pgb c SP PG EC). intros e I. apply in_map_iff in I as (s & <- & I). cbn [fst snd]. split; [auto|]. apply H in I. destruct s as [[|p]|k j|[|p]|p]; cbn [c0 top]; lia.
    - rewrite !map_map. reflexivity.
    - split; [rewrite map_length, <- (map_length (ix pgb)), E, seq_length; reflexivity|]. intros s Vs. assert (L := ix_lt pgb s Vs). assert (Q : nth_error (map (ix pgb) l) (ix pgb s) = Some (ix pgb s)) by (rewrite E, (nth_error_nth' _ 0) by (rewrite seq_length; auto); now rewrite seq_nth).
      rewrite nth_error_map in Q |- *. destruct (nth_error l (ix pgb s)) as [s'|] eqn:Es; [|discriminate]. cbn in Q |- *. injection Q as Q. apply ix_inj in Q; auto; [congruence|]. apply H. eapply nth_error_In; eauto.
  Qed.

  Theorem ptask_ok : exists ops T v0 r0, push_ops P S pgb u = Some ops /\ write_push P S pgb true ops = Some T /\
    rep V (initial_state P) v0 /\ agrees r0 c0 /\ cd_init T = v0 ++ r0 /\
    (forall i d, In (i, d) (cd_goal T) <-> (exists e, In e (sp_goal S) /\ fact_of W i d e) \/ (exists p, p < pgb /\ i = nV + p /\ d = 0)) /\
    (forall n o, In (n, o) (cd_ops T) -> opl n o) /\
    (forall i j, i < length (p_cost P) -> j < pgb -> exists o, In (QPrim i j, o) (cd_ops T)) /\
    (forall i m j, nth_error (p_methods P) i = Some m -> length (m_subs m) + j <= pgb -> exists subs o, In (QMeth i j subs, o) (cd_ops T)) /\
    (forall i j, i < ntasks P -> 1 <= j < pgb -> exists o, In (QMove i j (j - 1), o) (cd_ops T)).
  Proof.
    destruct pacts_ok as (la & Ea & Ha). destruct pmeths_ok as (lm & Em & Hm). exists (la ++ lm ++ move_ops P S pgb u). unfold push_ops, write_push. rewrite Ea, Em, EC. cbn [obind].
    destruct (s0_rep P V S IV SP OV cv (PCVW P V S pgb c SP PG EC)) as (i1 & E1 & R0). rewrite E1. cbn [obind]. destruct init_agrees as (r0 & i2 & E2 & Er & A0). rewrite E2. cbn [obind].
    assert (GF : forall e, In e (sp_goal S) -> exists i d, fact_of W i d e).
    { intros e I. assert (F := so_goal _ _ _ SP). clear - F I. induction F as [|x y l l' (i & d & _ & R) F IH]; [destruct I|]. destruct I as [->|I]; eauto. }
    destruct (omap_cv S cv (PCVW P V S pgb c SP PG EC) (sp_goal S) GF) as (g1 & Eg & Hg). rewrite Eg. cbn [obind].
    assert (EG2 : omap cv (pgoal P S pgb) = Some (map (fun p => (nV + p, 0)) (seq 0 pgb))).
    { unfold pgoal. replace (map (tk P S) (seq 0 pgb)) with (map fact (map (fun p => (ST p, 0)) (seq 0 pgb))) by (rewrite map_map; apply map_ext; intros p; unfold Push_sim.fact; cbn; lia). rewrite (omap_slots P V S pgb c SP PG EC); [rewrite map_map; reflexivity|].
      intros e I. apply in_map_iff in I as (p & <- & I). apply in_seq in I. cbn. lia. }
    rewrite EG2. cbn [obind]. set (ops := la ++ lm ++ move_ops P S pgb u). set (fw := fun o => f <- write_pop c true o ;; Some (q_name o, f)).
    assert (D : forall o, In o ops -> q_ok o = true -> exists f, write_pop c true o = Some f /\ opl (q_name o) f).
    { intros o I K. apply in_app_or in I as [I|I]; [|apply in_app_or in I as [I|I]].
      - apply Ha in I as (i & j & p & a & Li & Lj & Ep & Ea' & ->). destruct (act_write P V S pgb c IV SP OV PF SE AF PG EC i j p a Lj Li Ep Ea') as (f & X & Y). exists f. split; auto. cbn. auto.
      - apply Hm in I as (i & m & j & En & Lj & ->). cbn [pmeth_op q_ok] in K. apply Nat.leb_le in K. rewrite rev_length in K. assert (IM : In m (p_methods P)) by (eapply nth_error_In; eauto). destruct (meth_write P V S pgb c WF SP PG EC i m j IM (proj1 (LP m IM)) K) as (f & X & Y). exists f. split; auto. cbn. exists m. auto.
      - apply moves_in in I as (i & j & Li & Lj & ->). destruct (move_write P V S pgb c SP PG EC u i j ZU NZ Li Lj) as (f & X & Y). exists f. split; auto. cbn. auto. }
    destruct (omap_some fw (filter q_ok ops)) as (fs & Ef). { intros o I. apply filter_In in I as [I K]. destruct (D o I K) as (f & X & _). unfold fw. rewrite X. cbn. eauto. }
    rewrite Ef. cbn [obind]. eexists. exists (map snd i1), r0. split; [reflexivity|]. split; [reflexivity|]. cbn [cd_init cd_goal cd_ops]. split; [exact R0|]. split; [exact A0|]. split; [now rewrite map_app, Er|].
    assert (CO : forall o, In o ops -> q_ok o = true -> exists f, In (q_name o, f) fs).
    { intros o I K. destruct (omap_in' _ _ _ o Ef) as ([n f] & J & X); [now apply filter_In|]. unfold fw in X. apply obind_some in X as (f' & _ & X). injection X as <- <-. eauto. }
    split; [|split; [|split; [|split]]].
    - intros i d. rewrite in_app_iff, Hg, in_map_iff. split; intros [X|X]; auto; right.
      + destruct X as (p & [= <- <-] & I). apply in_seq in I. exists p. repeat split; lia.
      + destruct X as (p & Lp & -> & ->). exists p. split; auto. apply in_seq. lia.
    - intros n o I. destruct (omap_in _ _ _ _ Ef I) as (t & It & Et). apply filter_In in It as [It K]. unfold fw in Et. apply obind_some in Et as (f & Ew & Et). injection Et as <- <-. destruct (D t It K) as (f' & X & Y). congruence.
    - intros i j Li Lj. destruct (act_lists P V S WF SP i Li) as (p & a & Ep & Ea'). destruct (CO (pact_op P S pgb i p a (cost_of P i) j)) as (f & I); [|reflexivity|exists f; exact I]. apply in_or_app. left. apply Ha. exists i, j, p, a. auto.
    - intros i m j En L. assert (N1 := subs_pos P WF m ltac:(eapply nth_error_In; eauto)). destruct (CO (pmeth_op P S pgb i m (rev (m_subs m)) (mord m) j)) as (f & I); [|cbn [pmeth_op q_ok]; rewrite rev_length; now apply Nat.leb_le|cbn [pmeth_op q_name] in I; eauto]. apply in_or_app. right. apply in_or_app. left. apply Hm. exists i, m, j. repeat split; auto; lia.
    - intros i j Li Lj. destruct (CO (move_op P S pgb u i j)) as (f & I); [|reflexivity|exists f; exact I]. apply in_or_app. right. apply in_or_app. right. apply moves_in. exists i, j. auto.
  Qed.
End Ops.
