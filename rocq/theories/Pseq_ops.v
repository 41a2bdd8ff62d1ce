(** The written task for parallel sequences: initial state, goal and operators. *)
From Verif Require Import Base Htn_problem Htn_spec To_spec Sas_model Sas_spec Sas_proof Sas_sim Sas_act Sas_rep Sas_stack Sas_ops Push_model Push_spec Push_net Push_sys Push_run Push_ops
  Strips_model Strips_sys Strips_sim Strips_ops Pseq_model Pseq_spec Pseq_net Pseq_run Pseq_sys Pseq_sim.

Section Ops.
  Variables (P : problem) (V : list (nat * nat)) (S : sproblem) (n pgb : nat) (c : list (option (nat * nat))).
  Hypotheses (WF : wf_problem P) (IV : intervals 0 V (p_nfacts P)) (SP : sp_ok P V S).
  Hypotheses (OV : one_value_reach P V) (PF : prec_functional P V) (SE : single_effects P V) (AF : actions_first P).
  Hypotheses (PG : 1 <= pgb) (N1 : 1 <= n).
  Hypothesis (EC : conv_array (pvars P S n pgb) = Some c).
  Hypothesis (LP : listed_po P).
  Hypothesis (SW : forall m, In m (p_methods P) -> m_task m = p_init P -> length (m_subs m) = n).
  Notation W := (sp_var S).
  Notation nV := (length (sp_var S)).
  Notation cv := (conv c).
  Notation like := (Pseq_sim.like P V S n pgb).
  Notation agrees := (Pseq_sim.agrees n pgb).
  Notation fact := (Pseq_sim.fact P S n pgb).
  Notation ix := (Pseq_sim.ix n).
  Notation valid := (Pseq_sys.valid n pgb).

  Definition opl (nm : sname) (f : fd_op) : Prop :=
    match nm with
    | TPrim i q => exists j k, q = k * pgb + j /\ i < length (p_cost P) /\ j < pgb /\ k < n /\ like [i] (pact_q n pgb i j k) (cost_of P i) f
    | TMeth i q _ => exists m, nth_error (p_methods P) i = Some m /\
        ((m_task m = p_init P /\ like [] (ptop_q n pgb m) 0 f) \/
         (m_task m <> p_init P /\ exists j k, q = k * pgb + j /\ j < pgb /\ k < n /\ length (m_subs m) + j <= pgb /\ like [] (pmeth_q n pgb m j k) 0 f))
    | TEmpty _ => False
    end.

  Lemma pacts_ok : exists l, pact_ops P S n pgb = Some l /\
    forall o, In o l <-> exists i j k p a, i < length (p_cost P) /\ j < pgb /\ k < n /\ get (sp_prec S) i = Some p /\ get (sp_add S) i = Some a /\ o = pact_op P S n pgb i p a (cost_of P i) j k.
  Proof.
    assert (CO : forall i, i < length (p_cost P) -> get (p_cost P) i = Some (cost_of P i)) by (intros i L; unfold get, cost_of; now apply nth_error_nth').
    set (g := fun i p a c0 => concat (map (fun j => map (pact_op P S n pgb i p a c0 j) (seq 0 n)) (seq 0 pgb))).
    assert (IG : forall i p a c0 o, In o (g i p a c0) <-> exists j k, j < pgb /\ k < n /\ o = pact_op P S n pgb i p a c0 j k).
    { intros i p a c0 o. unfold g. rewrite in_concat. split.
      - intros (x & Ix & Io). apply in_map_iff in Ix as (j & <- & Ij). apply in_map_iff in Io as (k & <- & Ik). apply in_seq in Ij, Ik. exists j, k. repeat split; auto; lia.
      - intros (j & k & Lj & Lk & ->). exists (map (pact_op P S n pgb i p a c0 j) (seq 0 n)). split; [apply in_map_iff; exists j; split; auto; apply in_seq; lia|]. apply in_map, in_seq. lia. }
    set (f := fun i => p <- get (sp_prec S) i ;; a <- get (sp_add S) i ;; c0 <- get (p_cost P) i ;; Some (g i p a c0)).
    destruct (omap_some f (seq 0 (length (p_cost P)))) as (l & E).
    { intros i I. apply in_seq in I. destruct (act_lists P V S WF SP i ltac:(lia)) as (p & a & Ep & Ea). unfold f. rewrite Ep, Ea, CO by lia. cbn. eauto. }
    exists (concat l). unfold pact_ops. change (omap (fun i => _) (seq 0 (length (p_cost P)))) with (omap f (seq 0 (length (p_cost P)))). rewrite E. split; [reflexivity|]. intros o. rewrite (concat_in f _ _ _ E). split.
    - intros (i & y & I & Ey & J). apply in_seq in I. unfold f in Ey. apply obind_some in Ey as (p & Ep & Ey). apply obind_some in Ey as (a & Ea & Ey). rewrite CO in Ey by lia. injection Ey as <-. apply IG in J as (j & k & Lj & Lk & ->). exists i, j, k, p, a. repeat split; auto; lia.
    - intros (i & j & k & p & a & Li & Lj & Lk & Ep & Ea & ->). exists i, (g i p a (cost_of P i)). split; [apply in_seq; lia|]. split; [unfold f; now rewrite Ep, Ea, CO|]. apply IG. eauto.
  Qed.

  Lemma top_ord m : In m (p_methods P) -> m_task m = p_init P -> forall a b, In (a, b) (mord m) -> b < a < n.
  Proof. intros IM ET. apply (mord_ok P n WF (fun m I => proj1 (LP m I)) SW m IM ET). Qed.

  Lemma pmeths_ok : exists l, pmeth_ops P S n pgb = Some l /\
    (forall o, In o l -> r_ok o = true -> exists f, write_strop c o = Some f /\ opl (r_name o) f) /\
    (forall i m, nth_error (p_methods P) i = Some m -> m_task m = p_init P -> exists o f sb, In o l /\ r_ok o = true /\ r_name o = TMeth i 0 sb /\ write_strop c o = Some f /\ like [] (ptop_q n pgb m) 0 f) /\
    (forall i m j k, nth_error (p_methods P) i = Some m -> m_task m <> p_init P -> j < pgb -> k < n -> length (m_subs m) + j <= pgb ->
       exists o f sb, In o l /\ r_ok o = true /\ r_name o = TMeth i (k * pgb + j) sb /\ write_strop c o = Some f /\ like [] (pmeth_q n pgb m j k) 0 f).
  Proof.
    set (h := fun i m j => pmeth_op P S n pgb i m (rev (m_subs m)) (mord m) j).
    assert (H0 : forall i m j k, nth_error (p_methods P) i = Some m -> j < pgb -> k < n -> exists o, h i m j k = Some o /\ (r_ok o = true -> exists f, write_strop c o = Some f /\ opl (r_name o) f)).
    { intros i m j k En Lj Lk. assert (IM : In m (p_methods P)) by (eapply nth_error_In; eauto). destruct (Nat.eq_dec (m_task m) (p_init P)) as [ET|NT].
      - destruct (Nat.eq_dec j 0) as [->|Nj]; [destruct (Nat.eq_dec k 0) as [->|Nk]|].
        + destruct (ptop_write P V S n pgb c WF SP EC i m IM ET (SW m IM ET) (top_ord m IM ET) PG) as (o & f & E1 & E2 & (sb & E3) & E4 & E5). exists o. split; auto. intros _. exists f. split; auto. rewrite E3. cbn. exists m. auto.
        + unfold h, pmeth_op. rewrite ET, Nat.eqb_refl, andb_false_r. cbn [Nat.eqb andb]. destruct (Nat.eqb_spec k 0); [congruence|]. eexists. split; [reflexivity|]. discriminate.
        + unfold h, pmeth_op. rewrite ET, Nat.eqb_refl, andb_false_r. destruct (Nat.eqb_spec j 0); [congruence|]. cbn [andb]. eexists. split; [reflexivity|]. discriminate.
      - destruct (Nat.le_gt_cases (length (m_subs m) + j) pgb) as [LE|LE].
        + destruct (pmeth_write P V S n pgb c WF SP EC i m j k IM NT Lj Lk LE) as (o & f & E1 & E2 & (sb & E3) & E4 & E5). exists o. split; auto. intros _. exists f. split; auto. rewrite E3. cbn. exists m. split; auto. right. split; auto. exists j, k. auto 10.
        + unfold h, pmeth_op. rewrite rev_length. destruct (Nat.ltb_spec pgb (length (m_subs m) + j)); [|lia]. destruct (Nat.eqb_spec (m_task m) (p_init P)); [congruence|]. cbn [andb negb]. eexists. split; [reflexivity|]. discriminate. }
    set (f := fun im : nat * method => '(s, o) <- po_reorder (p_prim P) (snd im) ;; l <- omap (fun j => omap (pmeth_op P S n pgb (fst im) (snd im) s o j) (seq 0 n)) (seq 0 pgb) ;; Some (concat l)).
    assert (F : forall i m, nth_error (p_methods P) i = Some m -> exists l, f (i, m) = Some (concat l) /\ omap (fun j => omap (h i m j) (seq 0 n)) (seq 0 pgb) = Some l).
    { intros i m E. assert (IM : In m (p_methods P)) by (eapply nth_error_In; eauto). unfold f. cbn [fst snd]. rewrite (reordered P WF LP m IM). cbn [obind]. destruct (omap_some (fun j => omap (h i m j) (seq 0 n)) (seq 0 pgb)) as (l & El).
      - intros j Ij. apply in_seq in Ij. destruct (omap_some (h i m j) (seq 0 n)) as (l & El); eauto. intros k Ik. apply in_seq in Ik. destruct (H0 i m j k E) as (o & A & _); eauto; lia.
      - exists l. split; [|exact El]. unfold h in El. rewrite El. reflexivity. }
    destruct (omap_some f (combine (seq 0 (length (p_methods P))) (p_methods P))) as (l & E).
    { intros [i m] I. apply nth_comb in I as [_ I]. rewrite Nat.sub_0_r in I. destruct (F i m I) as (l & Ef & _). eauto. }
    assert (IN : forall i m j k o, nth_error (p_methods P) i = Some m -> j < pgb -> k < n -> h i m j k = Some o -> In o (concat l)).
    { intros i m j k o En Lj Lk A. apply (concat_in f _ _ _ E). destruct (F i m En) as (l' & Ef & Em). exists (i, m), (concat l'). split; [apply nth_comb; rewrite Nat.sub_0_r; split; [lia|auto]|]. split; auto.
      apply (concat_in _ _ _ _ Em). assert (Ij : In j (seq 0 pgb)) by (apply in_seq; lia). destruct (omap_in' _ _ _ j Em Ij) as (y & _ & Ey). exists j, y. split; auto. split; auto. assert (Ik : In k (seq 0 n)) by (apply in_seq; lia). destruct (omap_in' _ _ _ k Ey Ik) as (o' & Io & Eo). congruence. }
    exists (concat l). unfold pmeth_ops. fold f. rewrite E. split; [reflexivity|]. split; [|split].
    - intros o I K. apply (concat_in f _ _ _ E) in I as ([i m] & y & I & Ey & J). apply nth_comb in I as [_ I]. rewrite Nat.sub_0_r in I. destruct (F i m I) as (l' & Ef & Em). rewrite Ef in Ey. injection Ey as <-. apply (concat_in _ _ _ _ Em) in J as (j & y & Ij & Ey & J). apply in_seq in Ij.
      destruct (omap_in _ _ _ _ Ey J) as (k & Ik & Ek). apply in_seq in Ik. destruct (H0 i m j k I ltac:(lia) ltac:(lia)) as (o' & A & B). rewrite Ek in A. injection A as <-. auto.
    - intros i m En ET. assert (IM : In m (p_methods P)) by (eapply nth_error_In; eauto). destruct (ptop_write P V S n pgb c WF SP EC i m IM ET (SW m IM ET) (top_ord m IM ET) PG) as (o & f0 & E1 & E2 & (sb & E3) & E4 & E5). exists o, f0, sb. split; [apply (IN i m 0 0); auto; lia|auto].
    - intros i m j k En NT Lj Lk LE. assert (IM : In m (p_methods P)) by (eapply nth_error_In; eauto). destruct (pmeth_write P V S n pgb c WF SP EC i m j k IM NT Lj Lk LE) as (o & f0 & E1 & E2 & (sb & E3) & E4 & E5). exists o, f0, sb. split; [apply (IN i m j k); auto; lia|auto].
  Qed.

  (** ** The initial state *)
  Lemma seq_ix (g : nat -> slot) b k : (forall p, p < k -> ix (g p) = b + p) -> map ix (map g (seq 0 k)) = seq b k.
  Proof.
    intros H. rewrite map_map. assert (X : forall a, a <= k -> map (fun x => ix (g x)) (seq (k - a) a) = seq (b + (k - a)) a); [|specialize (X k (le_n _)); now rewrite Nat.sub_diag, Nat.add_0_r in X].
    induction a as [|a IH]; intros L; auto. cbn [seq map]. rewrite H by lia. f_equal. replace (Datatypes.S (k - Datatypes.S a)) with (k - a) by lia. rewrite IH by lia. f_equal. lia.
  Qed.
  Definition slots : list slot := [SM 0] ++ map SK (seq 0 n) ++ map (cslot n) (seq 0 (n * (n - 1))) ++ map ST (seq 0 (n * pgb)).
  Lemma slots_ix : map ix slots = seq 0 (nslots n pgb).
  Proof.
    unfold slots. rewrite !map_app, (seq_ix SK 1), (seq_ix (cslot n) (1 + n)), (seq_ix ST (1 + n + n * (n - 1))).
    - cbn [map Pseq_sim.ix]. unfold nslots. rewrite <- !Nat.add_assoc, seq_app. cbn [seq]. f_equal. cbn [Nat.add]. rewrite !seq_app. repeat f_equal; lia.
    - intros p L. reflexivity.
    - intros p L. destruct (cslot_ci n p L) as (k & j & _ & _ & _ & -> & E). cbn [Pseq_sim.ix]. lia.
    - intros p L. reflexivity.
  Qed.
  Lemma slots_valid s : In s slots -> valid s.
  Proof.
    unfold slots. rewrite !in_app_iff. intros [[<-|[]]|[I|[I|I]]]; [reflexivity| | |]; apply in_map_iff in I as (p & <- & I); apply in_seq in I; [cbn; lia| |cbn; lia]. destruct (cslot_ci n p ltac:(lia)) as (k & j & A & B & D & -> & _). cbn. auto.
  Qed.
  Lemma slots_fact : map (fun s => fact (s, cf pgb None s)) slots = ps0 P S n pgb.
  Proof.
    unfold slots, ps0. rewrite !map_app, !map_map. apply (f_equal2 (@app nat)); [reflexivity|]. repeat (apply (f_equal2 (@app nat)); [apply map_ext_in|]); [| |apply map_ext_in]; intros p I; unfold Pseq_sim.fact; cbn [fst snd bs cf]; try lia.
    apply in_seq in I. destruct (cslot_ci n p ltac:(lia)) as (k & j & _ & _ & _ & -> & E). cbn [bs cf]. rewrite E. lia.
  Qed.
  Lemma init_agrees : exists r0 i2, omap cv (ps0 P S n pgb) = Some i2 /\ map snd i2 = r0 /\ agrees r0 (cf pgb None).
  Proof.
    exists (map (cf pgb None) slots), (map (Pseq_sim.tgt S n) (map (fun s => (s, cf pgb None s)) slots)). split; [|split].
    - rewrite <- slots_fact, <- (map_map (fun s => (s, cf pgb None s)) fact). apply (omap_slots P V S n pgb c SP EC). intros e I. apply in_map_iff in I as (s & <- & I). cbn [fst snd]. split; [now apply slots_valid|]. destruct s; cbn; lia.
    - rewrite !map_map. reflexivity.
    - split; [rewrite map_length, <- (map_length ix), slots_ix, seq_length; reflexivity|]. intros s Vs. assert (L := ix_lt n pgb s Vs). assert (Q : nth_error (map ix slots) (ix s) = Some (ix s)) by (rewrite slots_ix, (nth_error_nth' _ 0) by (rewrite seq_length; auto); now rewrite seq_nth).
      rewrite nth_error_map in Q |- *. destruct (nth_error slots (ix s)) as [s'|] eqn:Es; [|discriminate]. cbn [option_map] in Q |- *. injection Q as Q. apply (ix_inj n pgb) in Q; auto; [congruence|]. apply slots_valid. eapply nth_error_In; eauto.
  Qed.

  Theorem ptask_ok : exists ops T v0 r0, pseq_ops P S n pgb = Some ops /\ write_pseq P S n pgb ops = Some T /\
    rep V (initial_state P) v0 /\ agrees r0 (cf pgb None) /\ ss_init T = v0 ++ r0 /\
    (forall i d, In (i, d) (ss_goal T) <-> (exists e, In e (sp_goal S) /\ fact_of W i d e) \/ (exists p, p <= n /\ i = nV + p /\ d = 0)) /\
    (forall nm o, In (nm, o) (ss_ops T) -> opl nm o) /\
    (forall i j k, i < length (p_cost P) -> j < pgb -> k < n -> exists o, In (TPrim i (k * pgb + j), o) (ss_ops T) /\ like [i] (pact_q n pgb i j k) (cost_of P i) o) /\
    (forall i m, nth_error (p_methods P) i = Some m -> m_task m = p_init P -> exists sb o, In (TMeth i 0 sb, o) (ss_ops T) /\ like [] (ptop_q n pgb m) 0 o) /\
    (forall i m j k, nth_error (p_methods P) i = Some m -> m_task m <> p_init P -> j < pgb -> k < n -> length (m_subs m) + j <= pgb -> exists sb o, In (TMeth i (k * pgb + j) sb, o) (ss_ops T) /\ like [] (pmeth_q n pgb m j k) 0 o).
  Proof.
    destruct pacts_ok as (la & Ea & Ha). destruct pmeths_ok as (lm & Em & Hm & Hm2 & Hm3).
    exists (la ++ lm). unfold pseq_ops, write_pseq. rewrite Ea, Em, EC. cbn [obind].
    destruct (s0_rep P V S IV SP OV cv (SCVW P V S n pgb c SP EC)) as (i1 & E1 & R0). rewrite E1. cbn [obind]. destruct init_agrees as (r0 & i2 & E2 & Er & A0). rewrite E2. cbn [obind].
    assert (GF : forall e, In e (sp_goal S) -> exists i d, fact_of W i d e).
    { intros e I. assert (F := so_goal _ _ _ SP). clear - F I. induction F as [|x y l l' (i & d & _ & R) F IH]; [destruct I|]. destruct I as [->|I]; eauto. }
    destruct (omap_cv S cv (SCVW P V S n pgb c SP EC) (sp_goal S) GF) as (g1 & Eg & Hg). rewrite Eg. cbn [obind].
    assert (EG2 : omap cv (pgoal S n pgb) = Some ((nV + 0, 0) :: map (fun p => (nV + (1 + p), 0)) (seq 0 n))).
    { unfold pgoal. replace ([ptop S] ++ map (phd S pgb) (seq 0 n)) with (map fact ((SM 0, 0) :: map (fun p => (SK p, 0)) (seq 0 n))) by (cbn [map app]; rewrite map_map; f_equal; [unfold Pseq_sim.fact; cbn; lia|apply map_ext; intros p; unfold Pseq_sim.fact; cbn [fst snd bs]; lia]).
      rewrite (omap_slots P V S n pgb c SP EC); [cbn [map]; rewrite map_map; reflexivity|]. intros e [<-|I]; [cbn; lia|]. apply in_map_iff in I as (p & <- & I). apply in_seq in I. cbn. lia. }
    rewrite EG2. cbn [obind]. set (ops := la ++ lm). set (fw := fun o => f <- write_strop c o ;; Some (r_name o, f)).
    assert (D : forall o, In o ops -> r_ok o = true -> exists f, write_strop c o = Some f /\ opl (r_name o) f).
    { intros o I K. apply in_app_or in I as [I|I]; [|now apply Hm].
      apply Ha in I as (i & j & k & p & a & Li & Lj & Lk & Ep & Ea' & ->). destruct (pact_write P V S n pgb c IV SP OV PF SE AF EC i j k p a Lj Lk Li Ep Ea') as (f & X & Y). exists f. split; auto. cbn. exists j, k. auto. }
    destruct (omap_some fw (filter r_ok ops)) as (fs & Ef). { intros o I. apply filter_In in I as [I K]. destruct (D o I K) as (f & X & _). unfold fw. rewrite X. cbn. eauto. }
    rewrite Ef. cbn [obind]. eexists. exists (map snd i1), r0. split; [reflexivity|]. split; [reflexivity|]. cbn [ss_init ss_goal ss_ops]. split; [exact R0|]. split; [exact A0|]. split; [now rewrite map_app, Er|].
    assert (CO : forall o, In o ops -> r_ok o = true -> exists f, In (r_name o, f) fs /\ write_strop c o = Some f).
    { intros o I K. destruct (omap_in' _ _ _ o Ef) as ([nm f] & J & X); [now apply filter_In|]. unfold fw in X. apply obind_some in X as (f' & W' & X). injection X as <- <-. eauto. }
    split; [|split; [|split; [|split]]].
    - intros i d. rewrite in_app_iff, Hg. cbn [In]. rewrite in_map_iff. split; intros [X|X]; auto; right.
      + destruct X as [[= <- <-]|(p & [= <- <-] & I)]; [exists 0; repeat split; lia|]. apply in_seq in I. exists (1 + p). repeat split; lia.
      + destruct X as (p & Lp & -> & ->). destruct p as [|p]; [now left|]. right. exists p. split; auto. apply in_seq. lia.
    - intros nm o I. destruct (omap_in _ _ _ _ Ef I) as (t & It & Et). apply filter_In in It as [It K]. unfold fw in Et. apply obind_some in Et as (f & Ew & Et). injection Et as <- <-. destruct (D t It K) as (f' & X & Y). congruence.
    - intros i j k Li Lj Lk. destruct (act_lists P V S WF SP i Li) as (p & a & Ep & Ea'). destruct (CO (pact_op P S n pgb i p a (cost_of P i) j k)) as (f & I & Ew); [|reflexivity|].
      + apply in_or_app. left. apply Ha. exists i, j, k, p, a. auto 10.
      + exists f. split; [exact I|]. destruct (pact_write P V S n pgb c IV SP OV PF SE AF EC i j k p a Lj Lk Li Ep Ea') as (f' & X & Y). congruence.
    - intros i m En ET. destruct (Hm2 i m En ET) as (o & f & sb & Io & K & Es & Ew & LK). destruct (CO o) as (f' & I & Ew'); auto; [apply in_or_app; now right|]. rewrite Es in I. exists sb, f'. split; auto. congruence.
    - intros i m j k En NT Lj Lk LE. destruct (Hm3 i m j k En NT Lj Lk LE) as (o & f & sb & Io & K & Es & Ew & LK). destruct (CO o) as (f' & I & Ew'); auto; [apply in_or_app; now right|]. rewrite Es in I. exists sb, f'. split; auto. congruence.
  Qed.
End Ops.
