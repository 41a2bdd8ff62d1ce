(** The written task without conditional effects: initial state, goal and operators. *)
From Coq Require Import NArith.
From Verif Require Import Base Htn_problem Htn_spec To_spec Sas_model Sas_spec Sas_proof Sas_sim Sas_act Sas_rep Sas_stack Sas_ops Push_model Push_spec Push_net Push_sys Push_run Push_ops
  Strips_model Strips_spec Strips_comb Strips_net Strips_sys Strips_run Strips_sim.

Lemma nth_comb {A} (l : list A) : forall k i x, In (i, x) (combine (seq k (length l)) l) <-> k <= i /\ nth_error l (i - k) = Some x.
Proof.
  induction l as [|y l IH]; intros k i x; cbn [length seq combine In]; [split; [tauto|intros [_ H]; now destruct (i - k)]|]. rewrite IH. split.
  - intros [[= <- <-]|[L E]]; [now rewrite Nat.sub_diag|]. split; [lia|]. replace (i - k) with (S (i - S k)) by lia. exact E.
  - intros [L E]. destruct (Nat.eq_dec i k) as [->|N]; [rewrite Nat.sub_diag in E; cbn in E; left; congruence|]. right. split; [lia|]. replace (i - k) with (S (i - S k)) in E by lia. exact E.
Qed.

Section Ops.
  Variables (P : problem) (V : list (nat * nat)) (S : sproblem) (pgb : nat) (c : list (option (nat * nat))).
  Hypotheses (WF : wf_problem P) (IV : intervals 0 V (p_nfacts P)) (SP : sp_ok P V S).
  Hypotheses (OV : one_value_reach P V) (PF : prec_functional P V) (SE : single_effects P V) (AF : actions_first P).
  Hypothesis (PG : 1 <= pgb).
  Hypothesis (EC : conv_array (svars P S pgb) = Some c).
  Hypothesis (LP : listed_po P).
  Notation W := (sp_var S).
  Notation nV := (length (sp_var S)).
  Notation cv := (conv c).
  Notation like := (like P V S pgb).
  Notation agrees := (agrees pgb).
  Notation fact := (fact P S pgb).
  Notation as_meth := (as_meth P S pgb).

  (** The cost of the operators for empty tasks *)
  Definition ecost : nat := nth 0 (p_cost P) 0.
  Lemma empty_cost_ok x : empty_cost P = Some x -> x = ecost.
  Proof. unfold empty_cost, ecost. destruct (p_cost P), (p_methods P); cbn; congruence. Qed.
  Hypothesis (EN : empty_cost P <> None).
  Hypothesis (NC : forall m, In m (p_methods P) -> n_comb pgb (length (m_subs m)) (nlm m) <> None).

  Definition opl (n : sname) (f : fd_op) : Prop :=
    match n with
    | TPrim i j => i < length (p_cost P) /\ j < pgb /\ like [i] (act_q pgb i j) (cost_of P i) f
    | TMeth i j _ => exists m raw, nth_error (p_methods P) i = Some m /\ j < pgb /\ choice pgb m raw /\ like [] (mqop pgb m j raw) 0 f
    | TEmpty j => j < pgb /\ like [] (empty_q pgb j) ecost f
    end.

  Lemma sacts_ok : exists l, sact_ops P S pgb = Some l /\
    forall o, In o l <-> exists i j p a, i < length (p_cost P) /\ j < pgb /\ get (sp_prec S) i = Some p /\ get (sp_add S) i = Some a /\ o = sact_op P S pgb i p a (cost_of P i) j.
  Proof.
    assert (CO : forall i, i < length (p_cost P) -> get (p_cost P) i = Some (cost_of P i)) by (intros i L; unfold get, cost_of; now apply nth_error_nth').
    set (f := fun i => p <- get (sp_prec S) i ;; a <- get (sp_add S) i ;; c0 <- get (p_cost P) i ;; Some (map (sact_op P S pgb i p a c0) (seq 0 pgb))).
    destruct (omap_some f (seq 0 (length (p_cost P)))) as (l & E).
    { intros i I. apply in_seq in I. destruct (act_lists P V S WF SP i ltac:(lia)) as (p & a & Ep & Ea). unfold f. rewrite Ep, Ea, CO by lia. cbn. eauto. }
    exists (concat l). unfold sact_ops. fold f. rewrite E. split; [reflexivity|]. intros o. rewrite (concat_in f _ _ _ E). split.
    - intros (i & y & I & Ey & J). apply in_seq in I. unfold f in Ey. apply obind_some in Ey as (p & Ep & Ey). apply obind_some in Ey as (a & Ea & Ey). rewrite CO in Ey by lia. injection Ey as <-. apply in_map_iff in J as (j & <- & J). apply in_seq in J. exists i, j, p, a. repeat split; auto; lia.
    - intros (i & j & p & a & Li & Lj & Ep & Ea & ->). exists i, (map (sact_op P S pgb i p a (cost_of P i)) (seq 0 pgb)). split; [apply in_seq; lia|]. split; [unfold f; now rewrite Ep, Ea, CO|]. apply in_map, in_seq. lia.
  Qed.

  (** The number of choices *)
  Definition kk (m : method) : nat := if nlm m then length (m_subs m) else length (m_subs m) - 1.
  Lemma n_comb_eq m : 1 <= length (m_subs m) ->
    n_comb pgb (length (m_subs m)) (nlm m) = if pgb - 1 <? kk m then Some 1 else if (2147483647 <=? N.of_nat (choose (pgb - 1) (kk m)))%N then None else Some (if length (m_subs m) <=? 1 then 1 else choose (pgb - 1) (kk m)).
  Proof.
    intros N1. unfold n_comb, kk. destruct (length (m_subs m)) as [|n] eqn:En; [lia|]. set (k := if nlm m then Datatypes.S n else Datatypes.S n - 1).
    replace (if nlm m then binom (pgb - 1) (Datatypes.S n) else binom (pgb - 1) (Datatypes.S n - 1)) with (binom (pgb - 1) k) by (unfold k; destruct (nlm m); reflexivity).
    rewrite binom_choose. destruct (Nat.ltb_spec (pgb - 1) k) as [L|L]; auto. assert (X := choose_pos (pgb - 1) k L). destruct (Nat.ltb_spec (choose (pgb - 1) k) 1); [lia|]. reflexivity.
  Qed.

  Lemma smeths_ok : exists l, smeth_ops P S pgb = Some l /\
    (forall o, In o l -> r_ok o = true -> exists i m j raw, nth_error (p_methods P) i = Some m /\ j < pgb /\ choice pgb m raw /\ as_meth i m j raw o) /\
    (forall i m j raw, nth_error (p_methods P) i = Some m -> j < pgb -> choice pgb m raw -> exists o, In o l /\ as_meth i m j raw o).
  Proof.
    set (f := fun im : nat * method => '(s, o) <- po_reorder (p_prim P) (snd im) ;; let nl := no_last (length s) o in cnt <- n_comb pgb (length s) nl ;;
                l <- omap (fun j => omap (smeth_op P S pgb (fst im) (snd im) s o nl j) (seq 0 cnt)) (seq 0 pgb) ;; Some (concat l)).
    set (cnt := fun m => if (pgb - 1 <? kk m) then 1 else if length (m_subs m) <=? 1 then 1 else choose (pgb - 1) (kk m)).
    assert (KN : forall m, 1 <= length (m_subs m) -> length (m_subs m) + (if nlm m then 1 else 0) <= pgb <-> kk m <= pgb - 1) by (intros m Lm; unfold kk; destruct (nlm m); lia).
    set (g := fun i m j => smeth_op P S pgb i m (rev (m_subs m)) (mord m) (nlm m) j).
    assert (GS : forall i m j k, nth_error (p_methods P) i = Some m -> j < pgb -> k < cnt m -> exists o, g i m j k = Some o /\ (r_ok o = true -> exists raw, choice pgb m raw /\ as_meth i m j raw o)).
    { intros i m j k E Lj Lk. assert (IM : In m (p_methods P)) by (eapply nth_error_In; eauto). assert (N1 := subs_pos P WF m IM). unfold cnt in Lk. destruct (Nat.ltb_spec (pgb - 1) (kk m)) as [L|L].
      - unfold g, smeth_op. rewrite rev_length. destruct (Nat.ltb_spec pgb (length (m_subs m) + (if nlm m then 1 else 0))) as [Q|Q]; [|apply KN in Q; auto; lia]. eexists. split; [reflexivity|]. cbn. discriminate.
      - apply KN in L as L'; auto. destruct (Nat.leb_spec (length (m_subs m)) 1) as [L1|L1].
        + assert (NL : nlm m = false) by (unfold nlm, no_last; destruct (Nat.leb_spec (length (m_subs m)) 1); [reflexivity|lia]). assert (CH : choice pgb m []). { split; [rewrite NL; cbn; lia|intros a b x y _ A; destruct a; discriminate|intros x []]. }
          destruct (smeth_as P S pgb WF i m j k [] IM (proj1 (LP m IM)) Lj CH ltac:(lia) L') as (o & A & B). exists o. split; eauto.
        + destruct (combination_sound (pgb - 1) (kk m) k L Lk) as (raw & CE & CL & CI & CB). assert (CH : choice pgb m raw) by (split; auto). destruct (smeth_as P S pgb WF i m j k raw IM (proj1 (LP m IM)) Lj CH ltac:(rewrite CL; auto) L') as (o & A & B). exists o. split; eauto. }
    assert (GC : forall i m j raw, nth_error (p_methods P) i = Some m -> j < pgb -> choice pgb m raw -> exists k o, k < cnt m /\ g i m j k = Some o /\ as_meth i m j raw o).
    { intros i m j raw E Lj CH. assert (IM : In m (p_methods P)) by (eapply nth_error_In; eauto). assert (N1 := subs_pos P WF m IM). destruct (combination_complete (pgb - 1) (kk m) raw (ch_len _ _ _ CH) (ch_inc _ _ _ CH) (ch_lt _ _ _ CH)) as (k & Lk & CE).
      assert (L : kk m <= pgb - 1) by (destruct (Nat.le_gt_cases (kk m) (pgb - 1)); auto; rewrite choose_gt in Lk by auto; lia). apply KN in L as L'; auto. exists (if length (m_subs m) <=? 1 then 0 else k).
      destruct (smeth_as P S pgb WF i m j (if length (m_subs m) <=? 1 then 0 else k) raw IM (proj1 (LP m IM)) Lj CH) as (o & A & B); auto.
      - intros L2. destruct (Nat.leb_spec (length (m_subs m)) 1); [lia|]. rewrite (ch_len _ _ _ CH). exact CE.
      - exists o. split; auto. unfold cnt. destruct (Nat.ltb_spec (pgb - 1) (kk m)); [lia|]. destruct (length (m_subs m) <=? 1); lia. }
    assert (F : forall i m, nth_error (p_methods P) i = Some m -> exists l, f (i, m) = Some (concat l) /\ omap (fun j => omap (g i m j) (seq 0 (cnt m))) (seq 0 pgb) = Some l).
    { intros i m E. assert (IM : In m (p_methods P)) by (eapply nth_error_In; eauto). assert (N1 := subs_pos P WF m IM). unfold f. cbn [fst snd]. rewrite (reordered P WF LP m IM). cbn [obind]. rewrite rev_length. change (no_last (length (m_subs m)) (mord m)) with (nlm m). assert (NN := NC m IM). assert (CE : n_comb pgb (length (m_subs m)) (nlm m) = Some (cnt m)).
      { rewrite n_comb_eq in NN |- * by auto. unfold cnt. destruct (pgb - 1 <? kk m); auto. destruct (2147483647 <=? N.of_nat (choose (pgb - 1) (kk m)))%N; congruence. }
      rewrite CE. cbn [obind]. destruct (omap_some (fun j => omap (g i m j) (seq 0 (cnt m))) (seq 0 pgb)) as (l & El).
      - intros j Ij. apply in_seq in Ij. destruct (omap_some (g i m j) (seq 0 (cnt m))) as (l & El); eauto. intros k Ik. apply in_seq in Ik. destruct (GS i m j k E) as (o & A & _); eauto; lia.
      - exists l. split; [|exact El]. unfold g in El. rewrite El. reflexivity. }
    destruct (omap_some f (combine (seq 0 (length (p_methods P))) (p_methods P))) as (l & E).
    { intros [i m] I. apply nth_comb in I as [_ I]. rewrite Nat.sub_0_r in I. destruct (F i m I) as (l & Ef & _). eauto. }
    exists (concat l). unfold smeth_ops. fold f. rewrite E. split; [reflexivity|]. split.
    - intros o I K. apply (concat_in f _ _ _ E) in I as ([i m] & y & I & Ey & J). apply nth_comb in I as [_ I]. rewrite Nat.sub_0_r in I. destruct (F i m I) as (l' & Ef & Em). rewrite Ef in Ey. injection Ey as <-. apply (concat_in _ _ _ _ Em) in J as (j & y & Ij & Ey & J). apply in_seq in Ij.
      destruct (omap_in _ _ _ _ Ey J) as (k & Ik & Ek). apply in_seq in Ik. destruct (GS i m j k I ltac:(lia) ltac:(lia)) as (o' & A & B). rewrite Ek in A. injection A as <-. destruct (B K) as (raw & B1 & B2). exists i, m, j, raw. repeat split; auto; try lia; apply B1 || apply B2.
    - intros i m j raw En Lj CH. destruct (GC i m j raw En Lj CH) as (k & o & Lk & A & B). exists o. split; auto. apply (concat_in f _ _ _ E). destruct (F i m En) as (l' & Ef & Em). exists (i, m), (concat l'). split; [apply nth_comb; rewrite Nat.sub_0_r; split; [lia|auto]|]. split; auto.
      apply (concat_in _ _ _ _ Em). assert (Ij : In j (seq 0 pgb)) by (apply in_seq; lia). destruct (omap_in' _ _ _ j Em Ij) as (y & _ & Ey). exists j, y. split; auto. split; auto. assert (Ik : In k (seq 0 (cnt m))) by (apply in_seq; lia). destruct (omap_in' _ _ _ k Ey Ik) as (o' & Io & Eo). congruence.
  Qed.

  (** ** The initial state *)
  Definition c0 : conf := fun s => match s with ST 0 => p_init P + 2 | SK 0 => 1 | _ => 0 end.
  Lemma cons_slots n : forall a, a + n <= pgb * (pgb - 1) -> exists l, map (ix pgb) l = seq (pgb + a) n /\ (forall s, In s l -> valid pgb s /\ exists k j, s = SC k j) /\ map (fun s => fact (s, c0 s)) l = map (Strips_model.cn P S pgb) (seq a n).
  Proof.
    induction n as [|n IH]; intros a L; [exists []; cbn; repeat split; auto; tauto|]. destruct (IH (Datatypes.S a) ltac:(lia)) as (l & E & H & F).
    destruct (ci_surj pgb a ltac:(lia)) as (k & j & A & B & D & Ea).
    exists (SC k j :: l). cbn [map seq ix]. split; [|split].
    - f_equal; [lia|]. rewrite E. f_equal. lia.
    - intros s [<-|I]; [|auto]. split; [cbn; auto|eauto].
    - rewrite F. f_equal. unfold Strips_sim.fact. cbn [fst snd bs c0]. rewrite Nat.add_0_r. f_equal. lia.
  Qed.
  Lemma seq_map_ix (g : nat -> slot) b k : (forall p, ix pgb (g p) = b + p) -> forall a, map (ix pgb) (map g (seq a k)) = seq (b + a) k.
  Proof. intros H. induction k as [|k IH]; intros a; cbn [seq map]; auto. f_equal; [apply H|]. rewrite IH. f_equal. lia. Qed.
  Lemma init_slots : exists l, map (ix pgb) l = seq 0 (nslots pgb) /\ (forall s, In s l -> valid pgb s) /\ map (fun s => fact (s, c0 s)) l = ss0 P S pgb.
  Proof.
    destruct (cons_slots (pgb * (pgb - 1)) 0 (le_n _)) as (l & E & H & F). rewrite Nat.add_0_r in E.
    assert (SQ : seq 0 pgb = 0 :: seq 1 (pgb - 1)) by (replace pgb with (Datatypes.S (pgb - 1)) at 1 by lia; reflexivity).
    exists (map ST (seq 0 pgb) ++ l ++ map SK (seq 0 pgb)). split; [|split].
    - rewrite !map_app, E, (seq_map_ix ST 0), (seq_map_ix SK (pgb + pgb * (pgb - 1))) by (intros p; reflexivity). unfold nslots. rewrite !seq_app. rewrite !Nat.add_0_r. cbn [Nat.add]. now rewrite <- !app_assoc.
    - intros s I. rewrite !in_app_iff in I. destruct I as [I|[I|I]]; [|apply H; auto|]; apply in_map_iff in I as (p & <- & I); apply in_seq in I; cbn; lia.
    - assert (T1 : map (fun s => fact (s, c0 s)) (map ST (seq 0 pgb)) = [Strips_model.tk P S 0 + p_init P + 2] ++ map (Strips_model.tk P S) (seq 1 (pgb - 1))).
      { rewrite SQ, map_map. cbn [map app]. apply f_equal2; [unfold Strips_sim.fact; cbn [fst snd bs c0]; lia|]. apply map_ext_in. intros p I. apply in_seq in I. destruct p; [lia|]. unfold Strips_sim.fact. cbn [fst snd bs c0]. lia. }
      assert (T2 : map (fun s => fact (s, c0 s)) (map SK (seq 0 pgb)) = [Strips_model.st P S pgb 0 + 1] ++ map (Strips_model.st P S pgb) (seq 1 (pgb - 1))).
      { rewrite SQ, map_map. cbn [map app]. apply f_equal2; [reflexivity|]. apply map_ext_in. intros p I. apply in_seq in I. destruct p; [lia|]. unfold Strips_sim.fact. cbn [fst snd bs c0]. lia. }
      rewrite !map_app, F, T1, T2. unfold ss0. now rewrite <- !app_assoc.
  Qed.
  Lemma init_agrees : exists r0 i2, omap cv (ss0 P S pgb) = Some i2 /\ map snd i2 = r0 /\ agrees r0 c0.
  Proof.
    assert (Lt : p_init P < ntasks P) by (apply nth_error_Some; rewrite (wf_init P WF); discriminate).
    destruct init_slots as (l & E & H & F). exists (map c0 l), (map (tgt S pgb) (map (fun s => (s, c0 s)) l)). split; [|split].
    - rewrite <- F, <- (map_map (fun s => (s, c0 s)) fact). apply (omap_slots P V S pgb c SP EC). intros e I. apply in_map_iff in I as (s & <- & I). cbn [fst snd]. split; [auto|]. apply H in I. destruct s as [[|p]|k j|[|p]|p]; cbn [c0 top]; lia.
    - rewrite !map_map. reflexivity.
    - split; [rewrite map_length, <- (map_length (ix pgb)), E, seq_length; reflexivity|]. intros s Vs. assert (L := ix_lt pgb s Vs). assert (Q : nth_error (map (ix pgb) l) (ix pgb s) = Some (ix pgb s)) by (rewrite E, (nth_error_nth' _ 0) by (rewrite seq_length; auto); now rewrite seq_nth).
      rewrite nth_error_map in Q |- *. destruct (nth_error l (ix pgb s)) as [s'|] eqn:Es; [|discriminate]. cbn in Q |- *. injection Q as Q. apply ix_inj in Q; auto; [congruence|]. apply H. eapply nth_error_In; eauto.
  Qed.

  Theorem stask_ok : exists ops T v0 r0, strips_ops P S pgb = Some ops /\ write_strips P S pgb ops = Some T /\
    rep V (initial_state P) v0 /\ agrees r0 c0 /\ ss_init T = v0 ++ r0 /\
    (forall i d, In (i, d) (ss_goal T) <-> (exists e, In e (sp_goal S) /\ fact_of W i d e) \/ (exists p, p < pgb /\ i = nV + p /\ d = 0)) /\
    (forall n o, In (n, o) (ss_ops T) -> opl n o) /\
    (forall j, j < pgb -> exists o, In (TEmpty j, o) (ss_ops T)) /\
    (forall i j, i < length (p_cost P) -> j < pgb -> exists o, In (TPrim i j, o) (ss_ops T)) /\
    (forall i m j raw, nth_error (p_methods P) i = Some m -> j < pgb -> choice pgb m raw -> exists subs o, In (TMeth i j subs, o) (ss_ops T) /\ like [] (mqop pgb m j raw) 0 o).
  Proof.
    destruct sacts_ok as (la & Ea & Ha). destruct smeths_ok as (lm & Em & Hm & Hm2). destruct (empty_cost P) as [x|] eqn:Ex; [|congruence]. assert (X := empty_cost_ok x Ex). subst x.
    exists (map (empty_op P S pgb ecost) (seq 0 pgb) ++ la ++ lm). unfold strips_ops, write_strips. rewrite Ex, Ea, Em, EC. cbn [obind].
    destruct (s0_rep P V S IV SP OV cv (SCVW P V S pgb c SP EC)) as (i1 & E1 & R0). rewrite E1. cbn [obind]. destruct init_agrees as (r0 & i2 & E2 & Er & A0). rewrite E2. cbn [obind].
    assert (GF : forall e, In e (sp_goal S) -> exists i d, fact_of W i d e).
    { intros e I. assert (F := so_goal _ _ _ SP). clear - F I. induction F as [|x y l l' (i & d & _ & R) F IH]; [destruct I|]. destruct I as [->|I]; eauto. }
    destruct (omap_cv S cv (SCVW P V S pgb c SP EC) (sp_goal S) GF) as (g1 & Eg & Hg). rewrite Eg. cbn [obind].
    assert (EG2 : omap cv (sgoal P S pgb) = Some (map (fun p => (nV + p, 0)) (seq 0 pgb))).
    { unfold sgoal. replace (map (Strips_model.tk P S) (seq 0 pgb)) with (map fact (map (fun p => (ST p, 0)) (seq 0 pgb))) by (rewrite map_map; apply map_ext; intros p; unfold Strips_sim.fact; cbn [fst snd bs]; lia). rewrite (omap_slots P V S pgb c SP EC); [rewrite map_map; reflexivity|].
      intros e I. apply in_map_iff in I as (p & <- & I). apply in_seq in I. cbn. lia. }
    rewrite EG2. cbn [obind]. set (ops := map (empty_op P S pgb ecost) (seq 0 pgb) ++ la ++ lm). set (fw := fun o => f <- write_strop c o ;; Some (r_name o, f)).
    assert (D : forall o, In o ops -> r_ok o = true -> exists f, write_strop c o = Some f /\ opl (r_name o) f).
    { intros o I K. apply in_app_or in I as [I|I]; [|apply in_app_or in I as [I|I]].
      - apply in_map_iff in I as (j & <- & I). apply in_seq in I. destruct (empty_write P V S pgb c SP EC ecost j ltac:(lia)) as (f & X & Y). exists f. split; auto. cbn. split; auto. lia.
      - apply Ha in I as (i & j & p & a & Li & Lj & Ep & Ea' & ->). destruct (sact_write P V S pgb c IV SP OV PF SE AF EC i j p a Lj Li Ep Ea') as (f & X & Y). exists f. split; auto. cbn. auto.
      - apply Hm in I as (i & m & j & raw & En & Lj & CH & AM); auto. assert (IM : In m (p_methods P)) by (eapply nth_error_In; eauto). destruct (smeth_write P V S pgb c WF SP EC i m j raw o IM (proj1 (LP m IM)) Lj CH AM) as (f & X & Y). exists f. split; auto. destruct (am_name _ _ _ _ _ _ _ _ AM) as (sb & ->). cbn. exists m, raw. auto. }
    destruct (omap_some fw (filter r_ok ops)) as (fs & Ef). { intros o I. apply filter_In in I as [I K]. destruct (D o I K) as (f & X & _). unfold fw. rewrite X. cbn. eauto. }
    rewrite Ef. cbn [obind]. eexists. exists (map snd i1), r0. split; [reflexivity|]. split; [reflexivity|]. cbn [ss_init ss_goal ss_ops]. split; [exact R0|]. split; [exact A0|]. split; [now rewrite map_app, Er|].
    assert (CO : forall o, In o ops -> r_ok o = true -> exists f, In (r_name o, f) fs /\ write_strop c o = Some f).
    { intros o I K. destruct (omap_in' _ _ _ o Ef) as ([n f] & J & X); [now apply filter_In|]. unfold fw in X. apply obind_some in X as (f' & W' & X). injection X as <- <-. eauto. }
    split; [|split; [|split; [|split]]].
    - intros i d. rewrite in_app_iff, Hg, in_map_iff. split; intros [X|X]; auto; right.
      + destruct X as (p & [= <- <-] & I). apply in_seq in I. exists p. repeat split; lia.
      + destruct X as (p & Lp & -> & ->). exists p. split; auto. apply in_seq. lia.
    - intros n o I. destruct (omap_in _ _ _ _ Ef I) as (t & It & Et). apply filter_In in It as [It K]. unfold fw in Et. apply obind_some in Et as (f & Ew & Et). injection Et as <- <-. destruct (D t It K) as (f' & X & Y). congruence.
    - intros j Lj. destruct (CO (empty_op P S pgb ecost j)) as (f & I & _); [|reflexivity|exists f; exact I]. apply in_or_app. left. apply in_map, in_seq. lia.
    - intros i j Li Lj. destruct (act_lists P V S WF SP i Li) as (p & a & Ep & Ea'). destruct (CO (sact_op P S pgb i p a (cost_of P i) j)) as (f & I & _); [|reflexivity|exists f; exact I]. apply in_or_app. right. apply in_or_app. left. apply Ha. exists i, j, p, a. auto.
    - intros i m j raw En Lj CH. destruct (Hm2 i m j raw En Lj CH) as (o & Io & AM). destruct (CO o) as (f & I & Ew); [|apply (am_ok _ _ _ _ _ _ _ _ AM)|].
      + apply in_or_app. right. apply in_or_app. now right.
      + destruct (am_name _ _ _ _ _ _ _ _ AM) as (sb & Es). rewrite Es in I. exists sb, f. split; auto. assert (IM : In m (p_methods P)) by (eapply nth_error_In; eauto). destruct (smeth_write P V S pgb c WF SP EC i m j raw o IM (proj1 (LP m IM)) Lj CH AM) as (f' & X & Y). congruence.
  Qed.
End Ops.
