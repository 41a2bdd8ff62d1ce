(** The written operators act on the variables of positions as the operators of Push_sys. *)
From Verif Require Import Base Htn_problem Htn_spec To_spec Sas_model Sas_spec Sas_proof Sas_sim Sas_act Sas_rep Sas_stack Sas_ops Push_model Push_spec Push_net Push_sys.

Lemma tri_S k : tri (S k) = tri k + k.
Proof. unfold tri. replace (S k * (S k - 1)) with (k * (k - 1) + k * 2) by (destruct k; cbn; nia). now rewrite Nat.div_add by lia. Qed.
Lemma tri_mono k k' : k <= k' -> tri k <= tri k'.
Proof. induction 1; auto. rewrite tri_S. lia. Qed.
Lemma tri_lt k j n : j < k < n -> tri k + j < tri n.
Proof. intros L. assert (X := tri_mono (S k) n ltac:(lia)). rewrite tri_S in X. lia. Qed.
Lemma tri_inj k j k' j' : j < k -> j' < k' -> tri k + j = tri k' + j' -> k = k' /\ j = j'.
Proof.
  intros L L' E. destruct (Nat.lt_trichotomy k k') as [Q|[->|Q]]; [|lia|].
  - assert (X := tri_lt k j k' ltac:(lia)). lia.
  - assert (X := tri_lt k' j' k ltac:(lia)). lia.
Qed.

Section Ix.
  Variable pgb : nat.
  Definition valid (s : slot) : Prop := match s with ST p | SK p | SM p => p < pgb | SC k j => j < k < pgb end.
  (** The number of a variable, and the number of variables *)
  Definition ix (s : slot) : nat :=
    match s with ST p => p | SC k j => pgb + (tri k + j) | SK p => pgb + tri pgb + p | SM p => pgb + tri pgb + pgb + p end.
  Definition nslots : nat := pgb + tri pgb + pgb + pgb.
  Lemma ix_lt s : valid s -> ix s < nslots.
  Proof. unfold nslots. destruct s as [p|k j|p|p]; cbn [ix valid]; try lia. intros L. assert (X := tri_lt k j pgb L). lia. Qed.
  Lemma ix_inj s s' : valid s -> valid s' -> ix s = ix s' -> s = s'.
  Proof.
    assert (X := fun k j => tri_lt k j pgb). destruct s as [p|k j|p|p], s' as [p'|k' j'|p'|p']; cbn [ix valid]; intros L L' E; try (f_equal; lia); try (specialize (X k j L)); try (specialize (X k' j' L')); try lia.
    destruct (tri_inj k j k' j'); try lia. congruence.
  Qed.
  Lemma ix_surj x : x < nslots -> exists s, valid s /\ ix s = x.
  Proof.
    unfold nslots. intros L. destruct (Nat.lt_ge_cases x pgb); [exists (ST x); auto|]. destruct (Nat.lt_ge_cases x (pgb + tri pgb)) as [Q|Q].
    - assert (Y : forall n y, y < tri n -> exists k j, j < k < n /\ tri k + j = y).
      { induction n as [|n IH]; intros y Ly; [cbn in Ly; lia|]. rewrite tri_S in Ly. destruct (Nat.lt_ge_cases y (tri n)) as [Z|Z]; [destruct (IH y Z) as (k & j & ? & ?); exists k, j; split; auto; lia|]. exists n, (y - tri n). lia. }
      destruct (Y pgb (x - pgb) ltac:(lia)) as (k & j & Lk & E). exists (SC k j). cbn [ix valid]. split; auto. lia.
    - destruct (Nat.lt_ge_cases x (pgb + tri pgb + pgb)); [exists (SK (x - (pgb + tri pgb)))|exists (SM (x - (pgb + tri pgb + pgb)))]; cbn [ix valid]; lia.
  Qed.

  Definition agrees (r : list nat) (c : conf) : Prop := length r = nslots /\ forall s, valid s -> nth_error r (ix s) = Some (c s).
  Definition tgt0 (e : slot * nat) : nat * nat := (ix (fst e), snd e).
  Definition vlist (l : list (slot * nat)) : Prop := forall e, In e l -> valid (fst e).

  Lemma agrees_upd es : forall r c, vlist es -> agrees r c -> agrees (fassign (map tgt0 es) r) (upd es c).
  Proof.
    induction es as [|[s d] es IH]; intros r c VL [L A]; cbn; [split; auto|]. apply IH; [intros e I; apply VL; now right|]. assert (Vs : valid s) by (apply (VL (s, d)); now left). split; [now rewrite assign_length|].
    intros s' V'. cbn [fst snd]. rewrite nth_assign. unfold upd1. cbn [fst snd]. destruct (slot_dec s' s) as [->|N].
    - rewrite Nat.eqb_refl. assert (X := ix_lt s Vs). destruct (Nat.ltb_spec (ix s) (length r)); [reflexivity|lia].
    - destruct (Nat.eqb_spec (ix s) (ix s')) as [E|_]; [apply ix_inj in E; auto; congruence|]. cbn [andb]. auto.
  Qed.
  Lemma agrees_ext r c c' : agrees r c -> (forall s, valid s -> c s = c' s) -> agrees r c'.
  Proof. intros [L A] E. split; auto. intros s Vs. rewrite <- E by auto. auto. Qed.
  Lemma agrees_fun r r' c : agrees r c -> agrees r' c -> r = r'.
  Proof. intros [L A] [L' A']. apply nth_error_ext; [congruence|]. intros i Li. rewrite L in Li. destruct (ix_surj i Li) as (s & Vs & <-). now rewrite A, A'. Qed.
  Lemma agrees_exists c : exists r, agrees r c.
  Proof.
    assert (X : forall n, n <= nslots -> exists r, length r = n /\ forall s, valid s -> ix s < n -> nth_error r (ix s) = Some (c s)).
    { induction n as [|n IH]; intros L; [exists []; split; auto; intros; lia|]. destruct IH as (r & Lr & A); [lia|]. destruct (ix_surj n L) as (s & Vs & E). exists (r ++ [c s]). split; [rewrite app_length; cbn; lia|].
      intros s' V' L'. destruct (Nat.eq_dec (ix s') n) as [Q|Q]; [|rewrite nth_error_app1 by lia; apply A; auto; lia]. assert (s' = s) by (apply ix_inj; auto; congruence). subst s'. rewrite nth_error_app2 by lia. now rewrite E, Lr, Nat.sub_diag. }
    destruct (X nslots (le_n _)) as (r & Lr & A). exists r. split; auto. intros s Vs. apply A; auto. now apply ix_lt.
  Qed.
End Ix.

Lemma cd_res w o : cd_result w o = fassign (map snd (filter (fun e => holdsb w (fst e)) (c_cond o))) (fd_result w (c_op o)).
Proof.
  unfold cd_result. generalize (fd_result w (c_op o)) as s. induction (c_cond o) as [|[x [i d]] l IH]; intros s; cbn [fold_left filter map]; auto. rewrite IH. cbn [fst snd]. destruct (holdsb w x); reflexivity.
Qed.
Lemma fassign_noop es : forall v, (forall i d, In (i, d) es -> nth_error v i = Some d) -> fassign es v = v.
Proof.
  induction es as [|[i d] es IH]; intros v H; cbn; auto. assert (E : assign v i d = v).
  { apply nth_error_ext; [apply assign_length|]. intros k _. rewrite nth_assign. destruct (Nat.eqb_spec i k) as [<-|]; auto. cbn [andb]. destruct (Nat.ltb_spec i (length v)); auto. symmetry. apply H. now left. }
  rewrite E. apply IH. intros k x I. apply H. now right.
Qed.

Section Sim.
  Variables (P : problem) (V : list (nat * nat)) (S : sproblem) (pgb : nat) (c : list (option (nat * nat))).
  Hypotheses (WF : wf_problem P) (IV : intervals 0 V (p_nfacts P)) (SP : sp_ok P V S).
  Hypotheses (OV : one_value_reach P V) (PF : prec_functional P V) (SE : single_effects P V) (AF : actions_first P).
  Hypothesis (PG : 1 <= pgb).
  Hypothesis (EC : conv_array (pvars P S pgb) = Some c).
  Notation W := (sp_var S).
  Notation nV := (length (sp_var S)).
  Notation cv := (conv c).
  Notation reached := (reached P).
  Notation sim := (sim P V S).
  Notation valid := (valid pgb). Notation vlist := (vlist pgb). Notation ix := (ix pgb). Notation agrees := (agrees pgb).

  Lemma blocks_int (f : nat -> nat) w k : (forall i, f (Datatypes.S i) = Datatypes.S (f i + w)) -> forall a, intervals (f a) (map (fun j => (f j, f j + w)) (seq a k)) (f (a + k)).
  Proof.
    intros H. induction k as [|k IH]; intros a; cbn [seq map intervals fst snd]; [f_equal; lia|]. split; [reflexivity|]. split; [lia|]. rewrite <- H. replace (a + Datatypes.S k) with (Datatypes.S a + k) by lia. apply IH.
  Qed.
  Lemma pv_int : intervals 0 (pvars P S pgb) (mv P S pgb pgb).
  Proof.
    unfold pvars. apply intervals_app. exists (head0 S). split; [eapply head_int; eauto|]. apply intervals_app. exists (tk P S pgb). split; [replace (head0 S) with (tk P S 0) by (unfold tk; lia); apply (blocks_int (tk P S) (ntasks P) pgb); intros i; unfold tk; lia|].
    apply intervals_app. exists (st P S pgb 0). split; [|apply intervals_app; exists (mv P S pgb 0); split].
    - replace (tk P S pgb) with (cn P S pgb 0) by (unfold cn; lia). replace (st P S pgb 0) with (cn P S pgb (0 + tri pgb)) by (unfold st; cbn; lia). apply (blocks_int (cn P S pgb) 1). intros i. unfold cn. lia.
    - replace (mv P S pgb 0) with (st P S pgb (0 + pgb)) by (unfold mv; cbn; lia). apply (blocks_int (st P S pgb) 1). intros i. unfold st. lia.
    - apply (blocks_int (mv P S pgb) 1 pgb). intros i. unfold mv. lia.
  Qed.
  Lemma PCV b i d : cv b = Some (i, d) <-> fact_of (pvars P S pgb) i d b.
  Proof. exact (conv_ok _ _ _ pv_int EC b i d). Qed.
  Lemma PCVW b i d : i < nV -> (cv b = Some (i, d) <-> fact_of W i d b).
  Proof. intros L. rewrite PCV. unfold pvars. now apply fact_of_app. Qed.

  Definition bs (s : slot) : nat := match s with ST p => tk P S p | SC k j => cn P S pgb (tri k + j) | SK p => st P S pgb p | SM p => mv P S pgb p end.
  Definition top (s : slot) : nat := match s with ST _ => ntasks P | _ => 1 end.
  Definition fact (e : slot * nat) : nat := bs (fst e) + snd e.
  Definition tgt (e : slot * nat) : nat * nat := (nV + ix (fst e), snd e).

  Lemma nth_block (f : nat -> nat) w n i : i < n -> nth_error (map (fun j => (f j, f j + w)) (seq 0 n)) i = Some (f i, f i + w).
  Proof. intros L. rewrite nth_error_map, (nth_error_nth' _ 0) by (rewrite seq_length; auto). now rewrite seq_nth. Qed.
  Lemma cv_slot e : valid (fst e) -> snd e <= top (fst e) -> cv (fact e) = Some (tgt e).
  Proof.
    destruct e as [s d]. unfold fact, tgt. cbn [fst snd]. intros Vs L. apply PCV. exists (bs s), (bs s + top s). split; [|lia]. unfold pvars. rewrite nth_error_app2 by lia. replace (nV + ix s - nV) with (ix s) by lia.
    destruct s as [p|k j|p|p]; cbn [Push_sim.ix bs top Push_sim.valid] in *.
    - rewrite nth_error_app1 by (rewrite map_length, seq_length; lia). now apply nth_block.
    - assert (X := tri_lt k j pgb Vs). rewrite nth_error_app2 by (rewrite map_length, seq_length; lia). rewrite map_length, seq_length. rewrite nth_error_app1 by (rewrite map_length, seq_length; lia). replace (pgb + (tri k + j) - pgb) with (tri k + j) by lia. now apply nth_block.
    - rewrite nth_error_app2 by (rewrite map_length, seq_length; lia). rewrite map_length, seq_length. rewrite nth_error_app2 by (rewrite map_length, seq_length; lia). rewrite map_length, seq_length. rewrite nth_error_app1 by (rewrite map_length, seq_length; lia).
      replace (pgb + tri pgb + p - pgb - tri pgb) with p by lia. now apply nth_block.
    - rewrite nth_error_app2 by (rewrite map_length, seq_length; lia). rewrite map_length, seq_length. rewrite nth_error_app2 by (rewrite map_length, seq_length; lia). rewrite map_length, seq_length. rewrite nth_error_app2 by (rewrite map_length, seq_length; lia). rewrite map_length, seq_length.
      replace (pgb + tri pgb + pgb + p - pgb - tri pgb - pgb) with p by lia. now apply nth_block.
  Qed.
  Definition fits (l : list (slot * nat)) : Prop := forall e, In e l -> valid (fst e) /\ snd e <= top (fst e).
  Lemma omap_slots l : fits l -> omap cv (map fact l) = Some (map tgt l).
  Proof. intros F. induction l as [|e l IH]; auto. cbn [map omap]. destruct (F e) as [A B]; [now left|]. rewrite cv_slot by auto. cbn [obind]. rewrite IH by (intros x I; apply F; now right). reflexivity. Qed.
  Lemma fits_app l1 l2 : fits (l1 ++ l2) <-> fits l1 /\ fits l2.
  Proof. unfold fits. split; [intros H; split; intros e I; apply H, in_or_app; auto|]. intros [H1 H2] e I. apply in_app_or in I as [I|I]; auto. Qed.
  Lemma fits_vlist l : fits l -> vlist l. Proof. intros F e I. now apply F. Qed.

  Definition fact2 (e : (slot * nat) * (slot * nat)) : nat * nat := (fact (fst e), fact (snd e)).
  Definition tgt2 (e : (slot * nat) * (slot * nat)) : (nat * nat) * (nat * nat) := (tgt (fst e), tgt (snd e)).
  Notation cv2 := (fun e : nat * nat => a <- cv (fst e) ;; b <- cv (snd e) ;; Some (a, b)).
  Lemma omap_slots2 l : fits (map fst l) -> fits (map snd l) -> omap cv2 (map fact2 l) = Some (map tgt2 l).
  Proof.
    intros F1 F2. induction l as [|[x y] l IH]; auto. cbn [map omap fact2 fst snd]. destruct (F1 x) as [A B]; [now left|]. destruct (F2 y) as [A' B']; [now left|]. rewrite !cv_slot by auto. cbn [obind].
    rewrite IH; [reflexivity|intros e I; apply F1; now right|intros e I; apply F2; now right].
  Qed.

  Record good_sop (o : sop) : Prop := {
    g_prec : fits (s_prec o);
    g_fun : forall s d e, In (s, d) (s_prec o) -> In (s, e) (s_prec o) -> d = e;
    g_add : fits (s_add o);
    g_cond : fits (map fst (s_cond o)) /\ fits (map snd (s_cond o)) }.

  (** An operator that executes the actions [l] and acts on the positions like [o] *)
  Definition like (l : list nat) (o : sop) (cost : nat) (f : cd_op) : Prop :=
    exists pp ee js, sim l pp ee /\ good_sop o /\ (js = [] \/ (ee = [] /\ forall e, In e js -> e = ((0, 0), (0, 0)))) /\
      f = {| c_op := write_op (pp ++ map tgt (s_prec o)) (ee ++ map tgt (s_add o)) cost; c_cond := map tgt2 (s_cond o) ++ js |}.

  Lemma agrees_holds v r cf e : length v = nV -> agrees r cf -> valid (fst e) -> (holds (v ++ r) (tgt e) <-> cf (fst e) = snd e).
  Proof.
    intros Lv [_ A] Vs. unfold tgt. rewrite <- Lv, holds_back. unfold holds. cbn [fst snd]. rewrite A by auto. split; congruence.
  Qed.
  Lemma holdsb_iff w p : holdsb w p = true <-> holds w p.
  Proof. unfold holdsb, holds. destruct (nth_error w (fst p)) as [d|]; [|split; discriminate]. rewrite Nat.eqb_eq. split; congruence. Qed.

  Lemma like_step l o cost f s v r cf : like l o cost f -> precs_agree P V l -> nV <> 0 -> reached s -> rep V s v -> agrees r cf ->
    (fd_applicable (v ++ r) (c_op f) <-> executable P s l /\ spre o cf) /\
    (executable P s l -> exists v' r', rep V (after P s l) v' /\ agrees r' (seff o cf) /\ cd_result (v ++ r) f = v' ++ r') /\
    f_cost (c_op f) = cost.
  Proof.
    intros (pp & ee & js & SM & [G1 G2 G3 [G4 G5]] & HJ & ->) PA NZ R RP AG. assert (Lv : length v = nV) by (destruct RP as [-> _]; symmetry; apply SP).
    destruct SM as (SF & SFun & SM). destruct (SM s v R RP) as (S1 & S2 & S3). cbn [c_op c_cond].
    assert (Lpp : forall i d, In (i, d) pp -> i < nV) by (intros i d I; destruct (SF i d (or_introl I)) as (b & F); eapply fact_of_lt; eauto).
    assert (Lee : forall i d, In (i, d) ee -> i < length v) by (intros i d I; destruct (SF i d (or_intror I)) as (b & F); rewrite Lv; eapply fact_of_lt; eauto).
    split; [|split; [|reflexivity]].
    - rewrite wo_app.
      + split.
        * intros H. split.
          -- apply S2; auto. intros [i d] I. apply (holds_front v r); [rewrite Lv; eauto|]. apply H, in_or_app. auto.
          -- intros e I. apply (proj1 (agrees_holds v r cf e Lv AG (proj1 (G1 e I)))). apply H, in_or_app. right. now apply in_map.
        * intros [E PR] [i d] I. apply in_app_or in I as [I|I].
          -- apply holds_front; [rewrite Lv; eauto|]. apply (S1 E). exact I.
          -- apply in_map_iff in I as (e & <- & I). apply (agrees_holds v r cf e Lv AG (proj1 (G1 e I))). now apply PR.
      + intros i d e I J. apply in_app_or in I as [I|I]; apply in_app_or in J as [J|J].
        * eapply SFun; eauto.
        * exfalso. apply in_map_iff in J as (x & [= <- _] & _). apply Lpp in I. lia.
        * exfalso. apply in_map_iff in I as (x & [= <- _] & _). apply Lpp in J. lia.
        * apply in_map_iff in I as ([x dx] & E1 & I). apply in_map_iff in J as ([y dy] & E2 & J). injection E1 as <- <-. injection E2 as E3 <-. cbn [fst snd] in *. assert (y = x) by (apply (ix_inj pgb); [apply (G1 _ J)|apply (G1 _ I)|lia]). subst y. eapply G2; eauto.
    - intros E. exists (fassign ee v), (fassign (map (tgt0 pgb) (s_add o ++ fired o cf)) r). split; [now apply S3|]. split.
      + unfold seff. apply agrees_upd; auto. intros e I. apply in_app_or in I as [I|I]; [now apply G3|]. unfold fired in I. apply in_map_iff in I as (x & <- & I). apply filter_In in I as [I _]. apply G5. now apply in_map.
      + rewrite cd_res. cbn [c_op c_cond]. rewrite wo_res.
        assert (FI : map snd (filter (fun e => holdsb (v ++ r) (fst e)) (map tgt2 (s_cond o))) = map tgt (fired o cf)).
        { unfold fired. clear - AG G4 Lv. induction (s_cond o) as [|[x y] l IH]; auto. cbn [map filter fst snd tgt2].
          assert (X : holdsb (v ++ r) (tgt x) = (cf (fst x) =? snd x)). { apply eq_iff_eq_true. rewrite holdsb_iff, Nat.eqb_eq. apply agrees_holds; auto. apply (G4 x). now left. }
          rewrite X. specialize (IH ltac:(intros e I; apply G4; now right)). destruct (cf (fst x) =? snd x); cbn [map snd]; rewrite IH; reflexivity. }
        rewrite filter_app, map_app, FI. assert (TG : forall z, map tgt z = map (shift (length v)) (map (tgt0 pgb) z)) by (intros z; rewrite map_map, Lv; reflexivity).
        assert (X : fassign (map tgt (fired o cf)) (fassign (ee ++ map tgt (s_add o)) (v ++ r)) = fassign ee v ++ fassign (map (tgt0 pgb) (s_add o ++ fired o cf)) r).
        { rewrite fassign_app, fassign_front by auto. assert (L1 : length (fassign ee v) = length v) by apply fassign_length. rewrite !TG, <- L1, !fassign_back. rewrite map_app, fassign_app. reflexivity. }
        rewrite fassign_app, X. destruct HJ as [-> |[-> HJ]]; [reflexivity|]. cbn [fassign fold_left] in *. apply fassign_noop. intros i d I. apply in_map_iff in I as (x & E' & I). apply filter_In in I as [I H]. rewrite (HJ x I) in *. cbn [fst snd] in *. injection E' as <- <-.
        apply holdsb_iff in H. unfold holds in H. cbn [fst snd] in H. rewrite nth_error_app1 in H by lia. rewrite nth_error_app1 by lia. exact H.
  Qed.

  (** ** The operators *)
  Lemma map_fact_ready j b : Push_model.ready P S pgb j b = map fact (ready_s pgb j b).
  Proof.
    unfold Push_model.ready, ready_s. rewrite map_map. apply map_ext. intros k. unfold fact. destruct (k <? j); cbn [fst snd bs]; [reflexivity|]. destruct (j <? k); cbn [fst snd bs]; lia.
  Qed.
  Lemma map_fact_leave j : leave P S pgb j = map fact (leave_s j).
  Proof. unfold leave, leave_s. rewrite map_app, map_map. unfold fact. cbn [map fst snd bs]. rewrite !Nat.add_0_r. f_equal. apply map_ext. intros k. lia. Qed.
  Lemma fits_ready j b : j < pgb -> b <= ntasks P -> fits (ready_s pgb j b).
  Proof. intros L Lb e I. apply (ready_in pgb j b e L) in I as [(k & Lk & ->)|[(k & Lk & ->)| ->]]; cbn; lia. Qed.
  Lemma fits_leave j : j < pgb -> fits (leave_s j).
  Proof. intros L e I. unfold leave_s in I. apply in_app_or in I as [I|[<-|[<-|[]]]]; [|cbn; lia|cbn; lia]. apply in_map_iff in I as (k & <- & I). apply in_seq in I. cbn. lia. Qed.
  Lemma fun_ready j b : j < pgb -> forall s d e, In (s, d) (ready_s pgb j b) -> In (s, e) (ready_s pgb j b) -> d = e.
  Proof. intros L s d e I J. apply (ready_in pgb j b _ L) in I as [(k & Lk & [= -> ->])|[(k & Lk & [= -> ->])|[= -> ->]]]; apply (ready_in pgb j b _ L) in J as [(k' & Lk' & [=])|[(k' & Lk' & [=])|[=]]]; congruence. Qed.

  Lemma write_like l o f p a cost : sim l (fst p) (snd p) -> good_sop o -> omap cv (fst a) = Some (fst p) -> omap cv (snd a) = Some (snd p) -> q_prec f = fst a ++ map fact (s_prec o) -> q_add f = snd a ++ map fact (s_add o) -> q_cost f = cost ->
    q_cond f = map fact2 (s_cond o) -> exists g, write_pop c true f = Some g /\ like l o cost g.
  Proof.
    destruct p as [pp ee], a as [ap ae]. cbn [fst snd]. intros SM G E1 E2 Q1 Q2 Q3 Q4. unfold write_pop. rewrite Q1, Q2, Q3, Q4. rewrite !omap_app, E1, E2. destruct G as [G1 G2 G3 [G4 G5]]. rewrite !omap_slots by auto. cbn [obind]. rewrite omap_slots2 by auto. cbn [obind].
    eexists. split; [reflexivity|]. exists pp, ee, []. split; auto. split; [split; auto|]. split; auto. now rewrite app_nil_r.
  Qed.

  Lemma act_write i j p a : j < pgb -> i < length (p_cost P) -> get (sp_prec S) i = Some p -> get (sp_add S) i = Some a ->
    exists f, write_pop c true (pact_op P S pgb i p a (cost_of P i) j) = Some f /\ like [i] (act_s pgb i j) (cost_of P i) f.
  Proof.
    intros Lj Li Ep Ea. destruct (sim_act P V S IV SP OV PF SE cv PCVW i p a Ep Ea) as (pp & ee & E1 & E2 & SM). assert (Lt : i < ntasks P). { apply AF in Li. apply nth_error_Some. unfold primitive in Li. congruence. }
    apply (write_like [i] (act_s pgb i j) _ (pp, ee) (p, a)); auto; cbn [q_prec q_add q_cond pact_op act_s s_prec s_add s_cond fst snd].
    - split; cbn [act_s s_prec s_add s_cond]; [apply fits_ready; lia|now apply fun_ready|now apply fits_leave|split; intros e []].
    - now rewrite map_fact_ready.
    - now rewrite map_fact_leave.
  Qed.

  Lemma meth_write i m j : In m (p_methods P) -> (forall a b, In (a, b) (m_ord m) -> a < b) -> length (m_subs m) + j <= pgb ->
    exists f, write_pop c true (pmeth_op P S pgb i m (rev (m_subs m)) (mord m) j) = Some f /\ like [] (meth_s pgb m (rev (m_subs m)) (mord m) j) 0 f.
  Proof.
    intros IM TOP FIT. assert (WM := wf_methods P WF m IM). assert (N1 : 1 <= length (m_subs m)) by (assert (X := wfm_nonempty P m WM); destruct (m_subs m); [congruence|cbn; lia]).
    assert (OR : forall a b, In (a, b) (m_ord m) -> a < b < length (m_subs m)) by (intros a b I; split; [now apply TOP|apply (wfm_ord P m WM a b I)]).
    assert (Lj : j < pgb) by lia. assert (Lt : m_task m < ntasks P) by (apply nth_error_Some; rewrite (wfm_task P m WM); discriminate). assert (LR := rev_length (m_subs m)).
    assert (LT : forall a, a < length (m_subs m) -> Datatypes.S (nth a (m_subs m) 0) <= ntasks P). { intros a La. assert (X := wfm_subs P m WM _ (nth_In _ 0 La)). unfold ntasks. lia. }
    assert (PL : forall a b, In (a, b) (m_ord m) -> pos pgb j m b < pos pgb j m a < pgb). { intros a b I. apply OR in I. unfold pos. destruct (Nat.eq_dec (Datatypes.S a) (length (m_subs m))), (Nat.eq_dec (Datatypes.S b) (length (m_subs m))); lia. }
    assert (MI : forall e, In e (map (fun l => (ST (pgb - 1 - l), 0)) (seq 0 (length (m_subs m) - 1))) -> exists l, l < length (m_subs m) - 1 /\ e = (ST (pgb - 1 - l), 0)) by (intros e I; apply in_map_iff in I as (l & <- & I); apply in_seq in I; exists l; split; [lia|auto]).
    apply (write_like [] (meth_s pgb m (rev (m_subs m)) (mord m) j) _ ([], []) ([], [])); auto; cbn [q_prec q_add q_cost q_cond pmeth_op fst snd app].
    - apply sim_nil.
    - split.
      + unfold meth_s. cbn [s_prec]. rewrite LR. apply fits_app. split; [apply fits_ready; lia|]. intros e I. apply MI in I as (l & Ll & ->). cbn. lia.
      + unfold meth_s. cbn [s_prec]. rewrite LR. intros s d e I J. apply in_app_or in I as [I|I]; apply in_app_or in J as [J|J].
        * eapply fun_ready; eauto.
        * exfalso. apply MI in J as (l & Ll & [= -> ->]). apply (ready_in pgb j _ _ Lj) in I as [(k & Lk & [=])|[(k & Lk & [=])|[= E _]]]. lia.
        * exfalso. apply MI in I as (l & Ll & [= -> ->]). apply (ready_in pgb j _ _ Lj) in J as [(k & Lk & [=])|[(k & Lk & [=])|[= E _]]]. lia.
        * apply MI in I as (l & Ll & [= -> ->]). apply MI in J as (l' & Ll' & [= _ ->]). reflexivity.
      + intros e I. apply (madd_in pgb m j N1 FIT) in I as [->|[(p & Lp & ->)|(p & Lp & ->)]]; cbn [fst snd Push_sim.valid top]; [split; [lia|apply LT; lia]|split; [lia|apply LT; lia]|lia].
      + split; intros e I; apply in_map_iff in I as ([x y] & <- & I); apply (mcond_in pgb m j N1 FIT OR) in I as [(k & p & Lk & Lp & -> & ->)|(a & b & I & -> & ->)]; cbn [fst snd Push_sim.valid top]; try lia; assert (X := PL a b I); lia.
    - unfold meth_s. cbn [s_prec]. rewrite LR, map_app, map_fact_ready. f_equal. rewrite map_map. apply map_ext. intros l. unfold fact. cbn [fst snd bs]. lia.
    - unfold meth_s. cbn [s_add]. destruct (rev (m_subs m)) as [|t r]; [apply map_fact_leave|]. cbn [map]. rewrite map_app, !map_map. unfold fact at 1. cbn [fst snd bs]. f_equal; [lia|]. f_equal; apply map_ext; intros l; unfold fact; cbn [fst snd bs]; lia.
    - unfold meth_s. cbn [s_cond]. destruct (length (rev (m_subs m)) <=? 1); auto. rewrite map_app, concat_map, !map_map. f_equal.
      + f_equal. apply map_ext. intros l. rewrite map_map. reflexivity.
      + apply map_ext. intros e. unfold fact2, fact. cbn [fst snd bs]. now rewrite Nat.add_0_r.
  Qed.

  Lemma move_write u i j : zeroed u -> nV <> 0 -> i < ntasks P -> 1 <= j < pgb -> exists f, write_pop c true (move_op P S pgb u i j) = Some f /\ like [] (move_s pgb i j) 0 f.
  Proof.
    intros Z NZ Li Lj.
    assert (PI : forall e, In e (s_prec (move_s pgb i j)) -> e = (ST j, Datatypes.S i) \/ e = (SK j, 1) \/ e = (ST (j - 1), 0) \/ e = (SK (j - 1), 0) \/ exists l, l < pgb /\ e = (SM l, 0)).
    { intros e I. cbn [move_s s_prec app In] in I. destruct I as [<-|[<-|[<-|[<-|I]]]]; auto 10. do 4 right. apply in_map_iff in I as (l & <- & I). apply in_seq in I. destruct (l <? j); eexists; (split; [|reflexivity]); lia. }
    assert (GS : good_sop (move_s pgb i j)).
    { split.
      - intros e I. apply PI in I as [->|[->|[->|[->|(l & Ll & ->)]]]]; cbn; lia.
      - intros s d e I J. apply PI in I as [[= -> ->]|[[= -> ->]|[[= -> ->]|[[= -> ->]|(l & Ll & [= -> ->])]]]]; apply PI in J as [[= E]|[[= E]|[[= E]|[[= E]|(l' & Ll' & [= E])]]]]; lia.
      - intros e I. apply (vadd_in pgb i j Lj) in I as [->|[->|[->|[->|[->|[(q & Lq & ->)|(k & Lk & ->)]]]]]]; cbn; lia.
      - split; intros e I; apply in_map_iff in I as ([x y] & <- & I); apply (vcond_in pgb i j Lj) in I as [(q & Lq & -> & ->)|[(k & Lk & -> & ->)|[(Q & -> & ->)|(Q & -> & ->)]]]; cbn; lia. }
    assert (C0 : cv 0 = Some (0, 0)). { apply PCVW; [lia|]. destruct (so_int _ _ _ SP) as (n & I). destruct W as [|[f l] W']; [cbn in NZ; lia|]. cbn in I. destruct I as (-> & _). exists 0, l. cbn. repeat split; auto. lia. }
    unfold write_pop. cbn [q_prec q_add q_cond q_cost move_op]. rewrite !Z.
    set (P1 := [tk P S j + 1 + i; _; _; _] ++ _). assert (E1 : P1 = map fact (s_prec (move_s pgb i j))).
    { unfold P1, move_s. cbn [s_prec]. rewrite map_app, map_map. apply f_equal2; [cbn [map]; unfold fact; cbn [fst snd bs]; repeat (apply (f_equal2 (@cons nat)); [lia|]); reflexivity|]. apply map_ext. intros l. destruct (l <? j); unfold fact; cbn [fst snd bs]; lia. }
    set (A1 := [tk P S j; _; _; _; _] ++ _). assert (E2 : A1 = map fact (s_add (move_s pgb i j))).
    { unfold A1, move_s. cbn [s_add]. rewrite map_app, map_map. apply f_equal2; [cbn [map]; unfold fact; cbn [fst snd bs]; repeat (apply (f_equal2 (@cons nat)); [lia|]); reflexivity|]. apply map_ext. intros l. destruct (l <? j - 1); unfold fact; cbn [fst snd bs]; lia. }
    assert (E3 : forall z, (map (fun l => if l <? j - 1 then (cn P S pgb (tri j + l) + 1, cn P S pgb (tri (j - 1) + l) + 1) else (cn P S pgb (tri (l + 2) + j) + 1, cn P S pgb (tri (l + 2) + j - 1) + 1)) (seq 0 (pgb - 2)) ++
                 (if 1 <? j then [(st P S pgb (j - 2), mv P S pgb (j - 1) + 1); (st P S pgb (j - 2) + 1, mv P S pgb (j - 1))] else []) ++ z) = map fact2 (s_cond (move_s pgb i j)) ++ z).
    { intros z. rewrite app_assoc. f_equal. unfold move_s. cbn [s_cond]. rewrite map_app, map_map. f_equal.
      - apply map_ext. intros l. destruct (l <? j - 1); unfold fact2, fact; cbn [fst snd bs]; auto. do 3 f_equal. lia.
      - destruct (1 <? j); auto. cbn [map]. unfold fact2, fact. cbn [fst snd bs]. now rewrite !Nat.add_0_r. }
    rewrite E1, E2, E3. destruct GS as [G1 G2 G3 [G4 G5]]. rewrite !omap_slots by auto. cbn [obind]. rewrite omap_app, omap_slots2 by auto. cbn [obind omap fst snd]. rewrite C0. cbn [obind].
    eexists. split; [reflexivity|]. exists [], [], [((0, 0), (0, 0)); ((0, 0), (0, 0))]. split; [apply sim_nil|]. split; [split; auto|]. split; [|reflexivity]. right. split; auto. intros e [<-|[<-|[]]]; auto.
  Qed.
End Sim.
