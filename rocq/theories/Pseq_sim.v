(** The written operators for parallel sequences act on the variables as the operators of Pseq_sys. *)
From Verif Require Import Base Htn_problem Htn_spec To_spec Sas_model Sas_spec Sas_proof Sas_sim Sas_act Sas_rep Sas_stack Sas_ops Push_model Push_spec Push_net Push_sys Push_run Push_ops
  Strips_model Strips_spec Strips_net Strips_sys Strips_run Strips_sim Strips_ops Pseq_model Pseq_spec Pseq_net Pseq_run Pseq_sys.

Section Ix.
  Variables (n pgb : nat).
  Notation valid := (valid n pgb).
  (** The number of a variable, and the number of variables *)
  Definition ix (s : slot) : nat := match s with SM _ => 0 | SK k => 1 + k | SC k j => 1 + n + ci n k j | ST p => 1 + n + n * (n - 1) + p end.
  Definition nslots : nat := 1 + n + n * (n - 1) + n * pgb.
  Lemma ix_lt s : valid s -> ix s < nslots.
  Proof. unfold nslots. destruct s as [p|k j|p|p]; cbn [ix Pseq_sys.valid]; try lia. intros (A & B & D). assert (X := ci_lt n k j A B D). lia. Qed.
  Lemma ix_inj s s' : valid s -> valid s' -> ix s = ix s' -> s = s'.
  Proof.
    assert (X := ci_lt n). destruct s as [p|k j|p|p], s' as [p'|k' j'|p'|p']; cbn [ix Pseq_sys.valid]; intros L L' E; try tauto; try (f_equal; lia); try lia.
    - destruct L' as (A & B & D). specialize (X k' j' A B D). lia.
    - destruct L as (A & B & D). specialize (X k j A B D). lia.
    - destruct L as (A & B & D), L' as (A' & B' & D'). destruct (ci_inj n k j k' j' A B D A' B' D' ltac:(lia)). congruence.
  Qed.
  Lemma ix_surj x : x < nslots -> exists s, valid s /\ ix s = x.
  Proof.
    unfold nslots. intros L. destruct x as [|x]; [exists (SM 0); cbn; auto|]. destruct (Nat.lt_ge_cases x n); [exists (SK x); cbn; auto|]. destruct (Nat.lt_ge_cases x (n + n * (n - 1))) as [Q|Q].
    - destruct (ci_surj n (x - n) ltac:(lia)) as (k & j & A & B & D & E). exists (SC k j). cbn [ix Pseq_sys.valid]. repeat split; auto. lia.
    - exists (ST (x - (n + n * (n - 1)))). cbn [ix Pseq_sys.valid]. lia.
  Qed.

  Definition agrees (r : list nat) (c : conf) : Prop := length r = nslots /\ forall s, valid s -> nth_error r (ix s) = Some (c s).
  Definition tgt0 (e : slot * nat) : nat * nat := (ix (fst e), snd e).
  Definition vlist (l : list (slot * nat)) : Prop := forall e, In e l -> valid (fst e).

  Lemma agrees_upd es : forall r c, vlist es -> agrees r c -> agrees (fassign (map tgt0 es) r) (upd es c).
  Proof.
    induction es as [|[s d] es IH]; intros r c VL [L A]; cbn; [split; auto|]. apply IH; [intros e I; apply VL; now right|]. assert (Vs : valid s) by (apply (VL (s, d)); now left). split; [now rewrite assign_length|].
    intros s' V'. cbn [fst snd]. rewrite nth_assign. unfold upd1. cbn [fst snd]. destruct (slot_dec s' s) as [->|N].
    - rewrite Nat.eqb_refl. assert (X := ix_lt s Vs). destruct (Nat.ltb_spec (ix s) (length r)); [reflexivity|lia].
    - destruct (Nat.eqb_spec (ix s) (ix s')) as [E|_]; [apply ix_inj in E; auto; congruence|]. cbn [andb]. auto.
  Qed.
  Lemma agrees_ext r c c' : agrees r c -> (forall s, valid s -> c s = c' s) -> agrees r c'.
  Proof. intros [L A] H. split; auto. intros s Vs. rewrite A by auto. f_equal. now apply H. Qed.
End Ix.

Section Sim.
  Variables (P : problem) (V : list (nat * nat)) (S : sproblem) (n pgb : nat) (c : list (option (nat * nat))).
  Hypotheses (WF : wf_problem P) (IV : intervals 0 V (p_nfacts P)) (SP : sp_ok P V S).
  Hypotheses (OV : one_value_reach P V) (PF : prec_functional P V) (SE : single_effects P V) (AF : actions_first P).
  Hypothesis (EC : conv_array (pvars P S n pgb) = Some c).
  Notation W := (sp_var S).
  Notation nV := (length (sp_var S)).
  Notation cv := (conv c).
  Notation reached := (reached P).
  Notation sim := (sim P V S).
  Notation valid := (valid n pgb). Notation vlist := (vlist n pgb). Notation ix := (ix n). Notation agrees := (agrees n pgb).
  Notation top0 := (ptop S). Notation hd := (phd S pgb). Notation cn := (pcn S n pgb). Notation tk := (ptk P S n pgb).

  Lemma pv_int : intervals 0 (pvars P S n pgb) (tk (n * pgb)).
  Proof.
    unfold pvars. apply intervals_app. exists (head0 S). split; [eapply head_int; eauto|]. apply intervals_app. exists (hd 0). split; [cbn; unfold ptop, phd; lia|]. apply intervals_app. exists (hd n). split.
    - apply (blocks_int hd pgb n). intros i. unfold phd. lia.
    - apply intervals_app. exists (cn (n * (n - 1))). split.
      + replace (hd n) with (cn 0) by (unfold pcn; lia). apply (blocks_int cn 1 (n * (n - 1))). intros i. unfold pcn. lia.
      + replace (cn (n * (n - 1))) with (tk 0) by (unfold ptk; lia). apply (blocks_int tk (ntasks P) (n * pgb)). intros i. unfold ptk. lia.
  Qed.
  Lemma SCV b i d : cv b = Some (i, d) <-> fact_of (pvars P S n pgb) i d b.
  Proof. exact (conv_ok _ _ _ pv_int EC b i d). Qed.
  Lemma SCVW b i d : i < nV -> (cv b = Some (i, d) <-> fact_of W i d b).
  Proof. intros L. rewrite SCV. unfold pvars. now apply fact_of_app. Qed.

  Definition bs (s : slot) : nat := match s with ST p => tk p | SC k j => cn (ci n k j) | SK k => hd k | SM _ => top0 end.
  Definition top (s : slot) : nat := match s with ST _ => ntasks P | SK _ => pgb | _ => 1 end.
  Definition fact (e : slot * nat) : nat := bs (fst e) + snd e.
  Definition tgt (e : slot * nat) : nat * nat := (nV + ix (fst e), snd e).

  Lemma cv_slot e : valid (fst e) -> snd e <= top (fst e) -> cv (fact e) = Some (tgt e).
  Proof.
    destruct e as [s d]. unfold fact, tgt. cbn [fst snd]. intros Vs L. apply SCV. exists (bs s), (bs s + top s). split; [|lia]. unfold pvars. rewrite nth_error_app2 by lia. replace (nV + ix s - nV) with (ix s) by lia.
    destruct s as [p|k j|p|p]; cbn [Pseq_sim.ix bs top Pseq_sys.valid] in *.
    - rewrite nth_error_app2 by (cbn; lia). cbn [length]. rewrite nth_error_app2 by (rewrite map_length, seq_length; lia). rewrite map_length, seq_length. rewrite nth_error_app2 by (rewrite map_length, seq_length; lia). rewrite map_length, seq_length.
      replace (1 + n + n * (n - 1) + p - 1 - n - n * (n - 1)) with p by lia. now apply nth_block.
    - destruct Vs as (A & B & D). assert (X := ci_lt n k j A B D). rewrite nth_error_app2 by (cbn; lia). cbn [length]. rewrite nth_error_app2 by (rewrite map_length, seq_length; lia). rewrite map_length, seq_length. rewrite nth_error_app1 by (rewrite map_length, seq_length; lia).
      replace (1 + n + ci n k j - 1 - n) with (ci n k j) by lia. now apply nth_block.
    - rewrite nth_error_app2 by (cbn; lia). cbn [length]. rewrite nth_error_app1 by (rewrite map_length, seq_length; lia). replace (1 + p - 1) with p by lia. now apply nth_block.
    - reflexivity.
  Qed.
  Definition fits (l : list (slot * nat)) : Prop := forall e, In e l -> valid (fst e) /\ snd e <= top (fst e).
  Lemma omap_slots l : fits l -> omap cv (map fact l) = Some (map tgt l).
  Proof. intros F. induction l as [|e l IH]; auto. cbn [map omap]. destruct (F e) as [A B]; [now left|]. rewrite cv_slot by auto. cbn [obind]. rewrite IH by (intros x I; apply F; now right). reflexivity. Qed.
  Lemma fits_app l1 l2 : fits (l1 ++ l2) <-> fits l1 /\ fits l2.
  Proof. unfold fits. split; [intros H; split; intros e I; apply H, in_or_app; auto|]. intros [H1 H2] e I. apply in_app_or in I as [I|I]; auto. Qed.

  Record good_qop (o : qop) : Prop := {
    g_prec : fits (fst o);
    g_fun : forall s d e, In (s, d) (fst o) -> In (s, e) (fst o) -> d = e;
    g_add : fits (snd o) }.

  (** An operator that executes the actions [l] and acts on the sequences like [o] *)
  Definition like (l : list nat) (o : qop) (cost : nat) (f : fd_op) : Prop :=
    exists pp ee, sim l pp ee /\ good_qop o /\ f = write_op (pp ++ map tgt (fst o)) (ee ++ map tgt (snd o)) cost.

  Lemma agrees_holds v r cf e : length v = nV -> agrees r cf -> valid (fst e) -> (holds (v ++ r) (tgt e) <-> cf (fst e) = snd e).
  Proof.
    intros Lv [_ A] Vs. unfold tgt. rewrite <- Lv, holds_back. unfold holds. cbn [fst snd]. rewrite A by auto. split; congruence.
  Qed.

  Lemma like_step l o cost f s v r cf : like l o cost f -> precs_agree P V l -> reached s -> rep V s v -> agrees r cf ->
    (fd_applicable (v ++ r) f <-> executable P s l /\ qpre o cf) /\
    (executable P s l -> exists v' r', rep V (after P s l) v' /\ agrees r' (qeff o cf) /\ fd_result (v ++ r) f = v' ++ r') /\
    f_cost f = cost.
  Proof.
    intros (pp & ee & SI & [G1 G2 G3] & ->) PA R RP AG. assert (Lv : length v = nV) by (destruct RP as [-> _]; symmetry; apply SP).
    destruct SI as (SF & SFun & SI). destruct (SI s v R RP) as (S1 & S2 & S3).
    assert (Lpp : forall i d, In (i, d) pp -> i < nV) by (intros i d I; destruct (SF i d (or_introl I)) as (b & F); eapply fact_of_lt; eauto).
    assert (Lee : forall i d, In (i, d) ee -> i < length v) by (intros i d I; destruct (SF i d (or_intror I)) as (b & F); rewrite Lv; eapply fact_of_lt; eauto).
    split; [|split; [|reflexivity]].
    - rewrite wo_app.
      + split.
        * intros H. split.
          -- apply S2; auto. intros [i d] I. apply (holds_front v r); [rewrite Lv; eauto|]. apply H, in_or_app. auto.
          -- intros e I. apply (proj1 (agrees_holds v r cf e Lv AG (proj1 (G1 e I)))). apply H, in_or_app. right. now apply in_map.
        * intros [E PR] [i d] I. apply in_app_or in I as [I|I].
          -- apply holds_front; [rewrite Lv; eauto|]. apply (S1 E). exact I.
          -- apply in_map_iff in I as (e & <- & I). apply (agrees_holds v r cf e Lv AG (proj1 (G1 e I))). now apply PR.
      + intros i d e I J. apply in_app_or in I as [I|I]; apply in_app_or in J as [J|J].
        * eapply SFun; eauto.
        * exfalso. apply in_map_iff in J as (x & [= <- _] & _). apply Lpp in I. lia.
        * exfalso. apply in_map_iff in I as (x & [= <- _] & _). apply Lpp in J. lia.
        * apply in_map_iff in I as ([x dx] & E1 & I). apply in_map_iff in J as ([y dy] & E2 & J). injection E1 as <- <-. injection E2 as E3 <-. cbn [fst snd] in *. assert (y = x) by (apply (ix_inj n pgb); [apply (G1 _ J)|apply (G1 _ I)|lia]). subst y. eapply G2; eauto.
    - intros E. exists (fassign ee v), (fassign (map (tgt0 n) (snd o)) r). split; [now apply S3|]. split.
      + unfold qeff. apply agrees_upd; auto. intros e I. now apply G3.
      + rewrite wo_res. assert (TG : forall z, map tgt z = map (shift (length v)) (map (tgt0 n) z)) by (intros z; rewrite map_map, Lv; reflexivity).
        rewrite fassign_app, fassign_front by auto. assert (L1 : length (fassign ee v) = length v) by apply fassign_length. now rewrite !TG, <- L1, !fassign_back.
  Qed.

  Lemma write_like l o f p a cost : sim l (fst p) (snd p) -> good_qop o -> omap cv (fst a) = Some (fst p) -> omap cv (snd a) = Some (snd p) -> r_prec f = fst a ++ map fact (fst o) -> r_add f = snd a ++ map fact (snd o) -> r_cost f = cost ->
    exists g, write_strop c f = Some g /\ like l o cost g.
  Proof.
    destruct p as [pp ee], a as [ap ae]. cbn [fst snd]. intros SI G E1 E2 Q1 Q2 Q3. unfold write_strop. rewrite Q1, Q2, Q3. rewrite !omap_app, E1, E2. assert (G' := G). destruct G' as [G1 G2 G3]. rewrite !omap_slots by auto. cbn [obind].
    eexists. split; [reflexivity|]. exists pp, ee. auto.
  Qed.

  (** ** The operators *)
  Lemma before_fact k : Pseq_model.before S n pgb k = map fact (before_q n k).
  Proof.
    unfold Pseq_model.before, before_q. rewrite map_map. apply map_ext. intros l. unfold fact. cbn [fst snd bs]. rewrite Nat.add_0_r. f_equal. unfold ci, skip. destruct (Nat.leb_spec k l); [destruct (Nat.ltb_spec k (l + 1))|destruct (Nat.ltb_spec k l)]; lia.
  Qed.
  Lemma release_fact k : release S n pgb k = map fact (release_q n k).
  Proof. unfold release, release_q. rewrite map_map. apply map_ext. intros l. unfold fact. cbn [fst snd bs]. rewrite Nat.add_0_r, ci_skip. f_equal. lia. Qed.
  Lemma pos_valid j k : j < pgb -> k < n -> k * pgb + j < n * pgb.
  Proof. nia. Qed.
  Lemma fits_before k : k < n -> fits (before_q n k).
  Proof. intros L e I. apply before_in in I as (l & Ll & N & ->); auto. cbn. lia. Qed.
  Lemma fits_release k : k < n -> fits (release_q n k).
  Proof. intros L e I. apply release_in in I as (l & Ll & N & ->); auto. cbn. lia. Qed.
  Lemma fits_ready i j k : i < ntasks P -> j < pgb -> k < n -> fits (Pseq_sys.ready_q n pgb i j k).
  Proof. intros Li Lj Lk e I. apply in_app_or in I as [[<-|[<-|[]]]|I]; [cbn; lia|cbn; split; [now apply pos_valid|lia]|now apply (fits_before k)]. Qed.
  Lemma fun_ready i j k : k < n -> forall s d e, In (s, d) (Pseq_sys.ready_q n pgb i j k) -> In (s, e) (Pseq_sys.ready_q n pgb i j k) -> d = e.
  Proof.
    intros Lk s d e I J. apply in_app_or in I as [[[= <- <-]|[[= <- <-]|[]]]|I]; apply in_app_or in J as [[[=]|[[=]|[]]]|J]; try congruence.
    - apply before_in in J as (l & _ & _ & [=]); auto.
    - apply before_in in J as (l & _ & _ & [=]); auto.
    - apply before_in in I as (l & _ & _ & [=]); auto. congruence.
    - apply before_in in I as (l & _ & _ & [=]); auto. congruence.
    - apply before_in in I as (l & _ & _ & [=]); auto. apply before_in in J as (l' & _ & _ & [=]); auto. congruence.
  Qed.

  Lemma pact_write i j k p a : j < pgb -> k < n -> i < length (p_cost P) -> get (sp_prec S) i = Some p -> get (sp_add S) i = Some a ->
    exists f, write_strop c (pact_op P S n pgb i p a (cost_of P i) j k) = Some f /\ like [i] (pact_q n pgb i j k) (cost_of P i) f.
  Proof.
    intros Lj Lk Li Ep Ea. destruct (sim_act P V S IV SP OV PF SE cv SCVW i p a Ep Ea) as (pp & ee & E1 & E2 & SI). assert (Lt : i < ntasks P). { apply AF in Li. apply nth_error_Some. unfold primitive in Li. congruence. }
    apply (write_like [i] (pact_q n pgb i j k) _ (pp, ee) (p, a)); auto; cbn [r_prec r_add r_cost pact_op fst snd].
    - split; [now apply fits_ready|now apply fun_ready|]. unfold pact_q. cbn [snd]. apply fits_app. split; [|destruct (j =? 0); [now apply fits_release|intros e []]]. intros e [<-|[<-|[]]]; cbn; [lia|]. split; [now apply pos_valid|lia].
    - f_equal. unfold pact_q, Pseq_sys.ready_q. cbn [fst]. rewrite map_app, before_fact. f_equal. cbn [map]. unfold fact. cbn [fst snd bs]. repeat (apply f_equal2; [lia|]); reflexivity.
    - f_equal. unfold pact_q. cbn [snd]. rewrite map_app. apply (f_equal2 (@app nat)); [cbn [map]; unfold fact; cbn [fst snd bs]; repeat (apply f_equal2; [lia|]); reflexivity|]. destruct (j =? 0); [apply release_fact|reflexivity].
  Qed.

  (** Methods of tasks other than the initial task *)
  Lemma pmeth_write i m j k : In m (p_methods P) -> m_task m <> p_init P -> j < pgb -> k < n -> length (m_subs m) + j <= pgb ->
    exists o f, pmeth_op P S n pgb i m (rev (m_subs m)) (mord m) j k = Some o /\ r_ok o = true /\ (exists sb, r_name o = TMeth i (k * pgb + j) sb) /\ write_strop c o = Some f /\ like [] (pmeth_q n pgb m j k) 0 f.
  Proof.
    intros IM NT Lj Lk LE. assert (WM := wf_methods P WF m IM). assert (N1 := subs_pos P WF m IM). assert (Lt : m_task m < ntasks P) by (apply nth_error_Some; rewrite (wfm_task P m WM); discriminate).
    assert (LT : forall t, In t (rev (m_subs m)) -> t < ntasks P) by (intros t I; apply in_rev in I; assert (X := wfm_subs P m WM t I); unfold ntasks; lia).
    unfold pmeth_op. destruct (Nat.eqb_spec (m_task m) (p_init P)) as [|_]; [congruence|]. destruct (Nat.ltb_spec pgb (length (rev (m_subs m)) + j)) as [Q|_]; [rewrite rev_length in Q; lia|]. cbn [negb andb]. eexists.
    match goal with |- exists f, Some ?x = _ /\ _ => set (o := x) end. destruct (write_like [] (pmeth_q n pgb m j k) o ([], []) ([], []) 0) as (f & Ew & LK); auto; try reflexivity.
    - apply sim_nil.
    - split; [now apply fits_ready|now apply fun_ready|]. unfold pmeth_q. cbn [snd]. assert (LR := rev_length (m_subs m)). assert (B : forall x, x < length (m_subs m) -> k * pgb + j + x < n * pgb) by (intros x Lx; nia).
      assert (G : fits (map (fun lt => (ST (k * pgb + j + fst lt), Datatypes.S (snd lt))) (combine (seq 0 (length (rev (m_subs m)))) (rev (m_subs m))) ++ [(SK k, j + length (rev (m_subs m)))])).
      { apply fits_app. split; [|intros e [<-|[]]; cbn; lia]. intros e I. apply in_map_iff in I as ([x t] & <- & I). apply nth_comb in I as [_ I]. rewrite Nat.sub_0_r in I. cbn [fst snd Pseq_sys.valid top]. assert (x < length (rev (m_subs m))) by (apply nth_error_Some; congruence). split; [apply B; lia|]. apply nth_error_In in I. now apply LT. }
      destruct (rev (m_subs m)) as [|t [|t2 r]] eqn:Er; auto. intros e [<-|[]]. cbn. split; [now apply pos_valid|]. apply LT. now left.
    - unfold o. cbn [r_prec fst app]. unfold pmeth_q, Pseq_sys.ready_q. cbn [fst]. rewrite map_app, before_fact. cbn [map app]. repeat (apply f_equal2; [unfold fact; cbn [fst snd bs]; lia|]); reflexivity.
    - unfold o. cbn [r_add snd app]. unfold pmeth_q. cbn [snd]. destruct (rev (m_subs m)) as [|t [|t2 r]] eqn:Er; [apply (f_equal (@length nat)) in Er; rewrite rev_length in Er; cbn in Er; lia| |].
      + cbn [map]. unfold fact. cbn [fst snd bs]. f_equal. lia.
      + rewrite map_app, map_map. apply (f_equal2 (@app nat)); [apply map_ext; intros [x y]; unfold fact; cbn [fst snd bs]; lia|]. cbn [map]. unfold fact. cbn [fst snd bs]. f_equal. lia.
    - exists f. split; [reflexivity|]. split; [reflexivity|]. split; [unfold o; cbn; eauto|]. auto.
  Qed.

  (** Methods of the initial task *)
  Lemma top_order_ci a b : a <> b -> top_order n (a, b) = ci n a b.
  Proof. intros N. unfold top_order, ci. cbn [fst snd]. generalize (a * (n - 1)). intros x. destruct (Nat.ltb_spec a b), (Nat.ltb_spec b a); lia. Qed.
  Lemma top_cons_ok o : (forall a b, In (a, b) o -> b < a < n) -> top_cons S n pgb o = Some (map (fun i => cn i + cval n o i) (seq 0 (n * (n - 1)))).
  Proof.
    intros OK. unfold top_cons. set (N := n * (n - 1)).
    assert (G : forall o, (forall a b, In (a, b) o -> b < a < n) -> forall cs, length cs = N -> exists cs', ofold (fun cs e => set cs (top_order n e) (cn (top_order n e) + 1)) o cs = Some cs' /\ length cs' = N /\ forall i, i < N -> nth_error cs' i = if existsb (fun e => ci n (fst e) (snd e) =? i) o then Some (cn i + 1) else nth_error cs i).
    { clear o OK. induction o as [|[a b] o IH]; intros OK cs L; [exists cs; split; [reflexivity|auto]|]. cbn [ofold existsb fst snd]. assert (X := OK a b (or_introl eq_refl)). rewrite !top_order_ci by lia. assert (Y := ci_lt n a b ltac:(lia) ltac:(lia) ltac:(lia)). fold N in Y.
      destruct (set_some cs (ci n a b) (cn (ci n a b) + 1) ltac:(lia)) as (cs1 & Es). rewrite Es. cbn [obind].
      destruct (IH (fun x y I => OK x y (or_intror I)) cs1) as (cs' & E & L' & H); [apply set_length in Es; congruence|]. exists cs'. split; auto. split; auto. intros i Li. rewrite H by auto. destruct (existsb _ o); [now rewrite orb_true_r|]. rewrite orb_false_r. destruct (Nat.eqb_spec (ci n a b) i) as [<-|Ne].
      - exact (get_set_eq _ _ _ _ Es).
      - apply (get_set_neq _ _ _ _ _ Es). auto. }
    destruct (G o OK (map cn (seq 0 N)) ltac:(now rewrite map_length, seq_length)) as (cs' & E & L' & H). rewrite E. f_equal. apply (nth_ext _ _ 0 0); [now rewrite map_length, seq_length|]. intros i Li. rewrite L' in Li. specialize (H i Li).
    rewrite (nth_error_nth' cs' 0) in H by lia. rewrite (nth_indep (map _ _) 0 (cn 0 + cval n o 0)) by (rewrite map_length, seq_length; auto). rewrite (map_nth (fun i => cn i + cval n o i)), seq_nth by auto. cbn [Nat.add].
    unfold cval. destruct (existsb (fun e => ci n (fst e) (snd e) =? i) o); [congruence|]. rewrite nth_error_map, (nth_error_nth' _ 0), seq_nth in H by (rewrite ?seq_length; auto). cbn in H. injection H as ->. lia.
  Qed.
  Lemma cslot_fact i d : i < n * (n - 1) -> fact (cslot n i, d) = cn i + d.
  Proof. intros L. destruct (cslot_ci n i L) as (k & j & _ & _ & _ & -> & E). unfold fact. cbn [fst snd bs]. now rewrite E. Qed.
  Lemma ptop_write i m : In m (p_methods P) -> m_task m = p_init P -> length (m_subs m) = n -> (forall a b, In (a, b) (mord m) -> b < a < n) -> 1 <= pgb ->
    exists o f, pmeth_op P S n pgb i m (rev (m_subs m)) (mord m) 0 0 = Some o /\ r_ok o = true /\ (exists sb, r_name o = TMeth i 0 sb) /\ write_strop c o = Some f /\ like [] (ptop_q n pgb m) 0 f.
  Proof.
    intros IM ET LN OK PG. assert (WM := wf_methods P WF m IM).
    assert (LT : forall l, l < n -> nth l (rev (m_subs m)) 0 < ntasks P). { intros l L. assert (I : In (nth l (rev (m_subs m)) 0) (m_subs m)) by (apply in_rev, nth_In; rewrite rev_length; lia). assert (X := wfm_subs P m WM _ I). unfold ntasks. lia. }
    unfold pmeth_op. rewrite ET, Nat.eqb_refl. cbn [negb]. rewrite andb_false_r. cbn [Nat.eqb andb].
    assert (ES : omap (fun l => t <- get (rev (m_subs m)) l ;; Some (tk (l * pgb) + t + 1)) (seq 0 n) = Some (map (fun l => tk (l * pgb) + nth l (rev (m_subs m)) 0 + 1) (seq 0 n))).
    { assert (B : forall l, In l (seq 0 n) -> l < length (rev (m_subs m))) by (intros l I; apply in_seq in I; rewrite rev_length; lia). revert B. generalize (seq 0 n). intros q B. induction q as [|l q IH]; auto. cbn [omap map]. unfold get at 1. rewrite (nth_error_nth' _ 0) by (apply B; now left). cbn [obind]. rewrite IH by (intros x I; apply B; now right). reflexivity. }
    rewrite ES, (top_cons_ok _ OK). cbn [obind]. eexists. match goal with |- exists f, Some ?x = _ /\ _ => set (o := x) end. destruct (write_like [] (ptop_q n pgb m) o ([], []) ([], []) 0) as (f & Ew & LK); auto; try reflexivity.
    - apply sim_nil.
    - split; cbn [ptop_q fst snd]; [intros e [<-|[]]; cbn; lia|intros s d e [[= <- <-]|[]] [[= <-]|[]]; reflexivity|]. rewrite !fits_app. split; [intros e [<-|[]]; cbn; lia|]. split; [intros e I; apply in_map_iff in I as (l & <- & I); apply in_seq in I; cbn; lia|]. split.
      + intros e I. apply in_map_iff in I as (l & <- & I). apply in_seq in I. cbn [fst snd Pseq_sys.valid top]. split; [assert (X := pos_valid 0 l ltac:(lia) ltac:(lia)); lia|apply LT; lia].
      + intros e I. apply in_map_iff in I as (x & <- & I). apply in_seq in I. cbn [fst snd]. destruct (cslot_ci n x ltac:(lia)) as (a & b & La & Lb & N & -> & _). cbn [Pseq_sys.valid top]. split; auto. unfold cval. destruct (existsb _ _); lia.
    - unfold o. cbn [r_add snd app ptop_q]. cbn [map]. rewrite !map_app, !map_map. apply f_equal2; [unfold fact; cbn [fst snd bs]; lia|]. apply (f_equal2 (@app nat)); [apply map_ext; intros l; reflexivity|]. apply (f_equal2 (@app nat)); [apply map_ext; intros l; unfold fact; cbn [fst snd bs]; lia|].
      apply map_ext_in. intros x I. apply in_seq in I. rewrite cslot_fact by lia. reflexivity.
    - exists f. split; [reflexivity|]. split; [reflexivity|]. split; [unfold o; cbn; eauto|]. auto.
  Qed.
End Sim.
