(** The written operators without conditional effects act on the variables of positions as the operators of Strips_sys. *)
From Verif Require Import Base Htn_problem Htn_spec To_spec Sas_model Sas_spec Sas_proof Sas_sim Sas_act Sas_rep Sas_stack Sas_ops Push_model Push_spec Push_net Push_sys Strips_model Strips_spec Strips_net Strips_sys Strips_run.

Lemma blocks_int (f : nat -> nat) w k : (forall i, f (S i) = S (f i + w)) -> forall a, intervals (f a) (map (fun j => (f j, f j + w)) (seq a k)) (f (a + k)).
Proof.
  intros H. induction k as [|k IH]; intros a; cbn [seq map intervals fst snd]; [f_equal; lia|]. split; [reflexivity|]. split; [lia|]. rewrite <- H. replace (a + S k) with (S a + k) by lia. apply IH.
Qed.
Lemma nth_block (f : nat -> nat) w n i : i < n -> nth_error (map (fun j => (f j, f j + w)) (seq 0 n)) i = Some (f i, f i + w).
Proof. intros L. rewrite nth_error_map, (nth_error_nth' _ 0) by (rewrite seq_length; auto). now rewrite seq_nth. Qed.

Section Ix.
  Variable pgb : nat.
  Definition valid (s : slot) : Prop := match s with ST p | SK p => p < pgb | SC k j => k < pgb /\ j < pgb /\ k <> j | SM _ => False end.
  Lemma ci_lt k j : k < pgb -> j < pgb -> k <> j -> ci pgb k j < pgb * (pgb - 1).
  Proof. intros Lk Lj N. unfold ci. destruct (Nat.ltb_spec j k); nia. Qed.
  Lemma ci_inj k j k' j' : k < pgb -> j < pgb -> k <> j -> k' < pgb -> j' < pgb -> k' <> j' -> ci pgb k j = ci pgb k' j' -> k = k' /\ j = j'.
  Proof.
    intros Lk Lj N Lk' Lj' N' E. unfold ci in E. set (x := if j <? k then j else j - 1) in *. set (y := if j' <? k' then j' else j' - 1) in *.
    assert (Lx : x < pgb - 1) by (unfold x; destruct (Nat.ltb_spec j k); lia). assert (Ly : y < pgb - 1) by (unfold y; destruct (Nat.ltb_spec j' k'); lia).
    assert (k = k') by nia. subst k'. split; auto. assert (F : x = y) by lia. unfold x, y in F. destruct (Nat.ltb_spec j k), (Nat.ltb_spec j' k); lia.
  Qed.
  Lemma ci_surj x : x < pgb * (pgb - 1) -> exists k j, k < pgb /\ j < pgb /\ k <> j /\ ci pgb k j = x.
  Proof.
    intros L. assert (NZ : pgb - 1 <> 0) by (intros E; rewrite E, Nat.mul_0_r in L; lia). assert (DM := Nat.div_mod x (pgb - 1) NZ). assert (ML := Nat.mod_upper_bound x (pgb - 1) NZ). set (k := x / (pgb - 1)) in *. set (r := x mod (pgb - 1)) in *.
    exists k, (skip k r). assert (k < pgb) by nia. split; auto. split; [apply skip_lt; lia|]. split; [intros E; symmetry in E; now apply skip_ne in E|]. unfold ci, skip. destruct (Nat.leb_spec k r); [destruct (Nat.ltb_spec (r + 1) k)|destruct (Nat.ltb_spec r k)]; nia.
  Qed.
  Lemma ci_skip j x : ci pgb j (skip j x) = j * (pgb - 1) + x.
  Proof. unfold ci, skip. destruct (Nat.leb_spec j x); [destruct (Nat.ltb_spec (x + 1) j)|destruct (Nat.ltb_spec x j)]; lia. Qed.
  (** The number of a variable, and the number of variables *)
  Definition ix (s : slot) : nat :=
    match s with ST p => p | SC k j => pgb + ci pgb k j | SK p => pgb + pgb * (pgb - 1) + p | SM _ => 0 end.
  Definition nslots : nat := pgb + pgb * (pgb - 1) + pgb.
  Lemma ix_lt s : valid s -> ix s < nslots.
  Proof. unfold nslots. destruct s as [p|k j|p|p]; cbn [ix valid]; try lia. intros (A & B & D). assert (X := ci_lt k j A B D). lia. Qed.
  Lemma ix_inj s s' : valid s -> valid s' -> ix s = ix s' -> s = s'.
  Proof.
    assert (X := ci_lt). destruct s as [p|k j|p|p], s' as [p'|k' j'|p'|p']; cbn [ix valid]; intros L L' E; try tauto; try (f_equal; lia).
    - destruct L as (A & B & D), L' as (A' & B' & D'). destruct (ci_inj k j k' j' A B D A' B' D' ltac:(lia)). congruence.
    - destruct L as (A & B & D). specialize (X k j A B D). lia.
    - destruct L' as (A & B & D). specialize (X k' j' A B D). lia.
  Qed.
  Lemma ix_surj x : x < nslots -> exists s, valid s /\ ix s = x.
  Proof.
    unfold nslots. intros L. destruct (Nat.lt_ge_cases x pgb); [exists (ST x); auto|]. destruct (Nat.lt_ge_cases x (pgb + pgb * (pgb - 1))) as [Q|Q].
    - destruct (ci_surj (x - pgb) ltac:(lia)) as (k & j & A & B & D & E). exists (SC k j). cbn [ix valid]. repeat split; auto. lia.
    - exists (SK (x - (pgb + pgb * (pgb - 1)))). cbn [ix valid]. lia.
  Qed.

  Definition agrees (r : list nat) (c : conf) : Prop := length r = nslots /\ forall s, valid s -> nth_error r (ix s) = Some (c s).
  Definition tgt0 (e : slot * nat) : nat * nat := (ix (fst e), snd e).
  Definition vlist (l : list (slot * nat)) : Prop := forall e, In e l -> valid (fst e).

  Lemma agrees_upd es : forall r c, vlist es -> agrees r c -> agrees (fassign (map tgt0 es) r) (upd es c).
  Proof.
    induction es as [|[s d] es IH]; intros r c VL [L A]; cbn; [split; auto|]. apply IH; [intros e I; apply VL; now right|]. assert (Vs : valid s) by (apply (VL (s, d)); now left). split; [now rewrite assign_length|].
    intros s' V'. cbn [fst snd]. rewrite nth_assign. unfold upd1. cbn [fst snd]. destruct (slot_dec s' s) as [->|N].
    - rewrite Nat.eqb_refl. assert (X := ix_lt s Vs). destruct (Nat.ltb_spec (ix s) (length r)); [reflexivity|lia].
    - destruct (Nat.eqb_spec (ix s) (ix s')) as [E|_]; [apply ix_inj in E; auto; congruence|]. cbn [andb]. auto.
  Qed.
End Ix.

Section Sim.
  Variables (P : problem) (V : list (nat * nat)) (S : sproblem) (pgb : nat) (c : list (option (nat * nat))).
  Hypotheses (WF : wf_problem P) (IV : intervals 0 V (p_nfacts P)) (SP : sp_ok P V S).
  Hypotheses (OV : one_value_reach P V) (PF : prec_functional P V) (SE : single_effects P V) (AF : actions_first P).
  Hypothesis (EC : conv_array (svars P S pgb) = Some c).
  Notation W := (sp_var S).
  Notation nV := (length (sp_var S)).
  Notation cv := (conv c).
  Notation reached := (reached P).
  Notation sim := (sim P V S).
  Notation valid := (valid pgb). Notation vlist := (vlist pgb). Notation ix := (ix pgb). Notation agrees := (agrees pgb).
  Notation tk := (Strips_model.tk P S). Notation cn := (Strips_model.cn P S pgb). Notation st := (Strips_model.st P S pgb).

  Lemma sv_int : intervals 0 (svars P S pgb) (st pgb).
  Proof.
    unfold svars. apply intervals_app. exists (head0 S). split; [eapply head_int; eauto|]. apply intervals_app. exists (tk pgb). split.
    - replace (head0 S) with (tk 0) by (unfold Strips_model.tk; lia). replace (map _ (seq 0 pgb)) with (map (fun j => (tk j, tk j + (ntasks P + 1))) (seq 0 pgb)) by (apply map_ext; intros j; f_equal; lia). apply (blocks_int tk (ntasks P + 1) pgb). intros i; unfold Strips_model.tk; lia.
    - apply intervals_app. exists (st 0). split.
      + replace (tk pgb) with (cn 0) by (unfold Strips_model.cn; lia). replace (st 0) with (cn (0 + pgb * (pgb - 1))) by (unfold Strips_model.st; cbn [Nat.add]; lia). apply (blocks_int cn 1). intros i. unfold Strips_model.cn. lia.
      + apply (blocks_int st 1 pgb). intros i. unfold Strips_model.st. lia.
  Qed.
  Lemma SCV b i d : cv b = Some (i, d) <-> fact_of (svars P S pgb) i d b.
  Proof. exact (conv_ok _ _ _ sv_int EC b i d). Qed.
  Lemma SCVW b i d : i < nV -> (cv b = Some (i, d) <-> fact_of W i d b).
  Proof. intros L. rewrite SCV. unfold svars. now apply fact_of_app. Qed.

  Definition bs (s : slot) : nat := match s with ST p => tk p | SC k j => cn (ci pgb k j) | SK p => st p | SM _ => 0 end.
  Definition top (s : slot) : nat := match s with ST _ => ntasks P + 1 | _ => 1 end.
  Definition fact (e : slot * nat) : nat := bs (fst e) + snd e.
  Definition tgt (e : slot * nat) : nat * nat := (nV + ix (fst e), snd e).

  Lemma cv_slot e : valid (fst e) -> snd e <= top (fst e) -> cv (fact e) = Some (tgt e).
  Proof.
    destruct e as [s d]. unfold fact, tgt. cbn [fst snd]. intros Vs L. apply SCV. exists (bs s), (bs s + top s). split; [|lia]. unfold svars. rewrite nth_error_app2 by lia. replace (nV + ix s - nV) with (ix s) by lia.
    destruct s as [p|k j|p|p]; cbn [Strips_sim.ix bs top Strips_sim.valid] in *; [| | |tauto].
    - rewrite nth_error_app1 by (rewrite map_length, seq_length; lia). replace (map _ (seq 0 pgb)) with (map (fun j => (tk j, tk j + (ntasks P + 1))) (seq 0 pgb)) by (apply map_ext; intros j; f_equal; lia). now apply nth_block.
    - destruct Vs as (A & B & D). assert (X := ci_lt pgb k j A B D). rewrite nth_error_app2 by (rewrite map_length, seq_length; lia). rewrite map_length, seq_length. rewrite nth_error_app1 by (rewrite map_length, seq_length; lia). replace (pgb + ci pgb k j - pgb) with (ci pgb k j) by lia. now apply nth_block.
    - rewrite nth_error_app2 by (rewrite map_length, seq_length; lia). rewrite map_length, seq_length. rewrite nth_error_app2 by (rewrite map_length, seq_length; lia). rewrite map_length, seq_length.
      replace (pgb + pgb * (pgb - 1) + p - pgb - pgb * (pgb - 1)) with p by lia. now apply nth_block.
  Qed.
  Definition fits (l : list (slot * nat)) : Prop := forall e, In e l -> valid (fst e) /\ snd e <= top (fst e).
  Lemma omap_slots l : fits l -> omap cv (map fact l) = Some (map tgt l).
  Proof. intros F. induction l as [|e l IH]; auto. cbn [map omap]. destruct (F e) as [A B]; [now left|]. rewrite cv_slot by auto. cbn [obind]. rewrite IH by (intros x I; apply F; now right). reflexivity. Qed.
  Lemma fits_app l1 l2 : fits (l1 ++ l2) <-> fits l1 /\ fits l2.
  Proof. unfold fits. split; [intros H; split; intros e I; apply H, in_or_app; auto|]. intros [H1 H2] e I. apply in_app_or in I as [I|I]; auto. Qed.

  Record good_qop (o : qop) : Prop := {
    g_prec : fits (fst o);
    g_fun : forall s d e, In (s, d) (fst o) -> In (s, e) (fst o) -> d = e;
    g_add : fits (snd o) }.

  (** An operator that executes the actions [l] and acts on the positions like [o] *)
  Definition like (l : list nat) (o : qop) (cost : nat) (f : fd_op) : Prop :=
    exists pp ee, sim l pp ee /\ good_qop o /\ f = write_op (pp ++ map tgt (fst o)) (ee ++ map tgt (snd o)) cost.

  Lemma agrees_holds v r cf e : length v = nV -> agrees r cf -> valid (fst e) -> (holds (v ++ r) (tgt e) <-> cf (fst e) = snd e).
  Proof.
    intros Lv [_ A] Vs. unfold tgt. rewrite <- Lv, holds_back. unfold holds. cbn [fst snd]. rewrite A by auto. split; congruence.
  Qed.

  Lemma like_step l o cost f s v r cf : like l o cost f -> precs_agree P V l -> reached s -> rep V s v -> agrees r cf ->
    (fd_applicable (v ++ r) f <-> executable P s l /\ qpre o cf) /\
    (executable P s l -> exists v' r', rep V (after P s l) v' /\ agrees r' (qeff o cf) /\ fd_result (v ++ r) f = v' ++ r') /\
    f_cost f = cost.
  Proof.
    intros (pp & ee & SI & [G1 G2 G3] & ->) PA R RP AG. assert (Lv : length v = nV) by (destruct RP as [-> _]; symmetry; apply SP).
    destruct SI as (SF & SFun & SI). destruct (SI s v R RP) as (S1 & S2 & S3).
    assert (Lpp : forall i d, In (i, d) pp -> i < nV) by (intros i d I; destruct (SF i d (or_introl I)) as (b & F); eapply fact_of_lt; eauto).
    assert (Lee : forall i d, In (i, d) ee -> i < length v) by (intros i d I; destruct (SF i d (or_intror I)) as (b & F); rewrite Lv; eapply fact_of_lt; eauto).
    split; [|split; [|reflexivity]].
    - rewrite wo_app.
      + split.
        * intros H. split.
          -- apply S2; auto. intros [i d] I. apply (holds_front v r); [rewrite Lv; eauto|]. apply H, in_or_app. auto.
          -- intros e I. apply (proj1 (agrees_holds v r cf e Lv AG (proj1 (G1 e I)))). apply H, in_or_app. right. now apply in_map.
        * intros [E PR] [i d] I. apply in_app_or in I as [I|I].
          -- apply holds_front; [rewrite Lv; eauto|]. apply (S1 E). exact I.
          -- apply in_map_iff in I as (e & <- & I). apply (agrees_holds v r cf e Lv AG (proj1 (G1 e I))). now apply PR.
      + intros i d e I J. apply in_app_or in I as [I|I]; apply in_app_or in J as [J|J].
        * eapply SFun; eauto.
        * exfalso. apply in_map_iff in J as (x & [= <- _] & _). apply Lpp in I. lia.
        * exfalso. apply in_map_iff in I as (x & [= <- _] & _). apply Lpp in J. lia.
        * apply in_map_iff in I as ([x dx] & E1 & I). apply in_map_iff in J as ([y dy] & E2 & J). injection E1 as <- <-. injection E2 as E3 <-. cbn [fst snd] in *. assert (y = x) by (apply (ix_inj pgb); [apply (G1 _ J)|apply (G1 _ I)|lia]). subst y. eapply G2; eauto.
    - intros E. exists (fassign ee v), (fassign (map (tgt0 pgb) (snd o)) r). split; [now apply S3|]. split.
      + unfold qeff. apply agrees_upd; auto. intros e I. now apply G3.
      + rewrite wo_res. assert (TG : forall z, map tgt z = map (shift (length v)) (map (tgt0 pgb) z)) by (intros z; rewrite map_map, Lv; reflexivity).
        rewrite fassign_app, fassign_front by auto. assert (L1 : length (fassign ee v) = length v) by apply fassign_length. now rewrite !TG, <- L1, !fassign_back.
  Qed.

  (** ** The operators *)
  Lemma map_fact_ready j b : Strips_model.ready P S pgb j b = map fact (ready_q pgb j b).
  Proof. unfold Strips_model.ready, ready_q. rewrite map_map. apply map_ext. intros k. unfold fact. destruct (k =? j); cbn [fst snd bs]; lia. Qed.
  Lemma fits_ready j b : j < pgb -> b <= ntasks P + 1 -> fits (ready_q pgb j b).
  Proof. intros L Lb e I. apply (ready_in pgb j b e L) in I as [(k & Lk & N & ->)| ->]; cbn; lia. Qed.
  Lemma fits_leaves j es : j < pgb -> leaves pgb j es -> fits es.
  Proof. intros L LI e I. apply LI in I as [(k & Lk & N & ->)|[->| ->]]; cbn; lia. Qed.
  Lemma fun_ready j b : j < pgb -> forall s d e, In (s, d) (ready_q pgb j b) -> In (s, e) (ready_q pgb j b) -> d = e.
  Proof. intros L s d e I J. apply (ready_in pgb j b _ L) in I as [(k & Lk & N & [= -> ->])|[= -> ->]]; apply (ready_in pgb j b _ L) in J as [(k' & Lk' & N' & [=])|[=]]; congruence. Qed.

  Lemma write_like l o f p a cost : sim l (fst p) (snd p) -> good_qop o -> omap cv (fst a) = Some (fst p) -> omap cv (snd a) = Some (snd p) -> r_prec f = fst a ++ map fact (fst o) -> r_add f = snd a ++ map fact (snd o) -> r_cost f = cost ->
    exists g, write_strop c f = Some g /\ like l o cost g.
  Proof.
    destruct p as [pp ee], a as [ap ae]. cbn [fst snd]. intros SI G E1 E2 Q1 Q2 Q3. unfold write_strop. rewrite Q1, Q2, Q3. rewrite !omap_app, E1, E2. assert (G' := G). destruct G' as [G1 G2 G3]. rewrite !omap_slots by auto. cbn [obind].
    eexists. split; [reflexivity|]. exists pp, ee. auto.
  Qed.

  Lemma empty_write cost i : i < pgb -> exists f, write_strop c (empty_op P S pgb cost i) = Some f /\ like [] (empty_q pgb i) cost f.
  Proof.
    intros L. apply (write_like [] (empty_q pgb i) _ ([], []) ([], [])); auto; cbn [r_prec r_add r_cost empty_op fst snd app].
    - apply sim_nil.
    - split; [apply fits_ready; lia|now apply fun_ready|]. apply (fits_leaves i); auto. now apply empty_leaves.
    - apply map_fact_ready.
    - unfold empty_q. cbn [snd]. rewrite map_app, map_map. apply f_equal2; [|cbn [map]; unfold fact; cbn [fst snd bs]; f_equal; lia]. apply map_ext. intros k. unfold fact. destruct (k =? i); cbn [fst snd bs]; lia.
  Qed.

  Lemma sact_write i j p a : j < pgb -> i < length (p_cost P) -> get (sp_prec S) i = Some p -> get (sp_add S) i = Some a ->
    exists f, write_strop c (sact_op P S pgb i p a (cost_of P i) j) = Some f /\ like [i] (act_q pgb i j) (cost_of P i) f.
  Proof.
    intros Lj Li Ep Ea. destruct (sim_act P V S IV SP OV PF SE cv SCVW i p a Ep Ea) as (pp & ee & E1 & E2 & SI). assert (Lt : i < ntasks P). { apply AF in Li. apply nth_error_Some. unfold primitive in Li. congruence. }
    apply (write_like [i] (act_q pgb i j) _ (pp, ee) (p, a)); auto; cbn [r_prec r_add r_cost sact_op fst snd].
    - split; [apply fits_ready; lia|now apply fun_ready|]. apply (fits_leaves j); auto. now apply act_leaves.
    - f_equal. apply map_fact_ready.
    - f_equal. unfold act_q. cbn [snd map app]. apply f_equal2; [unfold fact; cbn [fst snd bs]; lia|]. rewrite map_app, map_map. apply f_equal2; [|cbn [map]; unfold fact; cbn [fst snd bs]; f_equal; lia].
      apply map_ext. intros k. unfold fact. cbn [fst snd bs]. rewrite ci_skip. lia.
  Qed.

  Lemma fresh_in j raw e : In e (fresh_q j raw) -> (exists x, In x raw /\ e = (ST (skip j x), 0)) \/ exists x y, In y raw /\ x <= y /\ e = (SK (skip j x), if memb x raw then 0 else 1).
  Proof.
    unfold fresh_q. destruct raw as [|z r] eqn:Er; [intros []|]. rewrite <- Er. intros I. apply in_app_or in I as [I|I]; apply in_map_iff in I as (x & <- & I); [left; eauto|right]. apply in_seq in I. exists x, (last raw 0).
    split; [|split; [lia|auto]]. destruct (exists_last (l := raw)) as (l & y & Ey); [congruence|]. rewrite Ey, last_last. apply in_or_app. right. now left.
  Qed.

  Lemma good_meth m j raw : In m (p_methods P) -> (forall a b, In (a, b) (m_ord m) -> a < b) -> j < pgb -> choice pgb m raw -> good_qop (mqop pgb m j raw).
  Proof.
    intros IM TOP Lj [CL CI CB]. assert (WM := wf_methods P WF m IM). assert (N1 : 1 <= length (m_subs m)) by (assert (X := wfm_nonempty P m WM); destruct (m_subs m); [congruence|cbn; lia]).
    assert (OR : forall a b, In (a, b) (m_ord m) -> a < b < length (m_subs m)) by (intros a b I; split; [now apply TOP|apply (wfm_ord P m WM a b I)]).
    assert (Lt : m_task m < ntasks P) by (apply nth_error_Some; rewrite (wfm_task P m WM); discriminate).
    assert (LT : forall a, a < length (m_subs m) -> nth a (m_subs m) 0 < ntasks P). { intros a La. assert (X := wfm_subs P m WM _ (nth_In _ 0 La)). unfold ntasks. lia. }
    split.
    - unfold mqop, meth_q. cbn [fst]. apply fits_app. split; [apply fits_ready; lia|]. intros e I. apply fresh_in in I as [(x & Ix & ->)|(x & y & Iy & L & ->)]; cbn [fst snd Strips_sim.valid top].
      + apply CB in Ix. split; [now apply skip_lt|lia].
      + apply CB in Iy. split; [apply skip_lt; lia|destruct (memb x raw); lia].
    - unfold mqop, meth_q. cbn [fst]. intros s d e I J. apply in_app_or in I as [I|I]; apply in_app_or in J as [J|J].
      + eapply fun_ready; eauto.
      + exfalso. apply (ready_in pgb j _ _ Lj) in I as [(k & Lk & N & [= -> ->])|[= -> ->]]; apply fresh_in in J as [(x & Ix & E)|(x & y & Iy & L & E)]; try discriminate. injection E as E _. symmetry in E. now apply skip_ne in E.
      + exfalso. apply (ready_in pgb j _ _ Lj) in J as [(k & Lk & N & [= -> ->])|[= -> ->]]; apply fresh_in in I as [(x & Ix & E)|(x & y & Iy & L & E)]; try discriminate. injection E as E _. symmetry in E. now apply skip_ne in E.
      + apply fresh_in in I as [(x & Ix & [= -> ->])|(x & y & Iy & L & [= -> ->])]; apply fresh_in in J as [(x' & Ix' & E)|(x' & y' & Iy' & L' & E)]; try discriminate; injection E as E ->; auto. apply skip_inj in E. now subst x'.
    - assert (PL := posn_lt pgb m (nlm m) j raw N1 Lj CL CB). assert (PI := posn_inj pgb m (nlm m) j raw N1 Lj CL CI). assert (PR := posn_raw pgb m (nlm m) j raw N1 Lj CL CI).
      intros e I. apply (madd_in pgb m (nlm m) j raw N1 Lj CL CI) in I as [(NL & ->)|[(a & La & ->)|[(NL & a & La & ->)|[(x & Ix & ->)|(a & b & I & ->)]]]]; cbn [fst snd Strips_sim.valid top].
      + lia.
      + split; [now apply PL|]. specialize (LT a La). lia.
      + split; [|lia]. split; [now apply PL|]. split; auto. destruct (PR a La) as [(Q & _)|(x & _ & ->)]; [congruence|]. apply skip_ne.
      + split; [|lia]. now apply skip_lt, CB.
      + apply OR in I. split; [|lia]. split; [apply PL; lia|]. split; [apply PL; lia|]. intros E. apply PI in E; lia.
  Qed.

  Lemma fresh_fact j raw : raw <> [] -> fresh P S pgb j raw = map fact (fresh_q j raw).
  Proof.
    intros NE. unfold fresh, fresh_q. destruct raw as [|z r] eqn:Er; [congruence|]. rewrite <- Er. rewrite map_app, !map_map. apply f_equal2; apply map_ext; intros x; unfold fact; cbn [fst snd bs]; [lia|]. destruct (memb x raw); lia.
  Qed.

  (** The operator of a method for a choice of positions *)
  Record as_meth (i : nat) (m : method) (j : nat) (raw : list nat) (o : strop) : Prop := {
    am_name : exists subs, r_name o = TMeth i j subs;
    am_prec : r_prec o = map fact (fst (mqop pgb m j raw));
    am_add : r_add o = map fact (snd (mqop pgb m j raw));
    am_cost : r_cost o = 0;
    am_ok : r_ok o = true }.

  Lemma smeth_as i m j k raw : In m (p_methods P) -> (forall a b, In (a, b) (m_ord m) -> a < b) -> j < pgb -> choice pgb m raw ->
    (2 <= length (m_subs m) -> combination (pgb - 1) (length raw) k = Some raw) -> length (m_subs m) + (if nlm m then 1 else 0) <= pgb ->
    exists o, smeth_op P S pgb i m (rev (m_subs m)) (mord m) (nlm m) j k = Some o /\ as_meth i m j raw o.
  Proof.
    intros IM TOP Lj [CL CI CB] EK LN. assert (WM := wf_methods P WF m IM). assert (N1 : 1 <= length (m_subs m)) by (assert (X := wfm_nonempty P m WM); destruct (m_subs m); [congruence|cbn; lia]).
    assert (OR : forall a b, In (a, b) (m_ord m) -> a < b < length (m_subs m)) by (intros a b I; split; [now apply TOP|apply (wfm_ord P m WM a b I)]).
    assert (LR := rev_length (m_subs m)).
    unfold smeth_op. rewrite LR. destruct (Nat.ltb_spec pgb (length (m_subs m) + (if nlm m then 1 else 0))); [lia|].
    destruct (rev (m_subs m)) as [|t [|t2 r]] eqn:Es; [cbn in LR; lia| |].
    - (* one subtask *)
      cbn in LR. assert (NL : nlm m = false) by (unfold nlm, no_last; rewrite <- LR; reflexivity). rewrite NL in CL. destruct raw as [|? ?]; [|cbn in CL; lia]. assert (MO : mord m = []). { unfold mord. destruct (m_ord m) as [|[a b] l] eqn:Eo; auto. specialize (OR a b (or_introl eq_refl)). lia. }
      eexists. split; [reflexivity|]. split; cbn [r_name r_prec r_add r_cost r_ok]; [eauto| | |reflexivity|reflexivity]; unfold mqop, meth_q; rewrite NL, MO, Es; cbn [fst snd].
      + cbn [fresh_q]. rewrite app_nil_r. apply map_fact_ready.
      + cbn. unfold fact. cbn. f_equal. lia.
    - assert (L2 : 2 <= length (m_subs m)) by (cbn in LR; lia). rewrite <- CL. rewrite EK by auto. cbn [obind]. assert (NR : raw <> []) by (intros ->; destruct (nlm m); cbn in CL; lia). rewrite (fresh_fact j raw NR), map_fact_ready, <- map_app.
      assert (MD : forall e, In e (mord m) -> 1 <= fst e < length (m_subs m) /\ snd e < length (m_subs m)) by (unfold mord; intros e I; apply in_map_iff in I as ([a b] & <- & I); apply OR in I; cbn [fst snd]; lia).
      destruct (nlm m) eqn:NL.
      + assert (OS : omap (fun e => a <- get (map (skip j) raw) (fst e) ;; b <- get (map (skip j) raw) (snd e) ;; Some (cn (ci pgb a b) + 1)) (mord m) = Some (map fact (map (fun e => (SC (nth (fst e) (map (skip j) raw) 0) (nth (snd e) (map (skip j) raw) 0), 1)) (mord m)))).
        { rewrite map_map. clear - MD CL. induction (mord m) as [|e l IH]; cbn [omap map]; auto. destruct (MD e (or_introl eq_refl)) as [A B]. unfold get at 1 2. rewrite !(nth_error_nth' _ 0) by (rewrite map_length; lia). cbn [obind]. rewrite IH by (intros; apply MD; now right). reflexivity. }
        rewrite OS. cbn [obind]. eexists. split; [reflexivity|]. split; cbn [r_name r_prec r_add r_cost r_ok]; [eauto| | |reflexivity|reflexivity]; unfold mqop, meth_q; rewrite NL, Es; cbn [fst snd]; auto.
        unfold places. rewrite !map_app, !map_map. repeat (apply (f_equal2 (@app nat)); [cbn [map]; unfold fact; cbn [fst snd bs]; try reflexivity; try (f_equal; lia); try (apply map_ext; intros; cbn [fst snd bs]; lia)|]). reflexivity.
      + assert (OS : omap (fun e => a <- match fst e with 0 => None | Datatypes.S x => get (map (skip j) raw) x end ;; b <- match snd e with 0 => Some j | Datatypes.S x => get (map (skip j) raw) x end ;; Some (cn (ci pgb a b) + 1)) (mord m)
            = Some (map fact (map (fun e => (SC (nth (fst e) (j :: map (skip j) raw) 0) (nth (snd e) (j :: map (skip j) raw) 0), 1)) (mord m)))).
        { rewrite map_map. clear - MD CL. induction (mord m) as [|e l IH]; cbn [omap map]; auto. destruct (MD e (or_introl eq_refl)) as [A B]. destruct e as [[|a] b]; cbn [fst snd] in *; [lia|]. unfold get at 1. rewrite (nth_error_nth' _ 0) by (rewrite map_length; lia). cbn [obind nth].
          destruct b as [|b]; [|unfold get at 1; rewrite (nth_error_nth' _ 0) by (rewrite map_length; lia)]; cbn [obind]; rewrite IH by (intros; apply MD; now right); reflexivity. }
        rewrite OS. cbn [obind]. eexists. split; [reflexivity|]. split; cbn [r_name r_prec r_add r_cost r_ok]; [eauto| | |reflexivity|reflexivity]; unfold mqop, meth_q; rewrite NL, Es; cbn [fst snd]; auto.
        unfold places. cbn [combine map app]. rewrite !map_app, !map_map. apply f_equal2; [unfold fact; cbn [fst snd bs]; lia|]. repeat (apply (f_equal2 (@app nat)); [unfold fact; cbn [fst snd bs]; try (apply map_ext; intros; cbn [fst snd bs]; lia)|]). reflexivity.
  Qed.
  Lemma smeth_write i m j raw o : In m (p_methods P) -> (forall a b, In (a, b) (m_ord m) -> a < b) -> j < pgb -> choice pgb m raw -> as_meth i m j raw o ->
    exists f, write_strop c o = Some f /\ like [] (mqop pgb m j raw) 0 f.
  Proof.
    intros IM TOP Lj CH [A1 A2 A3 A4 A5]. apply (write_like [] (mqop pgb m j raw) _ ([], []) ([], [])); auto; [apply sim_nil|now apply good_meth].
  Qed.
End Sim.
