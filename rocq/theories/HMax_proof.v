(** hsLmCut::getHMax: the propagation computes the cheapest derivations under the maximum, and maxPrec is a most expensive
    precondition. *)
From Verif Require Import Base Heap_model Heap_proof Relax_model Relax_spec Dij Aff_proof.

Section HM.
Variables (al : nat -> list Z) (m : strips) (cs : list nat) (s : list nat).
Hypothesis AL : forall n, length (al n) = n.
Hypothesis W : strips_wf m.
Hypothesis NPL : no_precless m.
Hypothesis LC : length cs = st_nops m.
Hypothesis Ss : forall f, In f s -> f < st_nf m.
Hypothesis NDs : NoDup s.

Notation nf := (st_nf m).
Notation nops := (st_nops m).
Notation pre := (m_pre m).
Notation add := (m_add m).
Definition ccost (op : nat) : nat := nth op cs 0.
Notation cost := ccost.
Notation ag := (agg Nat.max).
Notation DI := (DInv nf nops pre add cost s Nat.max).

Lemma mx_comm a b : Nat.max a b = Nat.max b a. Proof using. clear LC. lia. Qed.
Lemma mx_mono a b c d : a <= b -> c <= d -> Nat.max a c <= Nat.max b d. Proof using. clear LC. lia. Qed.
Lemma mx_ge a b : a <= Nat.max a b. Proof using. clear LC. lia. Qed.

(** [p] is a most expensive one of the preconditions seen so far. *)
Definition mp_ok (hv : list (option nat)) (l : list nat) (mp : option nat) : Prop :=
  match mp with
  | None => l = []
  | Some p => In p l /\ (forall q, In q l -> val hv q <= val hv p)
  end.

Record MInv (pr rest : list nat) (x : hmx) (B : list (nat * nat)) (last : nat) : Prop := {
  i_lu : length (m_unsat x) = nops;
  i_lm : length (m_maxp x) = nops;
  i_d : DI pr (m_hv x) B last (fun op => ~ In op rest);
  i_pq : PQ (m_q x) B;
  i_us : forall op, op < nops -> get (m_unsat x) op = Some (Z.of_nat (cntun pre (if memb op rest then tl pr else pr) op));
  i_mp : forall op, op < nops -> exists mp, get (m_maxp x) op = Some mp /\
     mp_ok (m_hv x) (filter (fun q => memb q (if memb op rest then tl pr else pr)) (pre op)) mp }.

Lemma mp_max hv l p : mp_ok hv l (Some p) -> ag (map (val hv) l) = val hv p.
Proof using. clear LC.
  intros (I & M). apply Nat.le_antisymm.
  - clear I. induction l as [|a l IH]; cbn; [lia|]. apply Nat.max_lub; [apply M; now left|]. apply IH. intros q Hq. apply M. now right.
  - apply agg_ge; [apply mx_comm|apply mx_ge|]. now apply in_map.
Qed.

Lemma hm_adds_ok pr op p last dn : op < nops -> (forall p, In p (pre op) -> In p pr) -> In p (pre op) ->
  forall l x B, incl l (add op) -> get (m_maxp x) op = Some (Some p) -> mp_ok (m_hv x) (pre op) (Some p) ->
  last <= val (m_hv x) p + cost op ->
  DI pr (m_hv x) B last dn -> PQ (m_q x) B ->
  exists x' B', ofold (hm_add al cs op) l x = Some x' /\ m_unsat x' = m_unsat x /\ m_maxp x' = m_maxp x /\
    DI pr (m_hv x') B' last dn /\ PQ (m_q x') B' /\
    (forall p, In p pr -> hvf (m_hv x') p = hvf (m_hv x) p) /\
    (forall f v, hvf (m_hv x) f = Some v -> exists v', hvf (m_hv x') f = Some v' /\ v' <= v) /\
    (forall f, In f l -> exists v, hvf (m_hv x') f = Some v /\ v <= val (m_hv x) p + cost op) /\
    length B' <= length B + length l.
Proof.
  intros Hop Hp Ip. induction l as [|f l IH]; intros x B IL GM MP Lu D Q.
  - exists x, B. cbn. split; [reflexivity|]. split; [reflexivity|]. split; [reflexivity|]. split; [auto|]. split; [auto|]. split; [auto|]. split; [eauto|]. split; [easy|lia].
  - assert (IF : In f (add op)) by (apply IL; now left).
    assert (IL' : incl l (add op)) by (intros y Hy; apply IL; now right).
    assert (Lf : f < nf) by (eapply sw_add_lt; eauto).
    pose proof (d_len _ _ _ _ _ _ _ _ _ _ _ _ D) as LH.
    pose proof (d_pr_val _ _ _ _ _ _ _ D p (Hp p Ip)) as (VP & _).
    cbn [ofold]. unfold hm_add at 1. rewrite (hvf_get (m_hv x) f) by lia. cbn [obind].
    assert (PV : hm_prec_val x op = Some (val (m_hv x) p)).
    { unfold hm_prec_val. rewrite GM. cbn [obind]. rewrite (hvf_get (m_hv x) p), VP; [reflexivity|]. eapply hvf_lt; eauto. }
    rewrite PV. cbn [obind]. rewrite (get_nth_d 0 cs op) by lia. fold (cost op). cbn [obind].
    set (u := val (m_hv x) p + cost op) in *.
    destruct (lt_unr u (hvf (m_hv x) f)) eqn:LT.
    + destruct (set_some (m_hv x) f (Some u)) as (hv' & E1); [lia|]. rewrite E1. cbn [obind].
      destruct (PQ_add al (m_q x) B u f AL Q) as (q' & E3 & Q'). rewrite E3. cbn [obind].
      assert (Eu : u = cost op + ag (map (val (m_hv x)) (pre op))) by (rewrite (mp_max _ _ _ MP); unfold u; lia).
      destruct (d_relax nf nops pre add cost s Nat.max pr (m_hv x) B last dn op f u hv' D Hop IF Hp Eu Lu LT E1) as (D' & NP).
      set (x1 := {| m_unsat := m_unsat x; m_maxp := m_maxp x; m_hv := hv'; m_q := q' |}).
      assert (PVs : forall q, In q pr -> val hv' q = val (m_hv x) q).
      { intros q Iq. unfold val. rewrite (hvf_set_neq _ _ _ _ _ E1); auto. intros <-. auto. }
      assert (Ep : val (m_hv x1) p + cost op = u) by (cbn; rewrite PVs; auto).
      destruct (IH x1 ((u, f) :: B)) as (x' & B' & R1 & R2 & R3 & R5 & R6 & R9 & R10 & R11 & R12); auto.
      * destruct MP as (M1 & M2). split; auto. intros q Iq. cbn [m_hv x1]. rewrite !PVs; auto.
      * rewrite Ep. exact Lu.
      * exists x', B'. cbn in R2, R3. split; [exact R1|]. split; [exact R2|]. split; [exact R3|]. split; [auto|]. split; [auto|].
        split.
        { intros q Iq. rewrite (R9 q Iq). cbn. apply (hvf_set_neq _ _ _ _ _ E1). intros <-. auto. }
        assert (LE : forall f0 v, hvf (m_hv x) f0 = Some v -> exists v', hvf hv' f0 = Some v' /\ v' <= v).
        { intros f0 v V. destruct (Nat.eq_dec f f0) as [<-|N].
          - exists u. split; [now apply (hvf_set_eq _ _ _ _ E1)|]. rewrite V in LT. cbn in LT. apply Nat.ltb_lt in LT. lia.
          - exists v. split; auto. now rewrite (hvf_set_neq _ _ _ _ _ E1 N). }
        split.
        { intros f0 v V. destruct (LE f0 v V) as (v' & V' & L'). destruct (R10 f0 v' V') as (v2 & V2 & L2). exists v2. split; auto. lia. }
        rewrite Ep in R11. split.
        { intros f0 [<-|I]; auto. destruct (R10 f u) as (v2 & V2 & L2); eauto. cbn. now apply (hvf_set_eq _ _ _ _ E1). }
        cbn in R12 |- *. lia.
    + cbn [obind]. destruct (IH x B) as (x' & B' & R1 & R2 & R3 & R5 & R6 & R9 & R10 & R11 & R12); auto.
      exists x', B'. split; [exact R1|]. split; [exact R2|]. split; [exact R3|]. split; [auto|]. split; [auto|]. split; [auto|]. split; [auto|].
      split; [|cbn; lia].
      intros f0 [<-|I]; auto. destruct (hvf (m_hv x) f) as [v|] eqn:V; [|discriminate].
      cbn in LT. apply Nat.ltb_ge in LT. destruct (R10 f v V) as (v2 & V2 & L2). exists v2. split; auto. lia.
Qed.

(** One operator with the popped fact as precondition. *)
Lemma hm_op_ok prop pr0 op rest x B pVal : MInv (prop :: pr0) (op :: rest) x B pVal -> op < nops -> In prop (pre op) ->
  NoDup (op :: rest) -> hvf (m_hv x) prop = Some pVal ->
  exists x' B', hm_op al m cs prop x op = Some x' /\ MInv (prop :: pr0) rest x' B' pVal /\
    hvf (m_hv x') prop = Some pVal /\ length B' + pend (m_unsat x') (st_add m) <= length B + pend (m_unsat x) (st_add m).
Proof.
  intros A Hop Hpr ND VP. inversion ND as [|? ? NI ND']; subst.
  pose proof (d_ndpr _ _ _ _ _ _ _ _ _ _ _ _ (i_d _ _ _ _ _ A)) as NPR.
  assert (NP0 : ~ In prop pr0) by now inversion NPR.
  pose proof (sw_pre_nd m W op Hop) as NDp.
  assert (MO : memb op (op :: rest) = true) by (apply memb_In; now left).
  assert (MO' : memb op rest = false) by now apply memb_false.
  pose proof (i_us _ _ _ _ _ A op Hop) as US. rewrite MO in US. cbn [tl] in US.
  destruct (i_mp _ _ _ _ _ A op Hop) as (mp & GM & MP). rewrite MO in MP. cbn [tl] in MP.
  pose proof (cntun_in pre prop pr0 op NDp Hpr NP0) as CI.
  assert (VV : val (m_hv x) prop = pVal) by (unfold val; now rewrite VP).
  pose proof (d_pr_val _ _ _ _ _ _ _ (i_d _ _ _ _ _ A)) as DPV.
  pose proof (d_len _ _ _ _ _ _ _ _ _ _ _ _ (i_d _ _ _ _ _ A)) as LH.
  assert (LV : forall q, In q (prop :: pr0) -> val (m_hv x) q <= pVal) by (intros q Iq; now apply DPV).
  assert (FI : forall q, In q (filter (fun q => memb q (prop :: pr0)) (pre op)) <-> q = prop \/ In q (filter (fun q => memb q pr0) (pre op))).
  { intros q. rewrite !filter_In, !memb_In. split.
    - intros (I & [<-|J]); auto.
    - intros [->|(I & J)]; split; auto; [now left|now right]. }
  (* the new maxPrec *)
  assert (STEP : exists mps p, (exists rp, (match mp with
              | None => Some true
              | Some p => hp <- get (m_hv x) p ;; hq <- get (m_hv x) prop ;;
                  Some (match hp with Some v => lt_unr v hq | None => false end)
              end) = Some rp /\ (if rp : bool then set (m_maxp x) op (Some prop) else Some (m_maxp x)) = Some mps) /\
     length mps = nops /\ get mps op = Some (Some p) /\
     mp_ok (m_hv x) (filter (fun q => memb q (prop :: pr0)) (pre op)) (Some p) /\
     (forall o, o <> op -> get mps o = get (m_maxp x) o)).
  { destruct (set_some (m_maxp x) op (Some prop)) as (mps & EM); [rewrite (i_lm _ _ _ _ _ A); auto|].
    assert (NEW : (forall q, In q (filter (fun q => memb q pr0) (pre op)) -> val (m_hv x) q <= pVal) ->
      mp_ok (m_hv x) (filter (fun q => memb q (prop :: pr0)) (pre op)) (Some prop)).
    { intros HQ. split; [apply FI; auto|]. intros q Iq. apply FI in Iq as [->|Iq]; auto. rewrite VV. auto. }
    assert (OLD : forall q, In q (filter (fun q => memb q pr0) (pre op)) -> val (m_hv x) q <= pVal).
    { intros q Iq. apply filter_In in Iq as (_ & Iq). apply memb_In in Iq. apply LV. now right. }
    destruct mp as [p|].
    - destruct MP as (M1 & M2). pose proof (OLD p M1) as LVp.
      assert (Ip : In p (prop :: pr0)). { apply filter_In in M1 as (_ & M1). apply memb_In in M1. now right. }
      destruct (DPV p Ip) as (Vp & _).
      rewrite (hvf_get (m_hv x) p), Vp by (eapply hvf_lt; eauto). cbn [obind].
      rewrite (hvf_get (m_hv x) prop), VP by (eapply hvf_lt; eauto). cbn [obind lt_unr].
      destruct (Nat.ltb_spec (val (m_hv x) p) pVal) as [LT|GE].
      + exists mps, prop. split; [eauto|]. split; [rewrite (set_length _ _ _ _ EM); apply (i_lm _ _ _ _ _ A)|].
        split; [now apply (get_set_eq _ _ _ _ EM)|]. split; [now apply NEW|]. intros o No. apply (get_set_neq _ _ _ _ _ EM). congruence.
      + exists (m_maxp x), p. split; [eauto|]. split; [apply (i_lm _ _ _ _ _ A)|]. split; [exact GM|]. split; auto.
        split; [apply FI; auto|]. intros q Iq. apply FI in Iq as [->|Iq]; auto. lia.
    - exists mps, prop. split; [eauto|]. split; [rewrite (set_length _ _ _ _ EM); apply (i_lm _ _ _ _ _ A)|].
      split; [now apply (get_set_eq _ _ _ _ EM)|]. split; [now apply NEW|]. intros o No. apply (get_set_neq _ _ _ _ _ EM). congruence. }
  destruct STEP as (mps & p & (rp & S1 & S2) & LM & GP & MPn & MPo).
  unfold hm_op. rewrite GM. cbn [obind]. rewrite S1. cbn [obind]. rewrite S2. cbn [obind].
  rewrite US. cbn [obind].
  destruct (set_some (m_unsat x) op (Z.of_nat (cntun pre pr0 op) - 1)%Z) as (us' & E2); [rewrite (i_lu _ _ _ _ _ A); auto|]. rewrite E2. cbn [obind].
  assert (US' : forall o, o < nops -> get us' o = Some (Z.of_nat (cntun pre (if memb o rest then pr0 else prop :: pr0) o))).
  { intros o Ho. destruct (Nat.eq_dec op o) as [<-|N].
    - rewrite (get_set_eq _ _ _ _ E2), MO'. f_equal. lia.
    - rewrite (get_set_neq _ _ _ _ _ E2 N), (i_us _ _ _ _ _ A o Ho).
      replace (memb o (op :: rest)) with (memb o rest); [reflexivity|]. cbn [memb existsb].
      destruct (Nat.eqb_spec o op); [congruence|]. reflexivity. }
  assert (MP' : forall o, o < nops -> exists mp, get mps o = Some mp /\
     mp_ok (m_hv x) (filter (fun q => memb q (if memb o rest then pr0 else prop :: pr0)) (pre o)) mp).
  { intros o Ho. destruct (Nat.eq_dec op o) as [<-|N].
    - exists (Some p). rewrite MO'. auto.
    - rewrite MPo by auto. destruct (i_mp _ _ _ _ _ A o Ho) as (mpo & G1 & G2). exists mpo. split; auto.
      replace (memb o (op :: rest)) with (memb o rest) in G2; [exact G2|]. cbn [memb existsb].
      destruct (Nat.eqb_spec o op); [congruence|]. reflexivity. }
  pose proof (pend_dec (m_unsat x) (st_add m) op _ us' US ltac:(lia) E2 ltac:(rewrite (sw_add m W); auto)) as PD.
  destruct (Z.eqb_spec (Z.of_nat (cntun pre pr0 op) - 1) 0) as [Z0|Z0].
  - assert (ALL : forall p, In p (pre op) -> In p (prop :: pr0)) by (apply cntun_0; lia).
    rewrite (filter_all _ _ ALL) in MPn.
    rewrite (get_nth_d [] (st_add m) op) by (rewrite (sw_add m W); auto). fold (add op). cbn [obind].
    set (x1 := {| m_unsat := us'; m_maxp := mps; m_hv := m_hv x; m_q := m_q x |}).
    assert (Lnv : pVal <= val (m_hv x1) p + cost op).
    { destruct MPn as (_ & M2). specialize (M2 prop Hpr). cbn. lia. }
    destruct (hm_adds_ok (prop :: pr0) op p pVal (fun o => ~ In o (op :: rest)) Hop ALL (proj1 MPn) (add op) x1 B) as
      (x' & B' & R1 & R2 & R3 & R5 & R6 & R9 & R10 & R11 & R12);
      [apply incl_refl|exact GP|exact MPn|exact Lnv|apply (i_d _ _ _ _ _ A)|apply (i_pq _ _ _ _ _ A)|].
    exists x', B'. split; [exact R1|].
    assert (VEQ : forall p, In p (prop :: pr0) -> val (m_hv x') p = val (m_hv x) p) by (intros q Iq; unfold val; now rewrite (R9 q Iq)).
    split; [|split].
    + constructor; auto.
      * rewrite R2. cbn. rewrite (set_length _ _ _ _ E2). apply (i_lu _ _ _ _ _ A).
      * rewrite R3. exact LM.
      * eapply d_done with (op := op); [exact R5| |].
        -- intros o Ho. destruct (Nat.eq_dec op o); auto. left. intros [?|?]; auto.
        -- intros _ f Hf. destruct (R11 f Hf) as (v & V & L). exists v. split; auto.
           rewrite (agg_eq Nat.max (pre op) (val (m_hv x')) (val (m_hv x))); [|auto]. rewrite (mp_max _ _ _ MPn). cbn in L. lia.
      * rewrite R2. exact US'.
      * rewrite R3. change (m_maxp x1) with mps. intros o Ho. destruct (MP' o Ho) as (mpo & G1 & G2). exists mpo. split; auto.
        cbn [tl]. assert (SUB : forall q, In q (filter (fun q => memb q (if memb o rest then pr0 else prop :: pr0)) (pre o)) -> In q (prop :: pr0)).
        { intros q Iq. apply filter_In in Iq as (_ & Iq). apply memb_In in Iq. destruct (memb o rest); auto. now right. }
        destruct mpo as [q|]; auto. destruct G2 as (G2 & G3). split; auto. intros y Hy. rewrite !VEQ; auto.
    + rewrite (R9 prop); [exact VP|]. now left.
    + rewrite R2. cbn [m_unsat x1]. unfold m_add in R12. lia.
  - exists {| m_unsat := us'; m_maxp := mps; m_hv := m_hv x; m_q := m_q x |}, B. split; [reflexivity|].
    split; [|split; [exact VP|cbn; lia]].
    constructor; cbn [m_unsat m_maxp m_hv m_q tl]; auto.
    + rewrite (set_length _ _ _ _ E2). apply (i_lu _ _ _ _ _ A).
    + eapply d_done with (op := op); [apply (i_d _ _ _ _ _ A)| |].
      * intros o Ho. destruct (Nat.eq_dec op o); auto. left. intros [?|?]; auto.
      * intros ALL. apply cntun_0 in ALL. lia.
    + apply (i_pq _ _ _ _ _ A).
Qed.

Lemma hm_ops_ok prop pr0 pVal : forall rest x B, MInv (prop :: pr0) rest x B pVal ->
  (forall op, In op rest -> op < nops /\ In prop (pre op)) -> NoDup rest -> hvf (m_hv x) prop = Some pVal ->
  exists x' B', ofold (hm_op al m cs prop) rest x = Some x' /\ MInv (prop :: pr0) [] x' B' pVal /\
    length B' + pend (m_unsat x') (st_add m) <= length B + pend (m_unsat x) (st_add m).
Proof.
  induction rest as [|op rest IH]; intros x B A R ND V.
  - exists x, B. cbn. auto.
  - destruct (R op) as (H1 & H2); [now left|].
    destruct (hm_op_ok prop pr0 op rest x B pVal A H1 H2 ND V) as (x1 & B1 & E & A1 & V1 & L1).
    inversion ND; subst. destruct (IH x1 B1 A1) as (x2 & B2 & E2 & A2 & L2); auto. { intros o Ho. apply R. now right. }
    exists x2, B2. cbn [ofold]. rewrite E. cbn [obind]. split; auto. split; auto. lia.
Qed.

Lemma hm_init_ok l : incl l s -> NoDup l -> forall x B, PQ (m_q x) B -> length (m_hv x) = nf ->
  exists x', ofold (hm_init_fact al) l x = Some x' /\ PQ (m_q x') (map (fun f => (0, f)) (rev l) ++ B) /\
    m_unsat x' = m_unsat x /\ m_maxp x' = m_maxp x /\ length (m_hv x') = nf /\
    (forall f, In f l -> hvf (m_hv x') f = Some 0) /\
    (forall f, ~ In f l -> hvf (m_hv x') f = hvf (m_hv x) f).
Proof.
  induction l as [|f l IH]; intros IL ND x B Q LH.
  - exists x. cbn. split; [reflexivity|]. split; [exact Q|]. repeat split; auto; easy.
  - inversion ND as [|? ? NI ND']; subst.
    assert (Lf : f < nf) by (apply Ss, IL; now left).
    cbn [ofold]. unfold hm_init_fact at 1.
    destruct (PQ_add al (m_q x) B 0 f AL Q) as (q' & E & Q'). rewrite E. cbn [obind].
    destruct (set_some (m_hv x) f (Some 0)) as (hv' & E1); [lia|]. rewrite E1. cbn [obind].
    edestruct (IH) as (x' & R1 & R2 & R3 & R4 & R5 & R7 & R8); [intros y Hy; apply IL; now right|auto| | |].
    3:{ exists x'. split; [exact R1|]. split.
        - cbn [rev]. rewrite map_app, <- app_assoc. cbn [map app]. exact R2.
        - cbn in R3, R4. split; [exact R3|]. split; [exact R4|]. split; [auto|]. split.
          + intros f0 [<-|I]; auto. rewrite (R8 f NI). cbn. eapply hvf_set_eq; eauto.
          + intros f0 N. rewrite (R8 f0). 2:{ intros ?; apply N; now right. }
            cbn. assert (f <> f0) by (intros ->; apply N; now left). eapply hvf_set_neq; eauto. }
    + exact Q'.
    + cbn. now rewrite (set_length _ _ _ _ E1).
Qed.

(** What holds when the propagation has finished. *)
Record HDone (pr : list nat) (x : hmx) : Prop := {
  h_lu : length (m_unsat x) = nops;
  h_lm : length (m_maxp x) = nops;
  h_lh : length (m_hv x) = nf;
  h_q : HInv (m_q x);
  h_pr : forall f, In f pr <-> exists v, hvf (m_hv x) f = Some v;
  h_reach : forall f v, deriv nops pre add cost s ag f v -> In f pr;
  h_cheap : forall f, In f pr -> cheapest nops pre add cost s ag f (val (m_hv x) f);
  h_s : forall f, In f s -> hvf (m_hv x) f = Some 0;
  h_us : forall op, op < nops -> get (m_unsat x) op = Some (Z.of_nat (cntun pre pr op));
  h_mp : forall op, op < nops -> exists mp, get (m_maxp x) op = Some mp /\ mp_ok (m_hv x) (filter (fun q => memb q pr) (pre op)) mp;
  h_cl : forall op f, op < nops -> (forall p, In p (pre op) -> In p pr) -> In f (add op) ->
     exists v, hvf (m_hv x) f = Some v /\ v <= cost op + ag (map (val (m_hv x)) (pre op)) }.

Lemma hm_loop_ok : forall fuel pr x B last, MInv pr [] x B last -> length B + pend (m_unsat x) (st_add m) <= fuel ->
  exists pr' x', hm_loop fuel al m cs x = Some x' /\ HDone pr' x'.
Proof.
  assert (END : forall pr x last, MInv pr [] x [] last -> HDone pr x).
  { intros pr x last A. pose proof (i_d _ _ _ _ _ A) as D.
    destruct (d_end nf nops pre add cost s Nat.max mx_comm mx_mono mx_ge _ _ _ _ D) as (E1 & E2). { easy. }
    constructor.
    - apply (i_lu _ _ _ _ _ A).
    - apply (i_lm _ _ _ _ _ A).
    - apply (d_len _ _ _ _ _ _ _ _ _ _ _ _ D).
    - apply (i_pq _ _ _ _ _ A).
    - intros f. split; [|intros (v & V); eauto]. intros I. destruct (d_pr _ _ _ _ _ _ _ _ _ _ _ _ D f I) as (v & V & _). eauto.
    - exact E2.
    - intros f I. eapply d_pr_cheapest; eauto.
    - apply (d_s _ _ _ _ _ _ _ _ _ _ _ _ D).
    - apply (i_us _ _ _ _ _ A).
    - apply (i_mp _ _ _ _ _ A).
    - intros op f Ho Hp Hf. apply (d_cl _ _ _ _ _ _ _ _ _ _ _ _ D); auto. }
  induction fuel as [|n IH]; intros pr x B last A LF.
  - assert (BE : B = []) by (destruct B; cbn in LF; auto; lia). subst B.
    cbn. rewrite (PQ_empty _ _ (i_pq _ _ _ _ _ A)). eauto.
  - destruct B as [|b B0] eqn:EB.
    { cbn. rewrite (PQ_empty _ _ (i_pq _ _ _ _ _ A)). eauto. }
    rewrite <- EB in *. assert (NE : B <> []) by (rewrite EB; easy). clear EB.
    cbn [hm_loop]. rewrite (PQ_empty _ _ (i_pq _ _ _ _ _ A)). replace (match B with [] => true | _ :: _ => false end) with false by (destruct B; auto; congruence).
    destruct (PQ_pop _ _ (i_pq _ _ _ _ _ A) NE) as (pVal & prop & q & B' & E & Q' & P & Mn). rewrite E. cbn [obind].
    assert (IB : In (pVal, prop) B) by (eapply Permutation_in; [symmetry; exact P|]; now left).
    destruct (d_q _ _ _ _ _ _ _ _ _ _ _ _ (i_d _ _ _ _ _ A) _ _ IB) as (v & V & Lv & _ & _).
    pose proof (d_len _ _ _ _ _ _ _ _ _ _ _ _ (i_d _ _ _ _ _ A)) as LH.
    assert (Lp : prop < nf) by (rewrite <- LH; eapply hvf_lt; eauto).
    cbn [m_hv]. rewrite (hvf_get (m_hv x) prop) by lia. rewrite V. cbn [obind].
    pose proof (Permutation_length P) as PL. cbn in PL.
    destruct (Nat.ltb_spec v pVal) as [LT|GE].
    + apply IH with (pr := pr) (B := B') (last := last); auto; [|cbn; lia].
      destruct A as [A1 A2 A3 A4 A5 A6]. constructor; auto. cbn. eapply d_stale; eauto.
    + assert (v = pVal) by lia. subst v.
      destruct (p2a_get m prop W Lp) as (ops & G & NDo & Io). rewrite G. cbn [obind].
      destruct (d_pop nf nops pre add cost s Nat.max mx_comm mx_mono mx_ge pr (m_hv x) B last (fun op => ~ In op []) pVal prop B' ops
        (i_d _ _ _ _ _ A)) as (NP & D'); auto.
      { intros op Ho Hi. apply Io. auto. }
      set (x1 := {| m_unsat := m_unsat x; m_maxp := m_maxp x; m_hv := m_hv x; m_q := q |}).
      assert (A1 : MInv (prop :: pr) ops x1 B' pVal).
      { destruct A as [A1 A2 A3 A4 A5 A6]. constructor; auto.
        - intros op Ho. cbn [m_unsat x1]. rewrite (A5 op Ho). cbn [memb existsb tl]. fold (memb op ops).
          destruct (memb op ops) eqn:M; auto. rewrite cntun_out; auto. intros I. apply memb_false in M. apply M, Io. auto.
        - intros op Ho. cbn [m_maxp m_hv x1]. destruct (A6 op Ho) as (mp & G1 & G2). exists mp. split; auto. cbn [memb existsb] in G2. cbn [tl].
          destruct (memb op ops) eqn:M; auto. rewrite (filter_ext_in (fun q0 => memb q0 (prop :: pr)) (fun q0 => memb q0 pr)); auto.
          intros p Ip. cbn. destruct (Nat.eqb_spec p prop); auto. subst p. apply memb_false in M. elim M. apply Io. auto. }
      destruct (hm_ops_ok prop pr pVal ops x1 B' A1) as (x2 & B2 & E2 & A2 & L2); auto. { intros op I. now apply Io. }
      fold x1. rewrite E2. cbn [obind]. eapply IH; eauto. cbn [m_unsat x1] in L2. lia.
Qed.

Lemma hm_run_ok q0 : HInv q0 -> exists pr x, hm_run al m cs q0 s = Some x /\ HDone pr x.
Proof.
  intros HQ. unfold hm_run.
  destruct (hm_init_ok s (incl_refl s) NDs {| m_unsat := map (fun l => Z.of_nat (length l)) (st_pre m);
                   m_maxp := repeat None nops; m_hv := repeat None nf; m_q := heap_clear q0 |} []) as
    (x & R1 & R2 & R3 & R4 & R5 & R7 & R8); cbn [m_q m_hv].
  { now apply PQ_clear. } { apply repeat_length. }
  rewrite R1. cbn [obind]. rewrite (precless_nil m W NPL). cbn [ofold obind].
  rewrite app_nil_r in R2.
  assert (HV : forall f v, hvf (m_hv x) f = Some v -> In f s /\ v = 0).
  { intros f v V. destruct (in_dec Nat.eq_dec f s) as [I|N].
    - split; auto. rewrite (R7 f I) in V. congruence.
    - rewrite (R8 f N) in V. cbn in V. rewrite hvf_repeat in V. discriminate. }
  eapply hm_loop_ok with (pr := []) (last := 0).
  - constructor; eauto.
    + rewrite R3. cbn. now rewrite map_length.
    + rewrite R4. cbn. apply repeat_length.
    + constructor; auto.
      * intros f v V. destruct (HV f v V) as (I & ->). now constructor.
      * intros k0 f I. apply in_map_iff in I as (f0 & Q & I). injection Q as <- ->. apply in_rev in I.
        exists 0. split; [now apply R7|]. repeat split; auto. easy.
      * apply FinFun.Injective_map_NoDup; [intros a b E; congruence|]. now apply NoDup_rev.
      * intros f v V. destruct (HV f v V) as (I & ->). right. apply in_map_iff. exists f. split; auto. now apply in_rev in I.
      * easy.
      * constructor.
      * intros op f Ho _ H. elim (NPL op Ho). destruct (pre op) as [|p l]; auto. destruct (H p); now left.
    + intros op Ho. rewrite R3. cbn [memb existsb tl m_unsat].
      unfold get. rewrite nth_error_map. unfold st_nops in Ho. rewrite (nth_error_nth' _ [] Ho). cbn [option_map]. do 2 f_equal.
      unfold cntun, m_pre. clear. induction (nth op (st_pre m) []); cbn; auto.
    + intros op Ho. rewrite R4. cbn [memb existsb tl m_maxp]. exists None. split.
      * unfold get. now apply nth_error_repeat.
      * cbn. clear. induction (pre op); cbn; auto.
  - rewrite map_length, rev_length, R3. unfold aff_fuel. cbn [m_unsat]. rewrite (precless_nil m W NPL). cbn [map list_sum fold_right].
    pose proof (pend_init (st_pre m) (st_add m) (sw_add m W)). unfold list_sum in *. lia.
Qed.

(** The maximum over the goals. *)
Lemma hm_goal_ok hv g : (forall f, In f g -> f < length hv) -> forall acc,
  (exists f, In f g /\ hvf hv f = None /\ hm_goal hv g acc = Some None) \/
  ((forall f, In f g -> exists v, hvf hv f = Some v) /\
   ((g = [] /\ hm_goal hv g acc = Some acc) \/
    exists r mf, hm_goal hv g acc = Some (Some (r, mf)) /\ (acc = Some (r, mf) \/ (In mf g /\ hvf hv mf = Some r)) /\
      (forall f v, In f g -> hvf hv f = Some v -> v <= r) /\ (forall r0 mf0, acc = Some (r0, mf0) -> r0 <= r))).
Proof using. clear LC.
  induction g as [|f g IH]; intros L acc.
  - right. split; [easy|]. left. auto.
  - cbn [hm_goal]. rewrite (hvf_get hv f) by (apply L; now left). cbn [obind].
    destruct (hvf hv f) as [v|] eqn:V.
    2:{ left. exists f. split; [now left|]. auto. }
    set (acc' := match acc with None => Some (v, f) | Some (r, mf) => if Nat.ltb r v then Some (v, f) else acc end).
    assert (AC : exists r mf, acc' = Some (r, mf) /\ v <= r /\ (acc = Some (r, mf) \/ (mf = f /\ r = v)) /\ (forall r0 mf0, acc = Some (r0, mf0) -> r0 <= r)).
    { unfold acc'. destruct acc as [(r & mf)|].
      - destruct (Nat.ltb_spec r v).
        + exists v, f. split; auto. split; auto. split; auto. intros r0 mf0 E. injection E as <- <-. lia.
        + exists r, mf. split; auto. split; auto. split; auto. intros r0 mf0 E. injection E as <- <-. lia.
      - exists v, f. split; auto. split; auto. split; auto. discriminate. }
    destruct AC as (r & mf & EA & Lv & SA & MA).
    destruct (IH (fun f0 I => L f0 (or_intror I)) acc') as [(f0 & I & N & E)|(A & C)].
    + left. exists f0. split; [now right|]. auto.
    + right. split. { intros f0 [<-|I]; eauto. }
      right. destruct C as [(-> & E)|(r' & mf' & E & S & M1 & M2)].
      * exists r, mf. rewrite E. split; [now rewrite EA|]. split.
        -- destruct SA as [?|(-> & ->)]; auto. right. split; auto. now left.
        -- split; auto. intros f0 v0 [<-|[]] V0. rewrite V in V0. injection V0 as <-. auto.
      * exists r', mf'. split; [exact E|]. specialize (M2 r mf EA). split.
        -- destruct S as [S|(I & S)]; [|right; split; auto; now right].
           rewrite EA in S. injection S as <- <-. destruct SA as [?|(-> & ->)]; auto. right. split; auto. now left.
        -- split.
           ++ intros f0 v0 [<-|I] V0; eauto. rewrite V in V0. injection V0 as <-. lia.
           ++ intros r0 mf0 Ea. specialize (MA r0 mf0 Ea). lia.
Qed.
End HM.
