(** hsAddFF: the invariant of the main loop and the value computed. *)
From Verif Require Import Base Heap_model Heap_proof Relax_model Relax_spec Dij.

(** ** Well-formed STRIPS models *)
Definition m_pre (m : strips) (op : nat) : list nat := nth op (st_pre m) [].
Definition m_add (m : strips) (op : nat) : list nat := nth op (st_add m) [].
Definition m_cost (m : strips) (op : nat) : nat := nth op (st_cost m) 0.

(** What the parser (Model.cpp readClassical) and RCModelFactory build: equally long tables, indices in range,
    duplicate-free preconditions (asserted by hsAddFF.cpp 40-61), and the derived tables. *)
Record strips_wf (m : strips) : Prop := {
  sw_add : length (st_add m) = st_nops m;
  sw_cost : length (st_cost m) = st_nops m;
  sw_pre_lt : forall op p, op < st_nops m -> In p (m_pre m op) -> p < st_nf m;
  sw_pre_nd : forall op, op < st_nops m -> NoDup (m_pre m op);
  sw_add_lt : forall op f, op < st_nops m -> In f (m_add m op) -> f < st_nf m;
  sw_p2a : st_p2a m = inverse_mapping (st_nf m) (st_pre m);
  sw_precless : st_precless m = precless (st_pre m) }.

Definition no_precless (m : strips) : Prop := forall op, op < st_nops m -> m_pre m op <> [].

Lemma get_nth_d {A} (d : A) l i : i < length l -> get l i = Some (nth i l d).
Proof. intros H. unfold get. now apply nth_error_nth'. Qed.

Lemma p2a_get m p : strips_wf m -> p < st_nf m ->
  exists ops, get (st_p2a m) p = Some ops /\ NoDup ops /\ (forall op, In op ops <-> op < st_nops m /\ In p (m_pre m op)).
Proof.
  intros W H. rewrite (sw_p2a m W). unfold inverse_mapping.
  eexists. split.
  - unfold get. rewrite nth_error_map. replace (nth_error (seq 0 (st_nf m)) p) with (Some p). { reflexivity. }
    symmetry. rewrite (nth_error_nth' _ 0) by now rewrite seq_length. now rewrite seq_nth.
  - split; [apply NoDup_filter, seq_NoDup|]. intros op. rewrite filter_In, in_seq, memb_In. unfold st_nops, m_pre. split; intros (A & B'); split; auto; lia.
Qed.

Lemma precless_nil m : strips_wf m -> no_precless m -> st_precless m = [].
Proof.
  intros W N. rewrite (sw_precless m W). unfold precless. destruct (filter _ _) as [|a l] eqn:E; auto.
  assert (I : In a (a :: l)) by now left. rewrite <- E in I. apply filter_In in I as (I & L).
  apply in_seq in I. apply Nat.eqb_eq in L. elim (N a). { unfold st_nops. lia. }
  unfold m_pre. now apply length_zero_iff_nil.
Qed.

Lemma filter_all (pr l : list nat) : (forall p, In p l -> In p pr) -> filter (fun q => memb q pr) l = l.
Proof.
  induction l as [|a l IH]; auto. intros H. cbn. rewrite (proj2 (memb_In a pr)) by (apply H; now left).
  f_equal. apply IH. intros p Hp. apply H. now right.
Qed.

(** ** Operators that have not fired yet *)
Fixpoint pend (us : list Z) (adds : list (list nat)) : nat :=
  match us, adds with
  | u :: us', a :: adds' => (if Z.ltb 0 u then length a else 0) + pend us' adds'
  | _, _ => 0
  end.

Lemma pend_dec us adds op u us' : get us op = Some u -> (0 < u)%Z -> set us op (u - 1)%Z = Some us' -> op < length adds ->
  pend us' adds + (if Z.eqb (u - 1) 0 then length (nth op adds []) else 0) <= pend us adds.
Proof.
  revert adds op us'. induction us as [|x us IH]; intros adds [|op] us' G P S L; try discriminate.
  - cbn in G. injection G as ->. cbn in S. injection S as <-. destruct adds as [|a adds]; cbn in L; [lia|].
    cbn [pend nth]. destruct (Z.eqb_spec (u - 1) 0).
    + replace (0 <? u - 1)%Z with false by (symmetry; apply Z.ltb_ge; lia).
      replace (0 <? u)%Z with true by (symmetry; apply Z.ltb_lt; lia). lia.
    + replace (0 <? u)%Z with true by (symmetry; apply Z.ltb_lt; lia).
      destruct (0 <? u - 1)%Z; lia.
  - cbn in G. cbn in S. apply obind_some in S as (t & S & E). injection E as <-. destruct adds as [|a adds]; cbn in L; [lia|].
    cbn [pend nth]. specialize (IH adds op t G P S ltac:(lia)). lia.
Qed.

Lemma pend_init (pre : list (list nat)) adds : length adds = length pre ->
  pend (map (fun l => Z.of_nat (length l)) pre) adds <= list_sum (map (@length nat) adds).
Proof.
  revert adds. induction pre as [|p pre IH]; intros [|a adds] H; try discriminate; auto.
  cbn in H. cbn [map pend list_sum fold_right]. unfold list_sum in IH. specialize (IH adds ltac:(lia)).
  destruct (0 <? _)%Z; lia.
Qed.

(** ** Aggregation *)
Definition kop (k : aff_kind) : nat -> nat -> nat := match k with sasFF => Nat.max | sasAdd => Nat.add end.
Lemma kop_comm k a b : kop k a b = kop k b a. Proof. destruct k; cbn; lia. Qed.
Lemma kop_assoc k a b c : kop k a (kop k b c) = kop k (kop k a b) c. Proof. destruct k; cbn; lia. Qed.
Lemma kop_0 k a : kop k a 0 = a. Proof. destruct k; cbn; lia. Qed.
Lemma kop_mono k a b c d : a <= b -> c <= d -> kop k a c <= kop k b d. Proof. destruct k; cbn; lia. Qed.
Lemma kop_ge k a b : a <= kop k a b. Proof. destruct k; cbn; lia. Qed.

Section AFF.
Variables (al : nat -> list Z) (m : strips) (k : aff_kind) (s g : list nat).
Hypothesis AL : forall n, length (al n) = n.
Hypothesis W : strips_wf m.
Hypothesis NPL : no_precless m.
Hypothesis Ss : forall f, In f s -> f < st_nf m.
Hypothesis NDs : NoDup s.
Hypothesis Gs : forall f, In f g -> f < st_nf m.
Hypothesis NDg : NoDup g.

Notation nf := (st_nf m).
Notation nops := (st_nops m).
Notation pre := (m_pre m).
Notation add := (m_add m).
Notation cost := (m_cost m).
Notation ag := (agg (kop k)).
Notation DI := (DInv nf nops pre add cost s (kop k)).

(** Where the value of a fact comes from. *)
Definition src (rb : list (option nat)) (l : list nat) (f : nat) : Prop :=
  exists r, get rb f = Some r /\
    ((r = None /\ In f s) \/ exists op, r = Some op /\ op < nops /\ In f (add op) /\ incl (pre op) l).

Fixpoint srcs (rb : list (option nat)) (pr : list nat) : Prop :=
  match pr with [] => True | f :: t => src rb t f /\ srcs rb t end.

Record AInv (pr rest : list nat) (x : aff) (B : list (nat * nat)) (last : nat) : Prop := {
  a_lu : length (a_unsat x) = nops;
  a_lo : length (a_op x) = nops;
  a_lr : length (a_rb x) = nf;
  a_d : DI pr (a_hv x) B last (fun op => ~ In op rest);
  a_pq : PQ (a_q x) B;
  a_us : forall op, op < nops -> get (a_unsat x) op = Some (Z.of_nat (cntun pre (if memb op rest then tl pr else pr) op));
  a_ov : forall op, op < nops ->
    get (a_op x) op = Some (cost op + ag (map (val (a_hv x)) (filter (fun q => memb q (if memb op rest then tl pr else pr)) (pre op))));
  a_src : forall f v, hvf (a_hv x) f = Some v -> ~ In f pr -> src (a_rb x) pr f;
  a_srcs : srcs (a_rb x) pr }.

Lemma src_set rb f op rb' l f' : set rb f (Some op) = Some rb' -> f <> f' -> src rb l f' -> src rb' l f'.
Proof. intros E N (r & G & H). exists r. split; auto. now rewrite (get_set_neq _ _ _ _ _ E N). Qed.

Lemma srcs_set rb f op rb' pr : set rb f (Some op) = Some rb' -> ~ In f pr -> srcs rb pr -> srcs rb' pr.
Proof.
  intros E. induction pr as [|a pr IH]; cbn; auto. intros N (H1 & H2). split; [|apply IH; auto].
  eapply src_set; eauto.
Qed.

Lemma src_incl rb l l' f : incl l l' -> src rb l f -> src rb l' f.
Proof.
  intros I (r & G & [(E & H)|(op & E & Ho & Hf & H)]); exists r; split; auto.
  right. exists op. repeat split; auto. intros p Hp. apply I. now apply H.
Qed.

(** The add effects of one operator. *)
Lemma aff_adds_ok pr op u last dn : op < nops -> (forall p, In p (pre op) -> In p pr) -> last <= u ->
  forall l x B, incl l (add op) -> u = cost op + ag (map (val (a_hv x)) (pre op)) ->
  length (a_rb x) = nf -> DI pr (a_hv x) B last dn -> PQ (a_q x) B ->
  (forall f v, hvf (a_hv x) f = Some v -> ~ In f pr -> src (a_rb x) pr f) -> srcs (a_rb x) pr ->
  exists x' B', ofold (aff_add al op u) l x = Some x' /\ a_unsat x' = a_unsat x /\ a_op x' = a_op x /\
    length (a_rb x') = nf /\ DI pr (a_hv x') B' last dn /\ PQ (a_q x') B' /\
    (forall f v, hvf (a_hv x') f = Some v -> ~ In f pr -> src (a_rb x') pr f) /\ srcs (a_rb x') pr /\
    (forall p, In p pr -> hvf (a_hv x') p = hvf (a_hv x) p) /\
    (forall f v, hvf (a_hv x) f = Some v -> exists v', hvf (a_hv x') f = Some v' /\ v' <= v) /\
    (forall f, In f l -> exists v, hvf (a_hv x') f = Some v /\ v <= u) /\
    length B' <= length B + length l.
Proof.
  intros Hop Hp Lu. induction l as [|f l IH]; intros x B IL Eu LR D Q S1 S2.
  - exists x, B. cbn. split; [reflexivity|]. split; [reflexivity|]. split; [reflexivity|]. split; [auto|]. split; [auto|]. split; [auto|]. split; [auto|]. split; [auto|]. split; [auto|]. split; [eauto|]. split; [easy|lia].
  - assert (IF : In f (add op)) by (apply IL; now left).
    assert (IL' : incl l (add op)) by (intros y Hy; apply IL; now right).
    assert (Lf : f < nf) by (eapply sw_add_lt; eauto).
    pose proof (d_len _ _ _ _ _ _ _ _ _ _ _ _ D) as LH.
    cbn [ofold]. unfold aff_add at 1. rewrite (hvf_get (a_hv x) f) by lia. cbn [obind].
    destruct (lt_unr u (hvf (a_hv x) f)) eqn:LT.
    + destruct (set_some (a_hv x) f (Some u)) as (hv' & E1); [lia|]. rewrite E1. cbn [obind].
      destruct (set_some (a_rb x) f (Some op)) as (rb' & E2); [lia|]. rewrite E2. cbn [obind].
      destruct (PQ_add al (a_q x) B u f AL Q) as (q' & E3 & Q'). rewrite E3. cbn [obind].
      destruct (d_relax nf nops pre add cost s (kop k) pr (a_hv x) B last dn op f u hv' D Hop IF Hp Eu Lu LT E1) as (D' & NP).
      set (x1 := {| a_unsat := a_unsat x; a_op := a_op x; a_hv := hv'; a_rb := rb'; a_q := q' |}).
      destruct (IH x1 ((u, f) :: B)) as (x' & B' & R1 & R2 & R3 & R4 & R5 & R6 & R7 & R8 & R9 & R10 & R11 & R12); auto.
      * cbn. rewrite Eu. f_equal. apply agg_eq. intros p Ip. unfold val. rewrite (hvf_set_neq _ _ _ _ _ E1); auto.
        intros <-. elim NP. auto.
      * cbn. now rewrite (set_length _ _ _ _ E2).
      * cbn. intros f0 v0 V0 N0. destruct (Nat.eq_dec f f0) as [<-|N].
        -- exists (Some op). split; [now apply (get_set_eq _ _ _ _ E2)|]. right. exists op. auto.
        -- eapply src_set; eauto. rewrite (hvf_set_neq _ _ _ _ _ E1 N) in V0. eauto.
      * cbn. eapply srcs_set; eauto.
      * exists x', B'. cbn in R2, R3. split; [exact R1|]. split; [exact R2|]. split; [exact R3|]. split; [auto|]. split; [auto|]. split; [auto|]. split; [auto|]. split; [auto|].
        split.
        { intros p Ip. rewrite (R9 p Ip). cbn. apply (hvf_set_neq _ _ _ _ _ E1). intros <-. auto. }
        assert (LE : forall f0 v, hvf (a_hv x) f0 = Some v -> exists v', hvf hv' f0 = Some v' /\ v' <= v).
        { intros f0 v V. destruct (Nat.eq_dec f f0) as [<-|N].
          - exists u. split; [now apply (hvf_set_eq _ _ _ _ E1)|]. rewrite V in LT. cbn in LT. apply Nat.ltb_lt in LT. lia.
          - exists v. split; auto. now rewrite (hvf_set_neq _ _ _ _ _ E1 N). }
        split.
        { intros f0 v V. destruct (LE f0 v V) as (v' & V' & L'). destruct (R10 f0 v' V') as (v2 & V2 & L2). exists v2. split; auto. lia. }
        split.
        { intros f0 [<-|I]; auto. destruct (R10 f u) as (v2 & V2 & L2); eauto. cbn. now apply (hvf_set_eq _ _ _ _ E1). }
        cbn in R12 |- *. lia.
    + cbn [obind]. destruct (IH x B) as (x' & B' & R1 & R2 & R3 & R4 & R5 & R6 & R7 & R8 & R9 & R10 & R11 & R12); auto.
      exists x', B'. split; [exact R1|]. split; [exact R2|]. split; [exact R3|]. split; [auto|]. split; [auto|]. split; [auto|]. split; [auto|]. split; [auto|]. split; [auto|]. split; [auto|].
      split; [|cbn; lia].
      intros f0 [<-|I]; auto. destruct (hvf (a_hv x) f) as [v|] eqn:V; [|discriminate].
      cbn in LT. apply Nat.ltb_ge in LT. destruct (R10 f v V) as (v2 & V2 & L2). exists v2. split; auto. lia.
Qed.

Lemma kop_cost c a b : match k with sasFF => Nat.max (c + a) (c + b) | sasAdd => c + a + b end = c + kop k a b.
Proof. destruct k; cbn; lia. Qed.

(** One operator with the popped fact as precondition. *)
Lemma aff_op_ok prop pr0 op rest x B pVal : AInv (prop :: pr0) (op :: rest) x B pVal -> op < nops -> In prop (pre op) ->
  NoDup (op :: rest) -> hvf (a_hv x) prop = Some pVal ->
  exists x' B', aff_op al m k pVal x op = Some x' /\ AInv (prop :: pr0) rest x' B' pVal /\
    hvf (a_hv x') prop = Some pVal /\ length B' + pend (a_unsat x') (st_add m) <= length B + pend (a_unsat x) (st_add m).
Proof.
  intros A Hop Hpr ND VP. inversion ND as [|? ? NI ND']; subst.
  set (pr := prop :: pr0) in *.
  assert (NPR : NoDup pr) by apply (d_ndpr _ _ _ _ _ _ _ _ _ _ _ _ (a_d _ _ _ _ _ A)).
  assert (NP0 : ~ In prop pr0) by (unfold pr in NPR; now inversion NPR).
  pose proof (sw_pre_nd m W op Hop) as NDp.
  assert (MO : memb op (op :: rest) = true) by (apply memb_In; now left).
  assert (MO' : memb op rest = false) by now apply memb_false.
  pose proof (a_us _ _ _ _ _ A op Hop) as US. rewrite MO in US. unfold pr in US. cbn [tl] in US.
  pose proof (a_ov _ _ _ _ _ A op Hop) as OV. rewrite MO in OV. unfold pr in OV. cbn [tl] in OV.
  pose proof (cntun_in pre prop pr0 op NDp Hpr NP0) as CI. fold pr in CI.
  unfold aff_op. rewrite OV. cbn [obind]. rewrite (get_nth_d 0 (st_cost m) op) by (rewrite (sw_cost m W); auto).
  fold (cost op). cbn [obind].
  rewrite kop_cost.
  pose proof (agg_add (kop k) (kop_comm k) (kop_assoc k) (val (a_hv x)) prop pr0 (pre op) NDp Hpr NP0) as AG. fold pr in AG.
  assert (VV : val (a_hv x) prop = pVal) by (unfold val; now rewrite VP). rewrite VV in AG.
  rewrite <- AG. set (nv := cost op + ag _).
  destruct (set_some (a_op x) op nv) as (ov' & E1); [rewrite (a_lo _ _ _ _ _ A); auto|]. rewrite E1. cbn [obind].
  rewrite US. cbn [obind].
  destruct (set_some (a_unsat x) op (Z.of_nat (cntun pre pr0 op) - 1)%Z) as (us' & E2); [rewrite (a_lu _ _ _ _ _ A); auto|]. rewrite E2. cbn [obind].
  assert (US' : forall o, o < nops -> get us' o = Some (Z.of_nat (cntun pre (if memb o rest then tl pr else pr) o))).
  { intros o Ho. destruct (Nat.eq_dec op o) as [<-|N].
    - rewrite (get_set_eq _ _ _ _ E2), MO'. f_equal. lia.
    - rewrite (get_set_neq _ _ _ _ _ E2 N), (a_us _ _ _ _ _ A o Ho). cbn [memb existsb].
      fold (memb o rest). destruct (Nat.eqb_spec o op); [congruence|]. reflexivity. }
  assert (OV' : forall o, o < nops -> get ov' o = Some (cost o + ag (map (val (a_hv x)) (filter (fun q => memb q (if memb o rest then tl pr else pr)) (pre o))))).
  { intros o Ho. destruct (Nat.eq_dec op o) as [<-|N].
    - now rewrite (get_set_eq _ _ _ _ E1), MO'.
    - rewrite (get_set_neq _ _ _ _ _ E1 N), (a_ov _ _ _ _ _ A o Ho). cbn [memb existsb].
      fold (memb o rest). destruct (Nat.eqb_spec o op); [congruence|]. reflexivity. }
  pose proof (pend_dec (a_unsat x) (st_add m) op _ us' US ltac:(lia) E2 ltac:(rewrite (sw_add m W); auto)) as PD.
  assert (SUB : forall o, (if memb o rest then incl (tl pr) pr else incl pr pr)).
  { intros o. destruct (memb o rest); intros y Hy; auto. unfold pr in *. now right. }
  pose proof (d_pr_val _ _ _ _ _ _ _ (a_d _ _ _ _ _ A)) as DPV.
  destruct (Z.eqb_spec (Z.of_nat (cntun pre pr0 op) - 1) 0) as [Z0|Z0].
  - assert (ALL : forall p, In p (pre op) -> In p pr) by (apply cntun_0; lia).
    assert (FA : filter (fun q => memb q pr) (pre op) = pre op).
    { now apply filter_all. }
    rewrite (get_nth_d [] (st_add m) op) by (rewrite (sw_add m W); auto). fold (add op). cbn [obind].
    assert (NV : nv = cost op + ag (map (val (a_hv x)) (pre op))) by (unfold nv; now rewrite FA).
    set (x1 := {| a_unsat := us'; a_op := ov'; a_hv := a_hv x; a_rb := a_rb x; a_q := a_q x |}).
    assert (Lnv : pVal <= nv).
    { rewrite NV. pose proof (agg_ge (kop k) (kop_comm k) (kop_ge k) (map (val (a_hv x)) (pre op)) pVal) as GE.
      assert (I : In pVal (map (val (a_hv x)) (pre op))) by (apply in_map_iff; exists prop; auto). specialize (GE I). lia. }
    destruct (aff_adds_ok pr op nv pVal (fun o => ~ In o (op :: rest)) Hop ALL Lnv (add op) x1 B) as
      (x' & B' & R1 & R2 & R3 & R4 & R5 & R6 & R7 & R8 & R9 & R10 & R11 & R12);
      [apply incl_refl|exact NV|apply (a_lr _ _ _ _ _ A)|apply (a_d _ _ _ _ _ A)|apply (a_pq _ _ _ _ _ A)|apply (a_src _ _ _ _ _ A)|apply (a_srcs _ _ _ _ _ A)|].
    exists x', B'. split; [exact R1|].
    assert (VEQ : forall p, In p pr -> val (a_hv x') p = val (a_hv x) p) by (intros p Ip; unfold val; now rewrite (R9 p Ip)).
    split; [|split].
    + constructor; auto.
      * rewrite R2. cbn. rewrite (set_length _ _ _ _ E2). apply (a_lu _ _ _ _ _ A).
      * rewrite R3. cbn. rewrite (set_length _ _ _ _ E1). apply (a_lo _ _ _ _ _ A).
      * eapply d_done with (op := op); [exact R5| |].
        -- intros o Ho. destruct (Nat.eq_dec op o); auto. left. intros [?|?]; auto.
        -- intros _ f Hf. destruct (R11 f Hf) as (v & V & L). exists v. split; auto.
           rewrite (agg_eq (kop k) (pre op) (val (a_hv x')) (val (a_hv x))); [lia|]. auto.
      * rewrite R2. exact US'.
      * rewrite R3. change (a_op x1) with ov'. intros o Ho. rewrite (OV' o Ho). do 2 f_equal. apply agg_eq. intros p Ip. symmetry. apply VEQ.
        apply filter_In in Ip as (_ & Ip). apply memb_In in Ip. specialize (SUB o). destruct (memb o rest); auto.
    + rewrite (R9 prop); [exact VP|]. unfold pr. now left.
    + rewrite R2. cbn [a_unsat x1]. unfold m_add in R12. lia.
  - exists {| a_unsat := us'; a_op := ov'; a_hv := a_hv x; a_rb := a_rb x; a_q := a_q x |}, B. split; [reflexivity|].
    split; [|split; [exact VP|cbn; lia]].
    constructor; cbn; auto.
    + rewrite (set_length _ _ _ _ E2). apply (a_lu _ _ _ _ _ A).
    + rewrite (set_length _ _ _ _ E1). apply (a_lo _ _ _ _ _ A).
    + apply (a_lr _ _ _ _ _ A).
    + eapply d_done with (op := op); [apply (a_d _ _ _ _ _ A)| |].
      * intros o Ho. destruct (Nat.eq_dec op o); auto. left. intros [?|?]; auto.
      * intros ALL. apply cntun_0 in ALL. lia.
    + apply (a_pq _ _ _ _ _ A).
    + apply (a_src _ _ _ _ _ A).
    + apply (a_srcs _ _ _ _ _ A).
Qed.

Lemma aff_ops_ok prop pr0 pVal : forall rest x B, AInv (prop :: pr0) rest x B pVal ->
  (forall op, In op rest -> op < nops /\ In prop (pre op)) -> NoDup rest -> hvf (a_hv x) prop = Some pVal ->
  exists x' B', ofold (aff_op al m k pVal) rest x = Some x' /\ AInv (prop :: pr0) [] x' B' pVal /\
    length B' + pend (a_unsat x') (st_add m) <= length B + pend (a_unsat x) (st_add m).
Proof.
  induction rest as [|op rest IH]; intros x B A R ND V.
  - exists x, B. cbn. auto.
  - destruct (R op) as (H1 & H2); [now left|].
    destruct (aff_op_ok prop pr0 op rest x B pVal A H1 H2 ND V) as (x1 & B1 & E & A1 & V1 & L1).
    inversion ND; subst. destruct (IH x1 B1 A1) as (x2 & B2 & E2 & A2 & L2); auto. { intros o Ho. apply R. now right. }
    exists x2, B2. cbn [ofold]. rewrite E. cbn [obind]. split; auto. split; auto. lia.
Qed.

(** Initialisation. *)
Lemma aff_init_ok l : incl l s -> NoDup l -> forall x B, PQ (a_q x) B -> length (a_hv x) = nf -> length (a_rb x) = nf ->
  exists x', ofold (aff_init_fact al) l x = Some x' /\ PQ (a_q x') (map (fun f => (0, f)) (rev l) ++ B) /\
    a_unsat x' = a_unsat x /\ a_op x' = a_op x /\ length (a_hv x') = nf /\ length (a_rb x') = nf /\
    (forall f, In f l -> hvf (a_hv x') f = Some 0 /\ get (a_rb x') f = Some None) /\
    (forall f, ~ In f l -> hvf (a_hv x') f = hvf (a_hv x) f /\ get (a_rb x') f = get (a_rb x) f).
Proof.
  induction l as [|f l IH]; intros IL ND x B Q LH LR.
  - exists x. cbn. split; [reflexivity|]. split; [exact Q|]. repeat split; auto; easy.
  - inversion ND as [|? ? NI ND']; subst.
    assert (Lf : f < nf) by (apply Ss, IL; now left).
    cbn [ofold]. unfold aff_init_fact at 1.
    destruct (PQ_add al (a_q x) B 0 f AL Q) as (q' & E & Q'). rewrite E. cbn [obind].
    destruct (set_some (a_hv x) f (Some 0)) as (hv' & E1); [lia|]. rewrite E1. cbn [obind].
    destruct (set_some (a_rb x) f None) as (rb' & E2); [lia|]. rewrite E2. cbn [obind].
    edestruct (IH) as (x' & R1 & R2 & R3 & R4 & R5 & R6 & R7 & R8); [intros y Hy; apply IL; now right|auto| | | |].
    4:{ exists x'. split; [exact R1|]. split.
        - cbn [rev]. rewrite map_app, <- app_assoc. cbn [map app]. exact R2.
        - cbn in R3, R4. split; [exact R3|]. split; [exact R4|]. split; [auto|]. split; [auto|]. split.
          + intros f0 [<-|I]; auto. destruct (R8 f NI) as (A1 & A2). rewrite A1, A2. cbn.
            split; [eapply hvf_set_eq; eauto|eapply get_set_eq; eauto].
          + intros f0 N. destruct (R8 f0) as (A1 & A2). { intros ?; apply N; now right. }
            rewrite A1, A2. cbn. assert (f <> f0) by (intros ->; apply N; now left).
            split; [eapply hvf_set_neq; eauto|eapply get_set_neq; eauto]. }
    + exact Q'.
    + cbn. now rewrite (set_length _ _ _ _ E1).
    + cbn. now rewrite (set_length _ _ _ _ E2).
Qed.

Lemma hvf_repeat n f : hvf (repeat None n) f = None.
Proof.
  unfold hvf. destruct (get (repeat None n) f) as [[v|]|] eqn:E; auto.
  apply nth_error_In, repeat_spec in E. discriminate.
Qed.

Lemma aff_start q0 rb0 : HInv q0 -> length rb0 = nf ->
  exists x, ofold (aff_init_fact al) s {| a_unsat := map (fun l => Z.of_nat (length l)) (st_pre m);
                   a_op := st_cost m; a_hv := repeat None nf; a_rb := rb0; a_q := heap_clear q0 |} = Some x /\
    AInv [] [] x (map (fun f => (0, f)) (rev s)) 0 /\ a_unsat x = map (fun l => Z.of_nat (length l)) (st_pre m).
Proof.
  intros HQ LR.
  destruct (aff_init_ok s (incl_refl s) NDs {| a_unsat := map (fun l => Z.of_nat (length l)) (st_pre m);
                   a_op := st_cost m; a_hv := repeat None nf; a_rb := rb0; a_q := heap_clear q0 |} []) as
    (x & R1 & R2 & R3 & R4 & R5 & R6 & R7 & R8); cbn; auto.
  { now apply PQ_clear. } { apply repeat_length. }
  exists x. split; [exact R1|]. split; [|exact R3]. rewrite app_nil_r in R2.
  assert (HV : forall f v, hvf (a_hv x) f = Some v -> In f s /\ v = 0).
  { intros f v V. destruct (in_dec Nat.eq_dec f s) as [I|N].
    - split; auto. destruct (R7 f I) as (A & _). congruence.
    - destruct (R8 f N) as (A & _). cbn in A. rewrite A, hvf_repeat in V. discriminate. }
  constructor; auto.
  - rewrite R3. cbn. now rewrite map_length.
  - rewrite R4. cbn. apply (sw_cost m W).
  - constructor; auto.
    + intros f v V. destruct (HV f v V) as (I & ->). now constructor.
    + intros f I. now apply R7.
    + intros k0 f I. apply in_map_iff in I as (f0 & Q & I). injection Q as <- ->. apply in_rev in I.
      exists 0. split; [now apply R7|]. repeat split; auto. easy.
    + apply FinFun.Injective_map_NoDup; [intros a b E; congruence|]. now apply NoDup_rev.
    + intros f v V. destruct (HV f v V) as (I & ->). right. apply in_map_iff. exists f. split; auto. now apply in_rev in I.
    + easy.
    + constructor.
    + intros op f Ho _ H. elim (NPL op Ho). destruct (pre op) as [|p l]; auto. destruct (H p); now left.
  - intros op Ho. rewrite R3. cbn [memb existsb tl a_unsat].
    unfold get. rewrite nth_error_map. unfold st_nops in Ho. rewrite (nth_error_nth' _ [] Ho). cbn [option_map]. do 2 f_equal.
    unfold cntun, m_pre. clear. induction (nth op (st_pre m) []); cbn; auto.
  - intros op Ho. rewrite R4. cbn [memb existsb tl a_op]. rewrite (get_nth_d 0) by (rewrite (sw_cost m W); auto). unfold cost. f_equal.
    replace (filter _ _) with (@nil nat). { cbn. lia. }
    symmetry. clear. induction (pre op); cbn; auto.
  - intros f v V _. destruct (HV f v V) as (I & _). destruct (R7 f I) as (_ & R). exists None. auto.
  - cbn. auto.
Qed.

(** ** The main loop *)
Definition goals_left (pr : list nat) : nat := length (filter (fun f => negb (memb f pr)) g).

Lemma goals_left_out p pr : ~ In p g -> goals_left (p :: pr) = goals_left pr.
Proof. exact (cntun_out (fun _ => g) p pr 0). Qed.
Lemma goals_left_in p pr : In p g -> ~ In p pr -> goals_left pr = S (goals_left (p :: pr)).
Proof. exact (cntun_in (fun _ => g) p pr 0 NDg). Qed.
Lemma goals_left_0 pr : goals_left pr = 0 <-> forall p, In p g -> In p pr.
Proof. exact (cntun_0 (fun _ => g) pr 0). Qed.

Definition aff_result (pr : list nat) (x : aff) : option (option nat) :=
  match k with
  | sasAdd => vs <- omap (fun f => h <- get (a_hv x) f ;; h) g ;; Some (Some (list_sum vs))
  | sasFF => ops <- ff_extract m (a_rb x) g ;; v <- ff_value m ops ;; Some (Some v)
  end.

(** The loop ends either with all goals processed, or with an empty queue and an unreachable goal. *)
Lemma aff_loop_ok : forall fuel pr x B last ng, AInv pr [] x B last -> ng = Z.of_nat (goals_left pr) -> (0 < ng)%Z ->
  length B + pend (a_unsat x) (st_add m) <= fuel ->
  (aff_loop fuel al m k g ng x = Some None /\ (exists f, In f g /\ forall v, ~ deriv nops pre add cost s ag f v)) \/
  (exists pr' x' hv' B' last', aff_loop fuel al m k g ng x = aff_result pr' x' /\ a_hv x' = hv' /\
     DI pr' hv' B' last' (fun _ => False) /\ (forall f, In f g -> In f pr') /\ srcs (a_rb x') pr' /\ length (a_rb x') = nf).
Proof.
  induction fuel as [|n IH]; intros pr x B last ng A NG PG LF.
  - assert (BE : B = []) by (destruct B; cbn in LF; auto; lia). subst B.
    left. cbn. rewrite (PQ_empty _ _ (a_pq _ _ _ _ _ A)). split; auto.
    destruct (d_end nf nops pre add cost s (kop k) (kop_comm k) (kop_mono k) (kop_ge k) _ _ _ _ (a_d _ _ _ _ _ A)) as (_ & DE). { intros o H; easy. }
    destruct (Forall_Exists_dec (fun p => In p pr) (fun p => in_dec Nat.eq_dec p pr) g) as [F|F].
    + rewrite Forall_forall in F. apply goals_left_0 in F. lia.
    + apply Exists_exists in F as (f & I & N). exists f. split; auto. intros v Dv. apply N. eapply DE; eauto.
  - destruct B as [|b B0] eqn:EB.
    { left. cbn. rewrite (PQ_empty _ _ (a_pq _ _ _ _ _ A)). split; auto.
      destruct (d_end nf nops pre add cost s (kop k) (kop_comm k) (kop_mono k) (kop_ge k) _ _ _ _ (a_d _ _ _ _ _ A)) as (_ & DE). { intros o H; easy. }
      destruct (Forall_Exists_dec (fun p => In p pr) (fun p => in_dec Nat.eq_dec p pr) g) as [F|F].
      + rewrite Forall_forall in F. apply goals_left_0 in F. lia.
      + apply Exists_exists in F as (f & I & N). exists f. split; auto. intros v Dv. apply N. eapply DE; eauto. }
    rewrite <- EB in *. assert (NE : B <> []) by (rewrite EB; easy). clear EB.
    cbn [aff_loop]. rewrite (PQ_empty _ _ (a_pq _ _ _ _ _ A)). replace (match B with [] => true | _ :: _ => false end) with false by (destruct B; auto; congruence).
    destruct (PQ_pop _ _ (a_pq _ _ _ _ _ A) NE) as (pVal & prop & q & B' & E & Q' & P & Mn). rewrite E. cbn [obind].
    assert (IB : In (pVal, prop) B) by (eapply Permutation_in; [symmetry; exact P|]; now left).
    destruct (d_q _ _ _ _ _ _ _ _ _ _ _ _ (a_d _ _ _ _ _ A) _ _ IB) as (v & V & Lv & _ & _).
    pose proof (d_len _ _ _ _ _ _ _ _ _ _ _ _ (a_d _ _ _ _ _ A)) as LH.
    assert (Lp : prop < nf) by (rewrite <- LH; eapply hvf_lt; eauto).
    cbn [a_hv]. rewrite (hvf_get (a_hv x) prop) by lia. rewrite V. cbn [obind].
    pose proof (Permutation_length P) as PL. cbn in PL.
    destruct (Nat.ltb_spec v pVal) as [LT|GE].
    + apply IH with (pr := pr) (B := B') (last := last); auto; [|cbn; lia].
      destruct A as [A1 A2 A3 A4 A5 A6 A7 A8 A9]. constructor; auto. cbn.
      eapply d_stale; eauto.
    + assert (v = pVal) by lia. subst v.
      destruct (p2a_get m prop W Lp) as (ops & G & NDo & Io). rewrite G. cbn [obind].
      destruct (d_pop nf nops pre add cost s (kop k) (kop_comm k) (kop_mono k) (kop_ge k) pr (a_hv x) B last (fun op => ~ In op []) pVal prop B' ops
        (a_d _ _ _ _ _ A)) as (NP & D'); auto.
      { intros op Ho Hi. apply Io. auto. }
      set (x1 := {| a_unsat := a_unsat x; a_op := a_op x; a_hv := a_hv x; a_rb := a_rb x; a_q := q |}).
      assert (A1 : AInv (prop :: pr) ops x1 B' pVal).
      { destruct A as [A1 A2 A3 A4 A5 A6 A7 A8 A9]. constructor; auto.
        - intros op Ho. cbn [a_unsat x1]. rewrite (A6 op Ho). cbn [memb existsb tl]. fold (memb op ops).
          destruct (memb op ops) eqn:M; auto. rewrite cntun_out; auto. intros I. apply memb_false in M. apply M, Io. auto.
        - intros op Ho. cbn [a_op a_hv x1]. rewrite (A7 op Ho). cbn [memb existsb tl]. fold (memb op ops).
          destruct (memb op ops) eqn:M; auto. do 4 f_equal. apply filter_ext_in. intros p Ip. cbn.
          destruct (Nat.eqb_spec p prop); auto. subst p. apply memb_false in M. elim M. apply Io. auto.
        - cbn. intros f0 v0 V0 N0. eapply src_incl; [|eapply A8; eauto]. { intros y Hy. now right. }
        - cbn. split; [eapply A8; eauto|exact A9]. }
      destruct (memb prop g) eqn:MG.
      * apply memb_In in MG. pose proof (goals_left_in prop pr MG NP) as GL. cbn [andb].
        destruct (Z.eqb_spec (ng - 1) 0) as [Z0|Z0].
        -- right. exists (prop :: pr), x1, (a_hv x), B', pVal. split; [unfold aff_result; destruct k; reflexivity|]. split; [reflexivity|].
           split; [eapply d_dn; [exact D'|]; easy|]. split; [apply goals_left_0; lia|]. split; [apply (a_srcs _ _ _ _ _ A1)|apply (a_lr _ _ _ _ _ A1)].
        -- destruct (aff_ops_ok prop pr pVal ops x1 B' A1) as (x2 & B2 & E2 & A2 & L2); auto. { intros op I. now apply Io. }
           fold x1. rewrite E2. cbn [obind]. eapply IH; eauto; try lia. cbn [a_unsat x1] in L2. lia.
      * apply memb_false in MG. cbn [andb].
        destruct (aff_ops_ok prop pr pVal ops x1 B' A1) as (x2 & B2 & E2 & A2 & L2); auto. { intros op I. now apply Io. }
        fold x1. rewrite E2. cbn [obind]. eapply IH; eauto. { now rewrite goals_left_out. } cbn [a_unsat x1] in L2. lia.
Qed.

Lemma aff_run q0 rb0 : HInv q0 -> length rb0 = nf -> g <> [] ->
  (aff_value al m k q0 rb0 s g = Some None /\ (exists f, In f g /\ forall v, ~ deriv nops pre add cost s ag f v)) \/
  (exists pr' x' hv' B' last', aff_value al m k q0 rb0 s g = aff_result pr' x' /\ a_hv x' = hv' /\
     DI pr' hv' B' last' (fun _ => False) /\ (forall f, In f g -> In f pr') /\ srcs (a_rb x') pr' /\ length (a_rb x') = nf).
Proof.
  intros HQ LR NE. destruct (aff_start q0 rb0 HQ LR) as (x & E & A & U).
  unfold aff_value. destruct g as [|g0 gt] eqn:EG; [congruence|]. rewrite <- EG in *.
  rewrite E. cbn [obind]. rewrite (precless_nil m W NPL). cbn [ofold obind].
  eapply aff_loop_ok; eauto.
  - f_equal. unfold goals_left. clear. induction g; cbn; auto.
  - rewrite EG. cbn. lia.
  - rewrite map_length, rev_length, U. unfold aff_fuel. rewrite (precless_nil m W NPL). cbn.
    pose proof (pend_init (st_pre m) (st_add m) (sw_add m W)). lia.
Qed.
End AFF.
