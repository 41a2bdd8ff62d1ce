(** hsLmCut: every cut is a disjunctive landmark of the delete relaxation, so the sum of the cuts' costs is a lower bound
    for the costs of relaxed plans; it is not below h^max either. *)
From Verif Require Import Base Heap_model Heap_proof Relax_model Relax_spec Dij Aff_proof FF_proof HMax_proof.

Section REL.
Variables (nops : nat) (pre add : nat -> list nat) (s : list nat).

Lemma rexec_mono ops : forall (st st' out : nat -> Prop), (forall f, st f -> st' f) -> rexec nops pre add st ops out ->
  exists out', rexec nops pre add st' ops out' /\ forall f, out f \/ st' f -> out' f.
Proof.
  induction ops as [|op ops IH]; cbn; intros st st' out M H.
  - exists st'. split; [tauto|]. intros f [?|?]; auto. apply M, H. auto.
  - destruct H as (H1 & H2 & H3). edestruct (IH (fun f => st f \/ In f (add op)) (fun f => st' f \/ In f (add op)) out) as (out' & R1 & R2); eauto.
    { intros f [?|?]; auto. }
    exists out'. split; auto. intros f [?|?]; apply R2; auto.
Qed.

Lemma rexec_app a b : forall st o1 o2, rexec nops pre add st a o1 -> rexec nops pre add o1 b o2 -> rexec nops pre add st (a ++ b) o2.
Proof.
  induction a as [|op a IH]; cbn; intros st o1 o2 H1 H2.
  - eapply rexec_ext; [|exact H2]. intros f. apply H1.
  - destruct H1 as (A1 & A2 & A3). repeat split; auto. eauto.
Qed.

(** Reachable goals can be reached together. *)
Lemma rplan_all g : (forall f, In f g -> exists ops, rplan nops pre add s ops [f]) -> exists ops, rplan nops pre add s ops g.
Proof.
  induction g as [|f g IH]; intros H.
  - exists [], (fun f => In f s). cbn. split; [tauto|easy].
  - destruct IH as (p1 & o1 & E1 & G1). { intros y Hy. apply H. now right. }
    destruct (H f) as (p2 & o2 & E2 & G2); [now left|].
    destruct (rexec_mono p2 (fun f => In f s) o1 o2) as (o3 & E3 & M3); auto.
    { intros y Hy. apply (rexec_out _ _ _ _ _ _ E1). now left. }
    exists (p1 ++ p2), o3. split; [eapply rexec_app; eauto|]. intros y [<-|Hy]; apply M3; auto. left. apply G2. now left.
Qed.

Lemma rreach_plan f : rreach nops pre add s f -> exists ops, rplan nops pre add s ops [f].
Proof.
  induction 1 as [f H|op f Ho Hp IH Hf].
  - exists [], (fun f => In f s). cbn. split; [tauto|]. intros y [<-|[]]. auto.
  - destruct (rplan_all (pre op) IH) as (p & o & E & G).
    exists (p ++ [op]). eexists. split; [eapply rexec_snoc; eauto|].
    + intros y Hy. apply (rexec_out _ _ _ _ _ _ E). auto.
    + intros y [<-|[]]. right. exists op. split; auto. apply in_or_app. right. now left.
Qed.
End REL.

Section LMC.
Variables (al : nat -> list Z) (m : strips) (s : list nat).
Hypothesis AL : forall n, length (al n) = n.
Hypothesis W : strips_wf m.
Hypothesis NPL : no_precless m.
Hypothesis Ss : forall f, In f s -> f < st_nf m.
Hypothesis NDs : NoDup s.
Variable g : list nat.
Hypothesis Gs : forall f, In f g -> f < st_nf m.

Notation nf := (st_nf m).
Notation nops := (st_nops m).
Notation pre := (m_pre m).
Notation add := (m_add m).
Notation ag := (agg Nat.max).

Lemma add_to_task_in f op : In op (add_to_task m f) <-> op < nops /\ In f (add op).
Proof.
  unfold add_to_task. rewrite in_flat_map. split.
  - intros (i & I & R). apply in_seq in I. pose proof (repeat_spec _ _ _ R) as ->. rewrite (sw_add m W) in I. split; [lia|].
    unfold m_add. apply (count_occ_In Nat.eq_dec). destruct (count_occ _ _ _); [easy|lia].
  - intros (L & I). exists op. split; [apply in_seq; rewrite (sw_add m W); lia|].
    unfold m_add in I. apply (count_occ_In Nat.eq_dec) in I. destruct (count_occ _ _ _); [lia|]. now left.
Qed.

Section ROUND.
Variables (cs : list nat) (pr : list nat) (x : hmx).
Hypothesis LC : length cs = nops.
Hypothesis HD : HDone m cs s pr x.
Notation cost := (ccost cs).

Definition mpf (op : nat) : nat := match nth op (m_maxp x) None with Some p => p | None => 0 end.

(** All preconditions reachable. *)
Definition live (op : nat) : Prop := op < nops /\ forall p, In p (pre op) -> In p pr.

Lemma live_spec op : op < nops -> (get (m_unsat x) op = Some 0%Z <-> live op).
Proof.
  intros H. rewrite (h_us _ _ _ _ _ HD op H). unfold live. rewrite <- cntun_0. split.
  - intros E. split; auto. injection E. lia.
  - intros (_ & E). rewrite E. reflexivity.
Qed.

Lemma get_unsat op : op < nops -> exists u, get (m_unsat x) op = Some u /\ (if Z.ltb 0 u then ~ live op else live op).
Proof.
  intros H. rewrite (h_us _ _ _ _ _ HD op H). eexists. split; [reflexivity|].
  destruct (Z.ltb_spec 0 (Z.of_nat (cntun pre pr op))).
  - intros (_ & L). apply cntun_0 in L. lia.
  - split; auto. apply cntun_0. lia.
Qed.

Lemma live_mp op : live op -> get (m_maxp x) op = Some (Some (mpf op)) /\ In (mpf op) (pre op) /\ In (mpf op) pr /\ mpf op < nf /\
  (forall q, In q (pre op) -> val (m_hv x) q <= val (m_hv x) (mpf op)) /\
  (forall f, In f (add op) -> In f pr /\ val (m_hv x) f <= cost op + val (m_hv x) (mpf op)).
Proof.
  intros (L & A). destruct (h_mp _ _ _ _ _ HD op L) as (mp & G & MP). rewrite (filter_all _ _ A) in MP.
  destruct mp as [p|]; [|elim (NPL op L MP)].
  assert (E : mpf op = p). { unfold mpf. unfold get in G. now rewrite (nth_error_nth _ _ None G). }
  rewrite E. pose proof (mp_max _ _ _ MP) as MM. destruct MP as (M1 & M2). split; auto. split; auto. split; auto. split.
  { eapply sw_pre_lt; eauto. }
  split; auto. intros f Hf. destruct (h_cl _ _ _ _ _ HD op f L A Hf) as (v & V & Lv).
  split; [apply (h_pr _ _ _ _ _ HD); eauto|]. unfold val at 1. rewrite V. fold ag in *. rewrite MM in Lv. exact Lv.
Qed.

Variables (mpg hMax : nat).
Hypothesis Mg : In mpg pr.
Hypothesis Hmg : val (m_hv x) mpg = hMax.
Hypothesis Hpos : 0 < hMax.

Lemma nops_pos : 0 < nops.
Proof.
  destruct (h_cheap _ _ _ _ _ HD mpg Mg) as (D & _). inversion D as [f H E1 E2|op f c Ho _ _ E1 E2].
  - rewrite Hmg in E2. lia.
  - lia.
Qed.

Definition inzone (gz : list nat) (f : nat) : Prop := f = mpg \/ In f gz.

(** A producer of a fact of the zone has been dealt with. *)
Definition handled (z : zone) (op : nat) : Prop :=
  In (mpf op) (z_gz z) \/ (0 < cost op /\ In op (z_cut z) /\ In (mpf op) (z_pcn z)).

Record ZInv (z : zone) (cur : nat -> Prop) : Prop := {
  zi_gz : forall f, In f (z_gz z) -> In f pr /\ hMax <= val (m_hv x) f /\ exists op, op < nops /\ f = mpf op;
  zi_nd : NoDup (z_gz z);
  zi_cut : forall op, In op (z_cut z) -> live op /\ 0 < cost op /\ exists f, In f (add op) /\ inzone (z_gz z) f;
  zi_ndc : NoDup (z_cut z);
  zi_pcn : forall f, In f (z_pcn z) -> In f pr /\ exists op, op < nops /\ f = mpf op;
  zi_st : forall f, In f (z_stack z) -> inzone (z_gz z) f;
  zi_cl : forall f op, inzone (z_gz z) f -> ~ In f (z_stack z) -> ~ cur f -> live op -> In f (add op) -> handled z op }.

Lemma gz_bound gz : NoDup gz -> (forall f, In f gz -> exists op, op < nops /\ f = mpf op) -> length gz <= nops.
Proof.
  intros N H. assert (E : nops = length (map mpf (seq 0 nops))) by now rewrite map_length, seq_length.
  rewrite E. apply NoDup_incl_length; auto. intros f Hf. destruct (H f Hf) as (op & L & ->). apply in_map, in_seq. lia.
Qed.

Lemma gz_bound2 gz : NoDup gz -> (forall f, In f gz -> In f pr) -> length gz <= nf.
Proof.
  intros N H. assert (E : nf = length (seq 0 nf)) by now rewrite seq_length.
  rewrite E. apply NoDup_incl_length; auto. intros f Hf. apply in_seq. destruct (proj1 (h_pr _ _ _ _ _ HD f) (H f Hf)) as (v & V). apply hvf_lt in V. rewrite (h_lh _ _ _ _ _ HD) in V. lia.
Qed.

Lemma handled_mono z z' op : handled z op -> incl (z_gz z) (z_gz z') -> incl (z_cut z) (z_cut z') ->
  (forall p, In p (z_pcn z) -> In p (z_pcn z') \/ In p (z_gz z')) -> handled z' op.
Proof.
  intros [H|(H1 & H2 & H3)] A B C; [left; auto|]. destruct (C _ H3); [right; auto|left; auto].
Qed.

Lemma ins_in y a l : In y (ins a l) <-> y = a \/ In y l.
Proof.
  unfold ins. destruct (memb a l) eqn:M; cbn; [apply memb_In in M|].
  - split; auto. intros [->|?]; auto.
  - split; intros [?|?]; auto.
Qed.
Lemma ins_nd a l : NoDup l -> NoDup (ins a l).
Proof. intros N. unfold ins. destruct (memb a l) eqn:M; auto. constructor; auto. now apply memb_false. Qed.
Lemma del_in y a l : In y (del a l) <-> y <> a /\ In y l.
Proof.
  unfold del. rewrite filter_In. destruct (Nat.eqb_spec a y) as [->|N]; cbn; split; intros (A & B'); split; auto; congruence.
Qed.

Lemma gz_producer_ok f0 z op (cur : nat -> Prop) : ZInv z cur -> inzone (z_gz z) f0 -> live op \/ (op < nops /\ ~ live op) -> In f0 (add op) ->
  length (z_stack z) <= length (z_gz z) ->
  exists z', gz_producer m cs x z op = Some z' /\ ZInv z' cur /\ (live op -> handled z' op) /\
    incl (z_gz z) (z_gz z') /\ (forall o, handled z o -> handled z' o) /\
    length (z_stack z') + length (z_gz z) = length (z_stack z) + length (z_gz z') /\ length (z_stack z') <= length (z_gz z').
Proof.
  intros I IZ LV Hf LS. assert (Lo : op < nops) by (destruct LV as [(?&?)|(?&?)]; auto).
  unfold gz_producer. destruct (get_unsat op Lo) as (u & G & U). rewrite G. cbn [obind].
  destruct (Z.ltb 0 u).
  { exists z. split; [reflexivity|]. split; [auto|]. split; [intros Lv; elim (U Lv)|]. split; [apply incl_refl|]. split; auto. }
  destruct (live_mp op U) as (GM & _ & Ppr & Pnf & _ & Pad). rewrite GM. cbn [obind].
  rewrite (proj2 (Nat.ltb_lt _ _)) by auto.
  destruct (memb (mpf op) (z_gz z)) eqn:MZ.
  { apply memb_In in MZ. exists z. split; [reflexivity|]. split; auto. split; [intros _; now left|]. split; [apply incl_refl|]. split; auto. }
  apply memb_false in MZ.
  rewrite (get_nth_d 0 cs op) by lia. fold (cost op). cbn [obind].
  destruct I as [A1 A2 A3 A4 A5 A6 A7].
  destruct (Nat.eqb_spec (cost op) 0) as [C0|C0].
  - assert (ZB : length (mpf op :: z_gz z) <= nops).
    { apply gz_bound; [constructor; auto|]. intros f [<-|Hf']; eauto. destruct (A1 f Hf') as (_ & _ & ?). auto. }
    cbn in ZB. unfold lm_push. rewrite (proj2 (Nat.ltb_lt _ _)) by lia. cbn [obind].
    eexists. split; [reflexivity|].
    assert (HM : forall o, handled z o -> handled {| z_gz := mpf op :: z_gz z; z_cut := z_cut z; z_pcn := del (mpf op) (z_pcn z); z_stack := mpf op :: z_stack z |} o).
    { intros o Ho. eapply handled_mono; eauto; cbn.
      - intros y Hy. now right.
      - apply incl_refl.
      - intros p Hp. destruct (Nat.eq_dec p (mpf op)) as [->|N]; [right; now left|left; apply del_in; auto]. }
    split; [|split; [|split; [|split; [exact HM|]]]]; cbn.
    + constructor; cbn.
      * intros f [<-|H]; auto. split; auto. split; eauto.
        destruct (Pad f0 Hf) as (_ & Lf). assert (hMax <= val (m_hv x) f0).
        { destruct IZ as [->|IZ]; [rewrite Hmg; lia|now apply A1]. }
        lia.
      * constructor; auto.
      * intros o Ho. destruct (A3 o Ho) as (B1 & B2 & f & B3 & B4). split; auto. split; auto. exists f. split; auto.
        destruct B4; [now left|right; now right].
      * auto.
      * intros f H. apply del_in in H as (_ & H). auto.
      * intros f [<-|H]; [right; now left|]. destruct (A6 f H); [now left|right; now right].
      * intros f o Hz Ns Nc Lo' Hf'. apply HM. apply A7 with (f := f); auto.
        destruct Hz as [->|[<-|Hz]]; [now left| |now right]. elim Ns. now left.
    + intros _. left. now left.
    + intros y Hy. now right.
    + split; lia.
  - eexists. split; [reflexivity|].
    assert (HM : forall o, handled z o -> handled {| z_gz := z_gz z; z_cut := ins op (z_cut z); z_pcn := ins (mpf op) (z_pcn z); z_stack := z_stack z |} o).
    { intros o Ho. eapply handled_mono; eauto; cbn.
      - apply incl_refl.
      - intros y Hy. apply ins_in. auto.
      - intros p Hp. left. apply ins_in. auto. }
    split; [|split; [|split; [apply incl_refl|split; [exact HM|]]]]; cbn.
    + constructor; cbn; auto.
      * intros o Ho. apply ins_in in Ho as [->|Ho]; auto. split; auto. split; [lia|]. exists f0. auto.
      * now apply ins_nd.
      * intros f H. apply ins_in in H as [->|H]; eauto.
      * intros f o Hz Ns Nc Lo' Hf'. apply HM. eapply A7; eauto.
    + intros _. right. split; [lia|]. split; apply ins_in; auto.
    + split; lia.
Qed.

Lemma gz_producers_ok f0 : forall ops z (cur : nat -> Prop), ZInv z cur -> inzone (z_gz z) f0 -> (forall op, In op ops -> op < nops /\ In f0 (add op)) ->
  length (z_stack z) <= length (z_gz z) ->
  exists z', ofold (gz_producer m cs x) ops z = Some z' /\ ZInv z' cur /\ (forall op, In op ops -> live op -> handled z' op) /\
    incl (z_gz z) (z_gz z') /\ (forall o, handled z o -> handled z' o) /\
    length (z_stack z') + length (z_gz z) = length (z_stack z) + length (z_gz z') /\ length (z_stack z') <= length (z_gz z').
Proof.
  induction ops as [|op ops IH]; intros z cur I IZ H LS.
  - exists z. split; [reflexivity|]. split; auto. split; [easy|]. split; [apply incl_refl|]. split; auto.
  - destruct (H op) as (Lo & Hf); [now left|].
    assert (LV : live op \/ (op < nops /\ ~ live op)).
    { destruct (get_unsat op Lo) as (u & _ & U). destruct (Z.ltb 0 u); auto. }
    destruct (gz_producer_ok f0 z op cur I IZ LV Hf LS) as (z1 & E1 & I1 & H1 & G1 & M1 & L1 & S1).
    destruct (IH z1 cur I1) as (z2 & E2 & I2 & H2 & G2 & M2 & L2 & S2); auto.
    { destruct IZ; [now left|right; auto]. } { intros o Ho. apply H. now right. }
    exists z2. cbn [ofold]. rewrite E1. cbn [obind]. split; auto. split; auto. split.
    { intros o [<-|Ho] Lv; auto. }
    split; [intros y Hy; auto|]. split; auto. split; auto. lia.
Qed.

Lemma gz_loop_ok : forall fuel z, ZInv z (fun _ => False) ->
  (z_stack z = [mpg] /\ z_gz z = [] \/ length (z_stack z) <= length (z_gz z)) -> length (z_stack z) + (nf - length (z_gz z)) <= fuel ->
  exists z', gz_loop fuel m cs x z = Some z' /\ ZInv z' (fun _ => False) /\ z_stack z' = [].
Proof.
  induction fuel as [|n IH]; intros z I LS LF.
  - cbn. destruct (z_stack z) as [|f st] eqn:E; [eauto|]. cbn in LF. lia.
  - cbn. destruct (z_stack z) as [|f st] eqn:E; [eauto|].
    assert (IZ : inzone (z_gz z) f) by (apply (zi_st _ _ I); rewrite E; now left).
    set (z0 := {| z_gz := z_gz z; z_cut := z_cut z; z_pcn := z_pcn z; z_stack := st |}).
    assert (I0 : ZInv z0 (fun y => y = f)).
    { destruct I as [A1 A2 A3 A4 A5 A6 A7]. constructor; cbn; auto.
      - intros y Hy. apply A6. rewrite E. now right.
      - intros y o Hz Ns Nc Lo Hy. assert (H : handled z o). { apply A7 with (f := y); auto. rewrite E. intros [?|?]; congruence. }
        exact H. }
    assert (LS0 : length (z_stack z0) <= length (z_gz z0)).
    { cbn. destruct LS as [(Q & R)|LS]; [injection Q as _ ->; cbn; lia|]. cbn in LS. lia. }
    destruct (gz_producers_ok f (add_to_task m f) z0 (fun y => y = f) I0) as (z1 & E1 & I1 & H1 & G1 & M1 & L1 & S1); auto.
    { intros op Ho. now apply add_to_task_in. }
    rewrite E1. cbn [obind]. apply IH.
    + destruct I1 as [A1 A2 A3 A4 A5 A6 A7]. constructor; auto.
      intros y o Hz Ns _ Lo Hy. destruct (Nat.eq_dec y f) as [->|N]; [|eapply A7; eauto].
      apply H1; auto. apply add_to_task_in. split; auto. apply Lo.
    + auto.
    + cbn in L1. assert (B1 : length (z_gz z1) <= nf). { apply gz_bound2; [apply (zi_nd _ _ I1)|]. intros y Hy. now apply (zi_gz _ _ I1). }
      cbn in LF. lia.
Qed.

Lemma goal_zone_ok : exists z, goal_zone m cs x mpg = Some z /\ ZInv z (fun _ => False) /\ z_stack z = [].
Proof.
  unfold goal_zone, lm_push. cbn [length]. pose proof nops_pos as NP. rewrite (proj2 (Nat.ltb_lt _ _)) by lia. cbn [obind].
  apply gz_loop_ok.
  - constructor; cbn [z_gz z_cut z_pcn z_stack]; try easy.
    + constructor.
    + constructor.
    + intros f [<-|[]]. now left.
    + intros f op [->|[]] N. elim N. now left.
  - left. auto.
  - cbn. lia.
Qed.

(** ** Backwards search *)
Section FR.
Variable gz : list nat.

(** Facts connected to the current state by operators with their maxPrec, outside the goal zone. *)
Inductive pth : nat -> Prop :=
| pth_s f : In f s -> pth f
| pth_op op f : live op -> In f (add op) -> ~ In (mpf op) gz -> pth (mpf op) -> pth f.

Record VInv (vis st : list nat) (cur : nat -> Prop) (f0 : nat) : Prop := {
  vi_s : forall f, In f vis -> ~ In f s;
  vi_nd : NoDup vis;
  vi_mp : forall f, In f vis -> f = f0 \/ exists op, op < nops /\ f = mpf op;
  vi_pr : forall f, In f vis -> In f pr;
  vi_st : incl st vis;
  vi_cl : forall f op, In f vis -> ~ In f st -> ~ cur f -> live op -> In f (add op) -> In (mpf op) gz \/ In (mpf op) vis }.

Lemma fr_producers_ok f0 f : forall ops vis st cur, VInv vis st cur f0 -> length st < length vis ->
  (forall op, In op ops -> op < nops /\ In f (add op)) ->
  fr_producers m x s gz ops vis st = Some (inl tt) \/
  exists vis' st', fr_producers m x s gz ops vis st = Some (inr (vis', st')) /\ VInv vis' st' cur f0 /\ incl vis vis' /\
    (forall op, In op ops -> live op -> In (mpf op) gz \/ In (mpf op) vis') /\ length st' < length vis' /\
    length st' + length vis = length st + length vis'.
Proof.
  induction ops as [|op ops IH]; intros vis st cur I LS H.
  - right. exists vis, st. split; [reflexivity|]. split; auto. split; [apply incl_refl|]. split; [easy|]. auto.
  - destruct (H op) as (Lo & Hf); [now left|]. cbn [fr_producers].
    destruct (get_unsat op Lo) as (u & G & U). rewrite G. cbn [obind].
    assert (H' : forall o, In o ops -> o < nops /\ In f (add o)) by (intros o Ho; apply H; now right).
    destruct (Z.ltb 0 u).
    { destruct (IH vis st cur I LS H') as [E|(vis' & st' & E & I' & V' & C' & L' & M')]; auto.
      right. exists vis', st'. split; auto. split; auto. split; auto. split; auto. intros o [<-|Ho] Lv; [easy|auto]. }
    destruct (live_mp op U) as (GM & Pin & Ppr & Pnf & _ & _).
    rewrite (get_nth_d [] (st_pre m) op) by auto. cbn [obind]. rewrite GM. cbn [obind].
    rewrite (proj2 (Nat.ltb_lt _ _)) by auto.
    destruct (memb (mpf op) gz) eqn:MZ.
    { apply memb_In in MZ. destruct (IH vis st cur I LS H') as [E|(vis' & st' & E & I' & V' & C' & L' & M')]; auto.
      right. exists vis', st'. split; auto. split; auto. split; auto. split; auto. intros o [<-|Ho] Lv; auto. }
    destruct (Nat.eqb_spec (length (nth op (st_pre m) [])) 0) as [Z0|Z0].
    { elim (NPL op Lo). unfold m_pre. now apply length_zero_iff_nil. }
    cbn [orb]. destruct (memb (mpf op) s) eqn:MS; [auto|]. apply memb_false in MS.
    destruct (memb (mpf op) vis) eqn:MV.
    { apply memb_In in MV. destruct (IH vis st cur I LS H') as [E|(vis' & st' & E & I' & V' & C' & L' & M')]; auto.
      right. exists vis', st'. split; auto. split; auto. split; auto. split; auto. intros o [<-|Ho] Lv; auto. }
    apply memb_false in MV.
    assert (VB : length (mpf op :: vis) <= S nops).
    { assert (E : S nops = length (f0 :: map mpf (seq 0 nops))) by (cbn; now rewrite map_length, seq_length). rewrite E.
      apply NoDup_incl_length; [constructor; auto; apply (vi_nd _ _ _ _ I)|]. intros y [<-|Hy].
      - right. apply in_map, in_seq. lia.
      - destruct (vi_mp _ _ _ _ I y Hy) as [->|(o & Lo' & ->)]; [now left|right; apply in_map, in_seq; lia]. }
    cbn in VB. unfold lm_push. rewrite (proj2 (Nat.ltb_lt _ _)) by lia. cbn [obind].
    destruct (IH (mpf op :: vis) (mpf op :: st) cur) as [E|(vis' & st' & E & I' & V' & C' & L' & M')]; auto.
    + destruct I as [A1 A2 A3 A4 A5 A6]. constructor.
      * intros y [<-|Hy]; auto.
      * constructor; auto.
      * intros y [<-|Hy]; eauto.
      * intros y [<-|Hy]; auto.
      * intros y [<-|Hy]; [now left|right; auto].
      * intros y o [<-|Hy] Ns Nc Lv Hy'; [elim Ns; now left|]. destruct (A6 y o Hy) as [?|?]; auto. { intros ?; apply Ns; now right. } right. now right.
    + cbn. lia.
    + right. exists vis', st'. split; auto. split; auto. split; [intros y Hy; apply V'; now right|]. split.
      * intros o [<-|Ho] Lv; auto. right. apply V'. now left.
      * split; auto. cbn in M'. lia.
Qed.

Lemma fr_loop_ok f0 : forall fuel vis st, VInv vis st (fun _ => False) f0 -> In f0 vis -> length st <= length vis -> length st + (nf - length vis) <= fuel ->
  exists b, fr_loop fuel m x s gz vis st = Some b /\ (b = false -> ~ pth f0).
Proof.
  induction fuel as [|n IH]; intros vis st I I0 LS LF.
  - destruct st as [|f st]; [|cbn in LF; lia]. exists false. split; [reflexivity|]. intros _.
    assert (H : forall f, pth f -> In f vis -> False).
    { induction 1 as [f Hs|op f Lv Hf Ng Hp IHp]; intros Hv; [apply (vi_s _ _ _ _ I f Hv Hs)|].
      destruct (vi_cl _ _ _ _ I f op Hv) as [?|?]; auto. }
    eauto.
  - destruct st as [|f st].
    { exists false. split; [reflexivity|]. intros _.
      assert (H : forall f, pth f -> In f vis -> False).
      { induction 1 as [f Hs|op f Lv Hf Ng Hp IHp]; intros Hv; [apply (vi_s _ _ _ _ I f Hv Hs)|].
        destruct (vi_cl _ _ _ _ I f op Hv) as [?|?]; auto. }
      eauto. }
    cbn [fr_loop].
    assert (I' : VInv vis st (fun y => y = f) f0).
    { destruct I as [A1 A2 A3 A4 A5 A6]. constructor; auto.
      - intros y Hy. apply A5. now right.
      - intros y o Hy Ns Nc. apply A6; auto. intros [?|?]; congruence. }
    destruct (fr_producers_ok f0 f (add_to_task m f) vis st (fun y => y = f) I') as [E|(vis' & st' & E & J & V' & C' & L' & M')].
    + cbn in LS. lia.
    + intros op Ho. now apply add_to_task_in.
    + rewrite E. cbn [obind]. exists true. split; auto. discriminate.
    + rewrite E. cbn [obind]. apply IH; auto.
      * destruct J as [A1 A2 A3 A4 A5 A6]. constructor; auto.
        intros y o Hy Ns _ Lv Hy'. destruct (Nat.eq_dec y f) as [->|N]; [|eapply A6; eauto].
        apply C'; auto. apply add_to_task_in. split; auto. apply Lv.
      * lia.
      * assert (B1 : length vis' <= nf). { apply gz_bound2; [apply (vi_nd _ _ _ _ J)|apply (vi_pr _ _ _ _ J)]. }
        cbn in LF. lia.
Qed.

Lemma fr_rm_ok : forall pcn rm0, (forall f, In f pcn -> In f pr) -> exists rm,
  ofold (fun rm f => if memb f s then Some rm else st <- lm_push m [] f ;; r <- fr_loop (S (S nf)) m x s gz [f] st ;;
            Some (if r : bool then rm else f :: rm)) pcn rm0 = Some rm /\
  (forall f, In f rm -> In f rm0 \/ ~ pth f).
Proof.
  induction pcn as [|f pcn IH]; intros rm0 H.
  - exists rm0. cbn. auto.
  - cbn [ofold]. destruct (memb f s) eqn:MS; cbn [obind].
    { apply IH. intros y Hy. apply H. now right. }
    apply memb_false in MS. pose proof nops_pos.
    assert (PU : lm_push m [] f = Some [f]) by (unfold lm_push; cbn [length]; rewrite (proj2 (Nat.ltb_lt _ _)) by lia; reflexivity).
    rewrite PU. cbn [obind].
    destruct (fr_loop_ok f (S (S nf)) [f] [f]) as (b & E & B).
    + constructor.
      * intros y [<-|[]]. auto.
      * repeat constructor. easy.
      * intros y [<-|[]]. auto.
      * intros y [<-|[]]. apply H. now left.
      * apply incl_refl.
      * intros y o Hy Ns. easy.
    + now left.
    + cbn. lia.
    + cbn. lia.
    + rewrite E. cbn [obind]. destruct b.
      * apply IH. intros y Hy. apply H. now right.
      * destruct (IH (f :: rm0)) as (rm & E' & R). { intros y Hy. apply H. now right. }
        exists rm. split; auto. intros y Hy. destruct (R y Hy) as [[<-|?]|?]; auto.
Qed.
End FR.

Lemma fr_cut_ok rm : forall cut c0, (forall op, In op cut -> live op) -> exists c,
  ofold (fun c op => mp <- get (m_maxp x) op ;; p <- mp ;; if Nat.ltb p nf then Some (if memb p rm then c else op :: c) else None) cut c0 = Some c /\
  (forall op, In op c <-> In op c0 \/ (In op cut /\ ~ In (mpf op) rm)) /\ (NoDup (cut ++ c0) -> NoDup c).
Proof.
  induction cut as [|op cut IH]; intros c0 H.
  - exists c0. cbn. split; auto. split; [tauto|auto].
  - cbn [ofold]. destruct (live_mp op) as (GM & _ & _ & Pnf & _). { apply H. now left. }
    rewrite GM. cbn [obind]. rewrite (proj2 (Nat.ltb_lt _ _)) by auto. cbn [obind].
    destruct (IH (if memb (mpf op) rm then c0 else op :: c0)) as (c & E & C & N). { intros o Ho. apply H. now right. }
    exists c. split; auto. split.
    + intros o. rewrite C. destruct (memb (mpf op) rm) eqn:M.
      * apply memb_In in M. cbn. split; [tauto|]. intros [?|([<-|?] & ?)]; auto; easy.
      * apply memb_false in M. cbn. split; [|tauto]. intros [[<-|?]|(? & ?)]; auto.
    + intros ND. apply N. cbn in ND. inversion ND as [|? ? N1 N2]; subst. destruct (memb (mpf op) rm); auto.
      apply nodup_app_iff in N2 as (A & B & D). apply nodup_app_iff. split; auto. split; [constructor; auto; intros ?; apply N1; apply in_or_app; auto|].
      intros y Hy [<-|Hz]; [apply N1, in_or_app; auto|eauto].
Qed.

(** The cut is a set of operators with positive costs that every relaxed plan uses, and none of them can lower h^max of
    maxPrecG by more than the cheapest one. *)
Lemma round_ok : In mpg g -> exists z cut, goal_zone m cs x mpg = Some z /\ forward_reach m x s z = Some cut /\ NoDup cut /\
  (forall op, In op cut -> op < nops /\ 0 < cost op) /\ disj_landmark nops pre add s g cut /\
  (forall op, In op cut -> live op /\ hMax <= cost op + val (m_hv x) (mpf op)).
Proof.
  intros Ig. destruct goal_zone_ok as (z & EZ & I & ST).
  destruct (fr_rm_ok (z_gz z) (z_pcn z) []) as (rm & ER & R). { intros f Hf. now apply (zi_pcn _ _ I). }
  destruct (fr_cut_ok rm (z_cut z) []) as (cut & EC & C & N). { intros op Ho. now apply (zi_cut _ _ I). }
  exists z, cut. split; auto. unfold forward_reach. rewrite ER. cbn [obind]. split; auto. split.
  { apply N. rewrite app_nil_r. apply (zi_ndc _ _ I). }
  assert (CI : forall op, In op cut -> In op (z_cut z)) by (intros op Ho; apply C in Ho as [[]|(? & _)]; auto).
  split. { intros op Ho. destruct (zi_cut _ _ I op (CI op Ho)) as ((L & _) & P & _). auto. }
  split.
  2:{ intros op Ho. destruct (zi_cut _ _ I op (CI op Ho)) as (L & P & f & Hf & Hz). split; auto.
      destruct (live_mp op L) as (_ & _ & _ & _ & _ & Pad). destruct (Pad f Hf) as (_ & Lf).
      destruct Hz as [->|Hz]; [lia|]. destruct (zi_gz _ _ I f Hz) as (_ & Lz & _). lia. }
  intros ops (out & EX & GO).
  assert (SZ : forall f, In f s -> ~ inzone (z_gz z) f).
  { intros f Hs Hz. pose proof (h_s _ _ _ _ _ HD f Hs) as V. assert (val (m_hv x) f = 0) by (unfold val; now rewrite V).
    destruct Hz as [->|Hz]; [lia|]. destruct (zi_gz _ _ I f Hz) as (_ & L & _). lia. }
  assert (Spr : forall f, In f s -> In f pr). { intros f Hs. apply (h_pr _ _ _ _ _ HD). exists 0. now apply (h_s _ _ _ _ _ HD). }
  assert (KEY : forall ops (st : nat -> Prop), (forall f, st f -> In f pr /\ ~ inzone (z_gz z) f /\ pth (z_gz z) f) ->
    forall out, rexec nops pre add st ops out -> (exists op, In op ops /\ In op cut) \/ (forall f, out f -> ~ inzone (z_gz z) f)).
  { clear EX GO ops out. induction ops as [|op ops IH]; cbn; intros st H out E.
    - right. intros f Hf. apply E in Hf. now apply H.
    - destruct E as (E1 & E2 & E3).
      assert (LV : live op) by (split; auto; intros p Hp; apply H; auto).
      destruct (live_mp op LV) as (_ & Pin & _ & _ & _ & Pad).
      destruct (H (mpf op) (E2 _ Pin)) as (Q1 & Q2 & Q3).
      destruct (Exists_dec (inzone (z_gz z)) (add op)) as [X|X].
      { intros f. unfold inzone. destruct (Nat.eq_dec f mpg); auto. destruct (in_dec Nat.eq_dec f (z_gz z)); auto.
        right. intros [?|?]; auto. }
      + apply Exists_exists in X as (f & Hf & Hz). left. exists op. split; [now left|].
        destruct (zi_cl _ _ I f op Hz) as [Hg|(P1 & P2 & P3)]; auto.
        * rewrite ST. easy.
        * elim Q2. now right.
        * apply C. right. split; auto. intros Hr. destruct (R _ Hr) as [[]|Np]; auto.
      + destruct (IH (fun f => st f \/ In f (add op))) with (out := out) as [(o & O1 & O2)|O]; auto.
        * intros f [Hs|Hf]; auto. split; [now apply Pad|]. split.
          -- intros Hz. apply X, Exists_exists. eauto.
          -- eapply pth_op; eauto. intros Hg. apply Q2. now right.
        * left. exists o. split; auto. }
  destruct (KEY ops (fun f => In f s)) with (out := out) as [K|K]; auto.
  - intros f Hs. split; auto. split; auto. now constructor.
  - elim (K mpg); [apply GO; auto|now left].
Qed.
End ROUND.

(** ** Costs *)
Lemma min_costs_ok cs cut : length cs = nops -> (forall op, In op cut -> op < nops) -> forall acc, exists r,
  min_costs cs cut acc = Some r /\
  (r = None -> acc = None /\ cut = []) /\
  (forall v, r = Some v -> (acc = Some v \/ exists op, In op cut /\ ccost cs op = v) /\ (forall op, In op cut -> v <= ccost cs op) /\ (forall a, acc = Some a -> v <= a)).
Proof.
  intros LC. induction cut as [|op cut IH]; intros H acc.
  - exists acc. cbn. split; auto. split; auto. intros v ->. split; auto. split; [easy|]. intros a E. injection E as ->. lia.
  - cbn [min_costs]. rewrite (get_nth_d 0 cs op) by (rewrite LC; apply H; now left). fold (ccost cs op). cbn [obind].
    set (acc' := match acc with None => Some (ccost cs op) | Some a => if Nat.ltb (ccost cs op) a then Some (ccost cs op) else acc end).
    destruct (IH (fun o Ho => H o (or_intror Ho)) acc') as (r & E & N & S). exists r. split; auto.
    assert (AC : exists a', acc' = Some a' /\ (acc = Some a' \/ a' = ccost cs op) /\ a' <= ccost cs op /\ forall a, acc = Some a -> a' <= a).
    { unfold acc'. destruct acc as [a|].
      - destruct (Nat.ltb_spec (ccost cs op) a).
        + eexists. split; [reflexivity|]. split; auto. split; auto. intros b E'. injection E' as <-. lia.
        + exists a. split; auto. split; auto. split; auto. intros b E'. injection E' as <-. lia.
      - eexists. split; [reflexivity|]. split; auto. split; auto. discriminate. }
    destruct AC as (a' & EA & SA & LA & MA). split.
    + intros R. destruct (N R) as (Q & _). congruence.
    + intros v R. destruct (S v R) as (S1 & S2 & S3). specialize (S3 a' EA). split; [|split].
      * destruct S1 as [S1|(o & O1 & O2)]; [|right; exists o; split; auto; now right].
        rewrite EA in S1. injection S1 as <-. destruct SA as [?| ->]; auto. right. exists op. split; auto. now left.
      * intros o [<-|Ho]; auto. lia.
      * intros a Ea. specialize (MA a Ea). lia.
Qed.

Lemma dec_costs_ok mc : forall cut cs, length cs = nops -> NoDup cut -> (forall op, In op cut -> op < nops) -> exists cs',
  dec_costs cs cut mc = Some cs' /\ length cs' = nops /\ (forall op, ccost cs' op = if memb op cut then ccost cs op - mc else ccost cs op).
Proof.
  unfold dec_costs. induction cut as [|op cut IH]; intros cs LC ND H.
  - exists cs. cbn. auto.
  - cbn [ofold]. assert (Lo : op < nops) by (apply H; now left).
    rewrite (get_nth_d 0 cs op) by lia. cbn [obind].
    destruct (set_some cs op (nth op cs 0 - mc)) as (cs1 & E); [lia|]. rewrite E. cbn [obind].
    inversion ND as [|? ? NI ND']; subst.
    destruct (IH cs1) as (cs' & E' & L' & C'); auto. { rewrite (set_length _ _ _ _ E). auto. } { intros o Ho. apply H. now right. }
    exists cs'. split; auto. split; auto. intros o. rewrite C'. cbn [memb existsb]. fold (memb o cut).
    assert (G : ccost cs1 o = if Nat.eqb o op then ccost cs op - mc else ccost cs o).
    { unfold ccost. destruct (Nat.eqb_spec o op) as [->|N].
      - apply (get_set_eq) in E. unfold get in E. now apply nth_error_nth with (d := 0) in E.
      - pose proof (get_set_neq _ _ _ _ _ E (not_eq_sym N)) as G. unfold get in G.
        destruct (lt_dec o (length cs)) as [L|L].
        + rewrite (nth_error_nth' cs1 0), (nth_error_nth' cs 0) in G; [congruence|auto|]. rewrite (set_length _ _ _ _ E). auto.
        + rewrite !nth_overflow; auto; [lia|]. rewrite (set_length _ _ _ _ E). lia. }
    rewrite G. clear G. destruct (Nat.eqb_spec o op) as [Eo|No]; cbn [orb]; [rewrite Eo|reflexivity].
    assert (M : memb op cut = false) by now apply memb_false. now rewrite M.
Qed.

Lemma pcost_dec (c c' : nat -> nat) cut mc ops : (forall op, c' op = if memb op cut then c op - mc else c op) ->
  (forall op, In op cut -> mc <= c op) -> (exists op, In op ops /\ In op cut) -> pcost c' ops + mc <= pcost c ops.
Proof.
  intros E L (o & O1 & O2). unfold pcost.
  assert (LE : forall l, list_sum (map c' l) <= list_sum (map c l)).
  { induction l as [|a l IH]; auto. cbn [map list_sum fold_right]. unfold list_sum in IH. rewrite (E a). destruct (memb a cut); lia. }
  induction ops as [|a ops IH]; [easy|]. cbn [map list_sum fold_right]. destruct O1 as [->|O1].
  - specialize (LE ops). unfold list_sum in LE. rewrite (E o), (proj2 (memb_In o cut) O2). specialize (L o O2). lia.
  - specialize (IH O1). unfold list_sum in IH. rewrite (E a). destruct (memb a cut); lia.
Qed.

(** Number of operators with positive costs. *)
Definition npos (cs : list nat) : nat := length (filter (fun op => Nat.ltb 0 (ccost cs op)) (seq 0 nops)).

Lemma npos_dec cs cs' op : (forall o, ccost cs' o <= ccost cs o) -> op < nops -> 0 < ccost cs op -> ccost cs' op = 0 -> npos cs' < npos cs.
Proof.
  intros LE L P Z. unfold npos.
  assert (I : In op (seq 0 nops)) by (apply in_seq; lia). revert I. generalize (seq 0 nops) as l.
  assert (W0 : forall l, length (filter (fun o => Nat.ltb 0 (ccost cs' o)) l) <= length (filter (fun o => Nat.ltb 0 (ccost cs o)) l)).
  { induction l as [|a l IH]; [auto|]. cbn [filter]. specialize (LE a).
    destruct (Nat.ltb_spec 0 (ccost cs' a)), (Nat.ltb_spec 0 (ccost cs a)); cbn [length]; lia. }
  induction l as [|a l IH]; [easy|]. intros [->|I]; cbn [filter].
  - rewrite Z. replace (0 <? 0) with false by reflexivity. rewrite (proj2 (Nat.ltb_lt _ _)) by auto. cbn [length]. specialize (W0 l). lia.
  - specialize (IH I). specialize (LE a). destruct (Nat.ltb_spec 0 (ccost cs' a)), (Nat.ltb_spec 0 (ccost cs a)); cbn [length]; lia.
Qed.

(** h^max drops by at most the cost of the cut. *)
Lemma hmax_drop cs cs' pr x cut mc mpg hMax : HDone m cs s pr x -> length cs = nops ->
  val (m_hv x) mpg = hMax ->
  (forall op, ccost cs' op = if memb op cut then ccost cs op - mc else ccost cs op) ->
  (forall op, In op cut -> mc <= ccost cs op /\ hMax <= ccost cs op + val (m_hv x) (mpf x op)) ->
  forall f v, deriv nops pre add (ccost cs') s ag f v -> Nat.min (val (m_hv x) f) (hMax - mc) <= v.
Proof.
  intros HD LC Hm EC CC. induction 1 as [f H|op f c Ho Hp IH Hf].
  - pose proof (h_s _ _ _ _ _ HD f H) as V. unfold val. rewrite V. lia.
  - destruct (Forall_Exists_dec (fun p => In p pr) (fun p => in_dec Nat.eq_dec p pr) (pre op)) as [A|E].
    + rewrite Forall_forall in A. assert (LV : live pr op) by (split; auto).
      destruct (live_mp cs pr x HD op LV) as (_ & Pin & _ & _ & _ & Pad). destruct (Pad f Hf) as (_ & Lf).
      pose proof (agg_ge Nat.max mx_comm mx_ge (map c (pre op)) (c (mpf x op)) (in_map c _ _ Pin)) as GE.
      specialize (IH _ Pin). rewrite EC. destruct (memb op cut) eqn:M.
      * apply memb_In in M. destruct (CC op M). lia.
      * lia.
    + apply Exists_exists in E as (p & Ip & Np). exfalso. apply Np.
      assert (RR : rreach nops pre add s p) by (apply (rreach_deriv nops pre add (ccost cs') s ag); eauto).
      apply (rreach_deriv nops pre add (ccost cs) s ag) in RR as (v & V). eapply (h_reach _ _ _ _ _ HD); eauto.
Qed.

Definition reachable_goals : Prop := forall f, In f g -> rreach nops pre add s f.

Lemma lmc_loop_ok : reachable_goals -> g <> [] -> forall fuel cs pr x hMax mpg h cuts, length cs = nops -> HDone m cs s pr x ->
  In mpg g -> hvf (m_hv x) mpg = Some hMax -> (forall f v, In f g -> hvf (m_hv x) f = Some v -> v <= hMax) ->
  npos cs < fuel -> (forall ops, rplan nops pre add s ops g -> pcost (ccost cs) ops + h <= pcost (m_cost m) ops) ->
  (forall c, In c cuts -> disj_landmark nops pre add s g c) ->
  exists h' cuts', lmc_loop fuel al m s g cs x hMax mpg h cuts = Some (h', cuts') /\
    (forall ops, rplan nops pre add s ops g -> h' <= pcost (m_cost m) ops) /\ h + hMax <= h' /\
    (forall c, In c cuts' -> disj_landmark nops pre add s g c).
Proof.
  intros RG GN. induction fuel as [|n IH]; intros cs pr x hMax mpg h cuts LC HD Ig Hm Mx NP AD LM; [lia|].
  cbn [lmc_loop]. destruct (Nat.eqb_spec hMax 0) as [Z0|Z0].
  { exists h, cuts. split; auto. split; [|split; [lia|auto]]. intros ops P. specialize (AD ops P). lia. }
  assert (Mpr : In mpg pr) by (apply (h_pr _ _ _ _ _ HD); eauto).
  assert (Vm : val (m_hv x) mpg = hMax) by (unfold val; now rewrite Hm).
  destruct (round_ok cs pr x LC HD mpg hMax Mpr Vm ltac:(lia) Ig) as (z & cut & EZ & EF & ND & CP & LMK & CH).
  rewrite EZ. cbn [obind]. rewrite EF. cbn [obind].
  destruct (min_costs_ok cs cut LC (fun op Ho => proj1 (CP op Ho)) None) as (mo & EM & NM & SM). rewrite EM. cbn [obind].
  destruct (rplan_all nops pre add s g) as (pl & PL). { intros f Hf. apply rreach_plan. now apply RG. }
  destruct (LMK pl PL) as (o & O1 & O2).
  destruct mo as [mc|]. 2:{ destruct (NM eq_refl) as (_ & ->). easy. }
  cbn [obind]. destruct (SM mc eq_refl) as (S1 & S2 & _). destruct S1 as [?|(om & OM1 & OM2)]; [discriminate|].
  destruct (dec_costs_ok mc cut cs LC ND (fun op Ho => proj1 (CP op Ho))) as (cs' & ED & LC' & CC). rewrite ED. cbn [obind].
  destruct (hm_run_ok al m cs' s AL W NPL LC' Ss NDs (m_q x) (h_q _ _ _ _ _ HD)) as (pr' & x' & ER & HD'). rewrite ER. cbn [obind].
  destruct (hm_goal_ok (m_hv x') g) with (acc := @None (nat * nat)) as [(f & If & Nf & _)|(AllG & [(Q & _)|(r & mf & EG & SG & MG & _)])].
  { intros f Hf. rewrite (h_lh _ _ _ _ _ HD'). auto. }
  { exfalso. apply (RG f) in If. apply (rreach_deriv nops pre add (ccost cs') s ag) in If as (v & V). apply (h_reach _ _ _ _ _ HD') in V.
    apply (h_pr _ _ _ _ _ HD') in V as (w & V). congruence. }
  { congruence. }
  rewrite EG. cbn [obind]. destruct SG as [?|(Imf & Vmf)]; [discriminate|].
  destruct (IH cs' pr' x' r mf (h + mc) (cut :: cuts)) as (h' & cuts' & E & A1 & A2 & A3); auto.
  - assert (LT : npos cs' < npos cs).
    { apply npos_dec with (op := om).
      - intros o0. rewrite CC. destruct (memb o0 cut); lia.
      - now apply CP.
      - now apply CP.
      - rewrite CC, (proj2 (memb_In om cut) OM1). lia. }
    lia.
  - intros ops P. specialize (AD ops P). pose proof (pcost_dec (ccost cs) (ccost cs') cut mc ops CC S2 (LMK ops P)). lia.
  - intros c [<-|Hc]; auto.
  - exists h', cuts'. split; auto. split; auto. split; auto.
    (* h^max has dropped by at most mc *)
    destruct (AllG mpg Ig) as (v & V). pose proof (MG mpg v Ig V) as Lv.
    assert (DV : deriv nops pre add (ccost cs') s ag mpg (val (m_hv x') mpg)).
    { apply (h_cheap _ _ _ _ _ HD'). apply (h_pr _ _ _ _ _ HD'). eauto. }
    pose proof (hmax_drop cs cs' pr x cut mc mpg hMax HD LC Vm CC) as DROP.
    assert (Q : Nat.min (val (m_hv x) mpg) (hMax - mc) <= val (m_hv x') mpg).
    { apply DROP; auto. intros op Ho. split; [auto|]. now apply CH. }
    unfold val at 2 in Q. rewrite V in Q. lia.
Qed.
End LMC.
