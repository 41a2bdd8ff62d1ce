(** Knuth's generalisation of Dijkstra's algorithm as used by hsAddFF and hsLmCut: the invariant of the arrays and the
    queue, and the steps that keep it. *)
From Verif Require Import Base Heap_model Heap_proof Relax_model Relax_spec.

(** ** The priority queue seen as a bag of (key, value) *)
Definition zz (e : nat * nat) : Z * Z := (Z.of_nat (fst e), Z.of_nat (snd e)).

Definition PQ (h : heap) (B : list (nat * nat)) : Prop := HInv h /\ Permutation (elems h) (map zz B).

Lemma PQ_clear h : HInv h -> PQ (heap_clear h) [].
Proof. intros H. destruct (heap_clear_ok h H) as (A & E). split; [exact A|]. rewrite E. constructor. Qed.

Lemma PQ_add al h B k v : (forall n, length (al n) = n) -> PQ h B ->
  exists h', pq_add al h k v = Some h' /\ PQ h' ((k, v) :: B).
Proof.
  intros AL (H & P). destruct (heap_add_ok al h (Z.of_nat k) (Z.of_nat v) AL H) as (h' & E & H' & P').
  { unfold int_min. lia. }
  exists h'. split; [exact E|]. split; auto. cbn [map]. rewrite P'. unfold zz at 1. cbn [fst snd]. now constructor.
Qed.

Lemma zz_inj a b : zz a = zz b -> a = b.
Proof. destruct a, b. unfold zz. cbn. intros H. injection H as E F. f_equal; lia. Qed.

Lemma PQ_empty h B : PQ h B -> heap_isEmpty h = match B with [] => true | _ => false end.
Proof.
  intros (H & P). apply Permutation_length in P. rewrite elems_length, map_length in P.
  unfold heap_isEmpty, heap_size in *. destruct H as [(N & _) _ _ _ _]. destruct B; cbn in P.
  - apply Nat.eqb_eq. lia.
  - apply Nat.eqb_neq. lia.
Qed.

Lemma PQ_pop h B : PQ h B -> B <> [] ->
  exists k v h' B', pq_pop h = Some (k, v, h') /\ PQ h' B' /\ Permutation B ((k, v) :: B') /\
    (forall e, In e B -> k <= fst e).
Proof.
  intros (H & P) NE.
  destruct (heap_pop_ok h H) as (h' & k & v & E & H' & K & V & P' & Mn).
  { intros Q. rewrite Q in P. apply Permutation_nil in P. destruct B; [congruence|discriminate]. }
  assert (I : In (k, v) (map zz B)).
  { eapply Permutation_in; [exact P|]. eapply Permutation_in; [symmetry; exact P'|]. now left. }
  apply in_map_iff in I as ((k0 & v0) & Q & I). unfold zz in Q. cbn in Q. injection Q as <- <-.
  apply in_split in I as (B1 & B2 & ->).
  exists k0, v0, h', (B1 ++ B2). unfold pq_pop. rewrite K, V, E. cbn [obind]. rewrite !Nat2Z.id. split; [reflexivity|].
  split.
  - split; auto. apply (Permutation_cons_inv (a := (Z.of_nat k0, Z.of_nat v0))). rewrite <- P', P.
    rewrite !map_app. cbn [map]. symmetry. apply Permutation_middle.
  - split; [symmetry; apply Permutation_middle|]. intros e He.
    assert (I : In (zz e) (elems h)).
    { eapply Permutation_in; [symmetry; exact P|]. now apply in_map. }
    apply Mn in I. unfold zz in I. cbn in I. lia.
Qed.

(** ** Values *)
Definition hvf (hv : list (option nat)) (f : nat) : option nat :=
  match get hv f with Some (Some v) => Some v | _ => None end.
Definition val (hv : list (option nat)) (f : nat) : nat := match hvf hv f with Some v => v | None => 0 end.

Lemma hvf_set_eq hv f v hv' : set hv f (Some v) = Some hv' -> hvf hv' f = Some v.
Proof. intros H. unfold hvf. now rewrite (get_set_eq _ _ _ _ H). Qed.
Lemma hvf_set_neq hv f v hv' f' : set hv f v = Some hv' -> f <> f' -> hvf hv' f' = hvf hv f'.
Proof. intros H N. unfold hvf. now rewrite (get_set_neq _ _ _ _ _ H N). Qed.
Lemma hvf_lt hv f v : hvf hv f = Some v -> f < length hv.
Proof. unfold hvf. destruct (get hv f) eqn:E; [|discriminate]. intros _. eapply get_lt; eauto. Qed.
Lemma hvf_get hv f : f < length hv -> get hv f = Some (hvf hv f).
Proof. intros H. destruct (get_some hv f H) as (x & E). unfold hvf. rewrite E. now destruct x. Qed.

Section DIJ.
Variables (nf nops : nat) (pre add : nat -> list nat) (cost : nat -> nat) (s : list nat).
Variable aop : nat -> nat -> nat.
Hypothesis aop_comm : forall a b, aop a b = aop b a.
Hypothesis aop_assoc : forall a b c, aop a (aop b c) = aop (aop a b) c.
Hypothesis aop_0 : forall a, aop a 0 = a.
Hypothesis aop_mono : forall a b c d, a <= b -> c <= d -> aop a c <= aop b d.
Hypothesis aop_ge : forall a b, a <= aop a b.

Definition agg (l : list nat) : nat := fold_right aop 0 l.

Lemma agg_ge l x : In x l -> x <= agg l.
Proof.
  induction l as [|a l IH]; cbn; [easy|]. intros [->|H]; [apply aop_ge|].
  rewrite aop_comm. specialize (IH H). pose proof (aop_ge (agg l) a). unfold agg in *. lia.
Qed.

Lemma agg_mono (l : list nat) c d : (forall p, In p l -> c p <= d p) -> agg (map c l) <= agg (map d l).
Proof.
  induction l as [|a l IH]; cbn; intros H; [lia|]. apply aop_mono; [apply H; now left|]. apply IH. intros p Hp. apply H. now right.
Qed.

Lemma agg_eq (l : list nat) c d : (forall p, In p l -> c p = d p) -> agg (map c l) = agg (map d l).
Proof. intros H. f_equal. now apply map_ext_in. Qed.

Lemma agg_add c p pr (l : list nat) : NoDup l -> In p l -> ~ In p pr ->
  agg (map c (filter (fun q => memb q (p :: pr)) l)) = aop (agg (map c (filter (fun q => memb q pr) l))) (c p).
Proof.
  assert (Z : forall l, ~ In p l -> filter (fun q => memb q (p :: pr)) l = filter (fun q => memb q pr) l).
  { intros l0 H. apply filter_ext_in. intros a Ha. cbn. destruct (Nat.eqb_spec a p); auto. congruence. }
  induction l as [|a l IH]; [easy|]. intros N I NP. inversion N as [|? ? Na Nl]; subst.
  cbn [filter]. replace (memb a (p :: pr)) with (Nat.eqb a p || memb a pr) by reflexivity.
  destruct (Nat.eqb_spec a p) as [->|D]; cbn [orb].
  - assert (M : memb p pr = false) by now apply memb_false. rewrite M, (Z l Na). cbn. apply aop_comm.
  - destruct I as [->|I]; [congruence|]. specialize (IH Nl I NP).
    destruct (memb a pr); [|exact IH].
    cbn [map]. unfold agg in *. cbn [fold_right]. rewrite IH. apply aop_assoc.
Qed.

Notation der := (deriv nops pre add cost s agg).

Record DInv (pr : list nat) (hv : list (option nat)) (B : list (nat * nat)) (last : nat) (dn : nat -> Prop) : Prop := {
  d_len : length hv = nf;
  d_sound : forall f v, hvf hv f = Some v -> der f v;
  d_s : forall f, In f s -> hvf hv f = Some 0;
  d_q : forall k f, In (k, f) B -> exists v, hvf hv f = Some v /\ v <= k /\ (In f pr -> v < k) /\ last <= k;
  d_nd : NoDup B;
  d_cov : forall f v, hvf hv f = Some v -> In f pr \/ In (v, f) B;
  d_pr : forall f, In f pr -> exists v, hvf hv f = Some v /\ v <= last /\ (forall v', der f v' -> v <= v');
  d_ndpr : NoDup pr;
  d_cl : forall op f, op < nops -> dn op -> (forall p, In p (pre op) -> In p pr) -> In f (add op) ->
     exists v, hvf hv f = Some v /\ v <= cost op + agg (map (val hv) (pre op)) }.

Section INV.
Context {pr : list nat} {hv : list (option nat)} {B : list (nat * nat)} {last : nat} {dn : nat -> Prop}.
Hypothesis D : DInv pr hv B last dn.

Lemma d_front f v : hvf hv f = Some v -> ~ In f pr -> last <= v.
Proof.
  intros H N. destruct (d_cov _ _ _ _ _ D f v H) as [?|I]; [easy|].
  destruct (d_q _ _ _ _ _ D _ _ I) as (w & _ & _ & _ & L). exact L.
Qed.

(** A derivation lies within the processed facts or passes an unprocessed fact with a value. *)
Lemma d_frontier : (forall op, dn op) -> forall f v, der f v ->
  (In f pr /\ val hv f <= v) \/ exists f' u, ~ In f' pr /\ hvf hv f' = Some u /\ u <= v.
Proof.
  intros DN. induction 1 as [f H|op f c Hop Hp IH Hf].
  - pose proof (d_s _ _ _ _ _ D f H) as Q. destruct (in_dec Nat.eq_dec f pr) as [I|I].
    + left. split; auto. unfold val. rewrite Q. lia.
    + right. exists f, 0. auto.
  - destruct (Forall_Exists_dec (fun p => In p pr) (fun p => in_dec Nat.eq_dec p pr) (pre op)) as [A|E].
    + rewrite Forall_forall in A.
      destruct (Forall_Exists_dec (fun p => val hv p <= c p) (fun p => le_dec _ _) (pre op)) as [A2|E2].
      * rewrite Forall_forall in A2.
        destruct (d_cl _ _ _ _ _ D op f Hop (DN op) A Hf) as (v & V & L).
        pose proof (agg_mono (pre op) (val hv) c A2) as M.
        destruct (in_dec Nat.eq_dec f pr) as [I|I].
        -- left. split; auto. unfold val at 1. rewrite V. lia.
        -- right. exists f, v. repeat split; auto. lia.
      * apply Exists_exists in E2 as (p & Ip & Lp). destruct (IH p Ip) as [(_ & L)|(f' & u & N & V & L)]; [lia|].
        right. exists f', u. repeat split; auto. pose proof (agg_ge (map c (pre op)) (c p) (in_map c _ _ Ip)). lia.
    + apply Exists_exists in E as (p & Ip & Np). destruct (IH p Ip) as [(I & _)|(f' & u & N & V & L)]; [easy|].
      right. exists f', u. repeat split; auto. pose proof (agg_ge (map c (pre op)) (c p) (in_map c _ _ Ip)). lia.
Qed.

Lemma d_pr_val f : In f pr -> hvf hv f = Some (val hv f) /\ val hv f <= last.
Proof. intros H. destruct (d_pr _ _ _ _ _ D f H) as (v & V & L & _). unfold val. rewrite V. auto. Qed.

Lemma d_pr_cheapest f : In f pr -> cheapest nops pre add cost s agg f (val hv f).
Proof.
  intros H. destruct (d_pr _ _ _ _ _ D f H) as (v & V & L & M). unfold val. rewrite V. split; auto.
  eapply d_sound; eauto.
Qed.
End INV.

(** An outdated entry is dropped. *)
Lemma d_stale pr hv B last dn k f v B' : DInv pr hv B last dn -> Permutation B ((k, f) :: B') ->
  hvf hv f = Some v -> v < k -> DInv pr hv B' last dn.
Proof.
  intros D P V L. destruct D as [A1 A2 A3 A4 A5 A6 A7 A8 A9].
  constructor; auto.
  - intros k0 f0 I. apply A4. eapply Permutation_in; [symmetry; exact P|]. now right.
  - apply (Permutation_NoDup P) in A5. now inversion A5.
  - intros f0 v0 V0. destruct (A6 f0 v0 V0) as [?|I]; auto. right.
    apply (Permutation_in _ P) in I. destruct I as [Q|I]; auto. injection Q as -> ->. rewrite V in V0. injection V0 as ->. lia.
Qed.

(** The entry with the smallest key is processed; the operators in [rest] have not been looked at since. *)
Lemma d_pop pr hv B last dn k f B' rest : DInv pr hv B last dn -> (forall op, dn op) -> Permutation B ((k, f) :: B') ->
  (forall e, In e B -> k <= fst e) -> hvf hv f = Some k ->
  (forall op, op < nops -> In f (pre op) -> In op rest) ->
  ~ In f pr /\ DInv (f :: pr) hv B' k (fun op => ~ In op rest).
Proof.
  intros D DN P Mn V R.
  assert (IB : In (k, f) B) by (eapply Permutation_in; [symmetry; exact P|]; now left).
  assert (NP : ~ In f pr).
  { intros H. destruct (d_q _ _ _ _ _ D _ _ IB) as (v & V' & _ & L & _). rewrite V in V'. injection V' as <-. specialize (L H). lia. }
  assert (LK : last <= k) by (eapply d_front; eauto).
  split; auto.
  pose proof (d_frontier D DN) as FR.
  destruct D as [A1 A2 A3 A4 A5 A6 A7 A8 A9].
  pose proof (Permutation_NoDup P A5) as ND'. inversion ND' as [|? ? NI ND2]; subst.
  constructor; auto.
  - intros k0 f0 I. assert (I' : In (k0, f0) B) by (eapply Permutation_in; [symmetry; exact P|]; now right).
    destruct (A4 k0 f0 I') as (v & V0 & L1 & L2 & L3). exists v. split; auto. split; auto. split; [|now apply (Mn _ I')].
    intros [<-|H]; auto. rewrite V in V0. injection V0 as <-.
    assert (k0 <> k) by (intros ->; auto). lia.
  - intros f0 v0 V0. destruct (A6 f0 v0 V0) as [I|I]; [left; now right|].
    apply (Permutation_in _ P) in I. destruct I as [Q|I]; auto. injection Q as <- <-. left. now left.
  - intros f0 [<-|I].
    + exists k. split; auto. split; auto. intros v' Dv. destruct (FR f v' Dv) as [(I & _)|(f' & u & N & U & L)]; [easy|].
      destruct (A6 f' u U) as [?|I]; [easy|]. apply Mn in I. cbn in I. lia.
    + destruct (A7 f0 I) as (v & V0 & L & M). exists v. repeat split; auto. lia.
  - constructor; auto.
  - intros op f0 Hop Dn Hp Hf. apply A9; auto. intros p Ip. destruct (Hp p Ip) as [<-|?]; auto.
    elim Dn. now apply R.
Qed.

(** One add effect of an operator whose preconditions are processed. *)
Lemma d_relax pr hv B last dn op f u hv' : DInv pr hv B last dn -> op < nops -> In f (add op) ->
  (forall p, In p (pre op) -> In p pr) -> u = cost op + agg (map (val hv) (pre op)) -> last <= u ->
  lt_unr u (hvf hv f) = true -> set hv f (Some u) = Some hv' ->
  DInv pr hv' ((u, f) :: B) last dn /\ ~ In f pr.
Proof.
  intros D Hop Hf Hp Eu Lu LT Es.
  assert (Lt : forall v, hvf hv f = Some v -> u < v).
  { intros v V. rewrite V in LT. cbn in LT. now apply Nat.ltb_lt. }
  assert (NP : ~ In f pr).
  { intros H. destruct (d_pr _ _ _ _ _ D f H) as (v & V & L & _). specialize (Lt v V). lia. }
  split; auto.
  assert (PV : forall p, In p pr -> val hv' p = val hv p).
  { intros p Ip. unfold val. rewrite (hvf_set_neq _ _ _ _ _ Es); auto. intros <-. auto. }
  assert (LE : forall f0 v, hvf hv f0 = Some v -> exists v', hvf hv' f0 = Some v' /\ v' <= v).
  { intros f0 v V. destruct (Nat.eq_dec f f0) as [<-|N].
    - exists u. split; [now apply (hvf_set_eq _ _ _ _ Es)|]. specialize (Lt v V). lia.
    - exists v. split; auto. now rewrite (hvf_set_neq _ _ _ _ _ Es N). }
  pose proof (fun p Hp => proj1 (d_pr_val D p Hp)) as PVs.
  destruct D as [A1 A2 A3 A4 A5 A6 A7 A8 A9].
  constructor; auto.
  - now rewrite (set_length _ _ _ _ Es).
  - intros f0 v V. destruct (Nat.eq_dec f f0) as [<-|N].
    + rewrite (hvf_set_eq _ _ _ _ Es) in V. injection V as <-. rewrite Eu. apply dv_op with (c := val hv); auto.
    + rewrite (hvf_set_neq _ _ _ _ _ Es N) in V. auto.
  - intros f0 H. destruct (Nat.eq_dec f f0) as [<-|N].
    + specialize (Lt 0 (A3 f H)). lia.
    + rewrite (hvf_set_neq _ _ _ _ _ Es N). auto.
  - intros k f0 [Q|I].
    + injection Q as <- <-. exists u. split; [now apply (hvf_set_eq _ _ _ _ Es)|]. repeat split; auto. easy.
    + destruct (A4 k f0 I) as (v & V & L1 & L2 & L3). destruct (LE f0 v V) as (v' & V' & L').
      exists v'. split; auto. split; [lia|]. split; auto. intros H. specialize (L2 H). lia.
  - constructor; auto. intros I. destruct (A4 u f I) as (v & V & L & _). specialize (Lt v V). lia.
  - intros f0 v V. destruct (Nat.eq_dec f f0) as [<-|N].
    + rewrite (hvf_set_eq _ _ _ _ Es) in V. injection V as <-. right. now left.
    + rewrite (hvf_set_neq _ _ _ _ _ Es N) in V. destruct (A6 f0 v V); auto. right. now right.
  - intros f0 I. destruct (A7 f0 I) as (v & V & L & M). exists v. repeat split; auto.
    rewrite (hvf_set_neq _ _ _ _ _ Es); auto. intros <-. auto.
  - intros op0 f0 H0 Dn Hp0 Hf0. destruct (A9 op0 f0 H0 Dn Hp0 Hf0) as (v & V & L).
    destruct (LE f0 v V) as (v' & V' & L'). exists v'. split; auto.
    rewrite (agg_eq (pre op0) (val hv') (val hv)); [lia|]. intros p Ip. apply PV. auto.
Qed.

(** The closure condition holds for one more operator. *)
Lemma d_done pr hv B last (dn dn' : nat -> Prop) op : DInv pr hv B last dn ->
  (forall o, dn' o -> dn o \/ o = op) ->
  ((forall p, In p (pre op) -> In p pr) -> forall f, In f (add op) -> exists v, hvf hv f = Some v /\ v <= cost op + agg (map (val hv) (pre op))) ->
  DInv pr hv B last dn'.
Proof.
  intros D I H. destruct D as [A1 A2 A3 A4 A5 A6 A7 A8 A9]. constructor; auto.
  intros o f Ho Do Hp Hf. destruct (I o Do) as [?| ->]; auto.
Qed.

Lemma d_dn pr hv B last (dn dn' : nat -> Prop) : DInv pr hv B last dn -> (forall o, dn' o -> dn o) -> DInv pr hv B last dn'.
Proof. intros [A1 A2 A3 A4 A5 A6 A7 A8 A9] H. constructor; auto. Qed.

(** The end: nothing is queued. *)
Lemma d_end pr hv last dn : DInv pr hv [] last dn -> (forall op, dn op) ->
  (forall f v, hvf hv f = Some v -> In f pr) /\ (forall f v, der f v -> In f pr).
Proof.
  intros D DN. split.
  - intros f v V. destruct (d_cov _ _ _ _ _ D f v V); easy.
  - intros f v H. destruct (d_frontier D DN f v H) as [(I & _)|(f' & u & N & U & _)]; auto.
    destruct (d_cov _ _ _ _ _ D f' u U); easy.
Qed.

(** Counting the unprocessed preconditions. *)
Definition cntun (pr : list nat) (op : nat) : nat := length (filter (fun p => negb (memb p pr)) (pre op)).

Lemma cntun_0 pr op : cntun pr op = 0 <-> forall p, In p (pre op) -> In p pr.
Proof.
  unfold cntun. rewrite length_zero_iff_nil. split.
  - intros H p Ip. destruct (memb p pr) eqn:M; [now apply memb_In|].
    assert (I : In p (filter (fun q => negb (memb q pr)) (pre op))) by (apply filter_In; rewrite M; auto).
    rewrite H in I. easy.
  - intros H. destruct (filter _ _) as [|a l] eqn:E; auto.
    assert (I : In a (filter (fun q => negb (memb q pr)) (pre op))) by (rewrite E; now left).
    apply filter_In in I as (I & M). apply H in I. apply memb_In in I. rewrite I in M. easy.
Qed.

Lemma cntun_in p pr op : NoDup (pre op) -> In p (pre op) -> ~ In p pr -> cntun pr op = S (cntun (p :: pr) op).
Proof.
  intros N I NP. unfold cntun. revert N I. induction (pre op) as [|a l IH]; [easy|]. intros N I.
  inversion N as [|? ? Na Nl]; subst. cbn [filter]. replace (memb a (p :: pr)) with (Nat.eqb a p || memb a pr) by reflexivity.
  destruct (Nat.eqb_spec a p) as [->|D]; cbn [orb].
  - assert (M : memb p pr = false) by now apply memb_false. rewrite M. cbn. f_equal. f_equal.
    apply filter_ext_in. intros b Hb. cbn. destruct (Nat.eqb_spec b p); auto. congruence.
  - destruct I as [->|I]; [congruence|]. specialize (IH Nl I). destruct (memb a pr); cbn [negb length]; lia.
Qed.

Lemma cntun_out p pr op : ~ In p (pre op) -> cntun (p :: pr) op = cntun pr op.
Proof.
  intros I. unfold cntun. f_equal. apply filter_ext_in. intros b Hb. cbn. destruct (Nat.eqb_spec b p); auto. congruence.
Qed.
End DIJ.
