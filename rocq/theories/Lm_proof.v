(** Proofs about the AND/OR landmark generator. *)
From Coq Require Import Sorted.
From Verif Require Import Base Heap_model Heap_proof Arr IntUtil_model IntUtil_thm Pg_model Pg_proof Lm_model.
Local Open Scope Z_scope.

(** ** Writing a list into a container *)
Definition WR (orig out : list Z) (x : list Z * nat * bool) : Prop :=
  let '(l, i, ch) := x in
  i = length out /\ (i <= length l)%nat /\ firstn i l = out /\ (forall k, (i <= k < length l)%nat -> nth k l (-1) = nth k orig (-1)) /\
  (length orig <= length l)%nat /\ (ch = false <-> firstn (length out) orig = out).

Lemma firstn_snoc {A} (d : A) l k : (k < length l)%nat -> firstn (S k) l = firstn k l ++ [nth k l d].
Proof.
  revert k. induction l as [|a l IH]; intros k L; [cbn in L; lia|]. destruct k as [|k]; [reflexivity|]. cbn in L.
  cbn [firstn nth app]. f_equal. apply IH. lia.
Qed.
Lemma nth_get {A} (d : A) l k x : get l k = Some x -> nth k l d = x.
Proof. intros E. apply (nth_error_nth l k d E). Qed.
Lemma get_d {A} (d : A) l k : (k < length l)%nat -> get l k = Some (nth k l d).
Proof. intros L. apply nth_error_nth'. auto. Qed.

Lemma firstn_eq_snoc orig out v : 0 <= v -> firstn (length (out ++ [v])) orig = out ++ [v] <-> firstn (length out) orig = out /\ nth (length out) orig (-1) = v.
Proof.
  intros V. rewrite app_length. cbn [length]. rewrite Nat.add_1_r. destruct (Nat.lt_ge_cases (length out) (length orig)) as [L|L].
  - rewrite (firstn_snoc (-1)) by auto. split.
    + intros E. apply app_inj_tail in E as [E1 E2]. auto.
    + intros [E1 E2]. rewrite E1, E2. reflexivity.
  - rewrite firstn_all2 by lia. rewrite (nth_overflow orig) by auto. split; [|lia]. intros E. apply (f_equal (@length Z)) in E. rewrite app_length in E. cbn in E. lia.
Qed.

Lemma write_ok orig out l i ch v : 0 <= v -> WR orig out (l, i, ch) -> (i < length l)%nat -> exists y, write v (l, i, ch) = Some y /\ WR orig (out ++ [v]) y.
Proof.
  intros V (E & L & F & R & LO & C) Li. unfold write. rewrite (get_d (-1)) by auto. cbn [obind].
  assert (LL : length (out ++ [v]) = S (length out)) by (rewrite app_length; cbn; lia).
  destruct (Z.eqb_spec (nth i l (-1)) v) as [Ev|Ev].
  - exists (l, S i, ch). split; auto. split; [lia|]. split; [lia|]. split; [rewrite (firstn_snoc (-1)), F, Ev by auto; auto|]. split; [intros; apply R; lia|]. split; auto.
    rewrite firstn_eq_snoc by auto. rewrite C. rewrite (R i) in Ev by lia. subst i. tauto.
  - destruct (set_some l i v Li) as (l' & El). rewrite El. cbn [obind]. exists (l', S i, true). split; auto. pose proof (set_length _ _ _ _ El) as Ll.
    split; [lia|]. split; [lia|]. split.
    + rewrite (firstn_snoc (-1)) by lia. rewrite (nth_get (-1) _ _ _ (get_set_eq _ _ _ _ El)). f_equal. rewrite <- F. apply nth_ext with (d := 0) (d' := 0); [rewrite !firstn_length; lia|].
      intros k Hk. rewrite firstn_length in Hk. assert (Q : get l' k = get l k) by (apply (get_set_neq _ _ _ _ _ El); lia).
      rewrite (get_d 0 l') , (get_d 0 l) in Q by lia. assert (Q' : nth k l' 0 = nth k l 0) by congruence. rewrite <- (firstn_skipn i l') in Q'. rewrite app_nth1 in Q' by (rewrite firstn_length; lia).
      rewrite Q'. rewrite <- (firstn_skipn i l) at 1. rewrite app_nth1 by (rewrite firstn_length; lia). auto.
    + split.
      * intros k Hk. rewrite Ll in Hk. rewrite <- (R k) by lia. assert (Q : get l' k = get l k) by (apply (get_set_neq _ _ _ _ _ El); lia).
        rewrite (get_d (-1) l') , (get_d (-1) l) in Q by lia. congruence.
      * split; [lia|]. split; [discriminate|]. rewrite firstn_eq_snoc by auto. intros [_ Q]. elim Ev. rewrite R by lia. subst i. auto.
Qed.

Lemma nth_repeat_m1 n k : nth k (repeat (-1) n) (-1) = -1.
Proof. revert k. induction n as [|n IH]; intros [|k]; cbn; auto. Qed.

Lemma ensure_len l n : (n <= length (ensureSizeCopy l n))%nat /\ (length l <= length (ensureSizeCopy l n))%nat.
Proof. unfold ensureSizeCopy. destruct (Nat.ltb_spec (length l) n) as [L|L]; [rewrite app_length, repeat_length|]; lia. Qed.
Lemma ensure_nth l n k : nth k (ensureSizeCopy l n) (-1) = nth k l (-1).
Proof.
  unfold ensureSizeCopy. destruct (Nat.ltb_spec (length l) n) as [L|L]; auto. destruct (Nat.lt_ge_cases k (length l)) as [Lk|Lk]; [now rewrite app_nth1|].
  rewrite app_nth2 by auto. rewrite nth_repeat_m1. now rewrite nth_overflow.
Qed.
Lemma ensure_firstn l n k : (k <= length l)%nat -> firstn k (ensureSizeCopy l n) = firstn k l.
Proof.
  intros L. unfold ensureSizeCopy. destruct (length l <? n)%nat; auto. rewrite firstn_app. replace (k - length l)%nat with O by lia. cbn. now rewrite app_nil_r.
Qed.

Lemma put_ok orig out x v : 0 <= v -> WR orig out x -> exists y, put v x = Some y /\ WR orig (out ++ [v]) y.
Proof.
  intros V. destruct x as ((l & i) & ch). intros (E & L & F & R & LO & C). unfold put. pose proof (ensure_len l (i + 1)) as [E1 E2].
  apply write_ok; auto; [|lia]. split; auto. split; [lia|]. split; [now rewrite ensure_firstn|]. split; [|split; [lia|auto]].
  intros k Hk. rewrite ensure_nth. destruct (Nat.lt_ge_cases k (length l)) as [Lk|Lk]; [apply R; lia|]. rewrite !nth_overflow; auto. lia.
Qed.

Lemma WR_start orig : WR orig [] (orig, O, false).
Proof. repeat split; auto; lia. Qed.

Lemma writes_ok orig vs : forall out x, (forall v, In v vs -> 0 <= v) -> WR orig out x -> (length out + length vs <= length (fst (fst x)))%nat ->
  exists y, ofold (fun x v => write v x) vs x = Some y /\ WR orig (out ++ vs) y.
Proof.
  induction vs as [|v vs IH]; intros out x V W L; cbn [ofold].
  - exists x. rewrite app_nil_r. auto.
  - destruct x as ((l & i) & ch). cbn [fst length] in L. destruct W as (E & W). subst i.
    destruct (write_ok orig out l (length out) ch v) as (y & Ey & W'); [apply V; now left|split; auto|lia|]. rewrite Ey. cbn [obind].
    destruct (IH (out ++ [v]) y) as (z & Ez & Wz); auto; [intros; apply V; now right| |].
    + rewrite app_length. cbn [length]. assert (Q : length (fst (fst y)) = length l).
      { unfold write in Ey. destruct (get l (length out)) as [w|]; [|discriminate]. cbn [obind] in Ey. destruct (w =? v); [injection Ey as <-; auto|].
        destruct (set l (length out) v) as [l'|] eqn:El; [|discriminate]. injection Ey as <-. cbn. apply (set_length _ _ _ _ El). }
      rewrite Q. lia.
    + exists z. rewrite <- app_assoc in Wz. auto.
Qed.

(** comparison with the old set *)
Lemma WR_changed orig out l r ch num : WR orig out (l, r, ch) -> (num <= length orig)%nat ->
  r = length out /\ firstn r l = out /\ (r <= length l)%nat /\ (ch || negb (num =? r)%nat = false <-> firstn num orig = out).
Proof.
  intros (E & L & F & R & LO & C) N. split; auto. split; auto. split; auto. rewrite Bool.orb_false_iff, Bool.negb_false_iff, Nat.eqb_eq, C. split.
  - intros [Q ->]. congruence.
  - intros Q. assert (Q' : num = length out) by (rewrite <- Q, firstn_length; lia). subst num. rewrite Q. auto.
Qed.

(** ** Sorted lists *)
Definition asc (l : list Z) : Prop := StronglySorted Z.lt l.

Lemma asc_app l1 l2 : asc (l1 ++ l2) <-> asc l1 /\ asc l2 /\ forall x y, In x l1 -> In y l2 -> x < y.
Proof.
  unfold asc. induction l1 as [|a l1 IH]; cbn [app].
  - split; [intros H; repeat split; auto; [constructor|easy]|tauto].
  - split.
    + intros H. inversion H as [|? ? H1 H2]; subst. apply IH in H1 as (Q1 & Q2 & Q3). rewrite Forall_forall in H2. split; [|split; auto].
      * constructor; auto. apply Forall_forall. intros x Hx. apply H2, in_or_app. auto.
      * intros x y [<-|Hx] Hy; [apply H2, in_or_app; auto|auto].
    + intros (H1 & H2 & H3). inversion H1 as [|? ? Q1 Q2]; subst. constructor.
      * apply IH. split; auto. split; auto. intros x y Hx. apply H3. now right.
      * rewrite Forall_forall in Q2. apply Forall_forall. intros x Hx. apply in_app_or in Hx as [Hx|Hx]; [auto|]. apply H3; auto. now left.
Qed.
Lemma asc_one x : asc [x].
Proof. constructor; constructor. Qed.
Lemma asc_nodup l : asc l -> NoDup l.
Proof.
  induction l as [|a l IH]; intros H; [constructor|]. inversion H as [|? ? H1 H2]; subst. constructor; [|apply IH, H1]. intros Q. rewrite Forall_forall in H2. apply H2 in Q. lia.
Qed.
Lemma asc_nth l : asc l -> forall i j, (i <= j)%nat -> (j < length l)%nat -> nth i l 0 <= nth j l 0.
Proof.
  induction l as [|a l IH]; intros H i j Hij Hj; [cbn in Hj; lia|]. inversion H as [|? ? H1 H2]; subst. rewrite Forall_forall in H2. cbn in Hj.
  destruct i as [|i], j as [|j]; cbn [nth]; try lia.
  - assert (In (nth j l 0) l) by (apply nth_In; lia). apply H2 in H0. lia.
  - apply IH; auto; lia.
Qed.
Lemma asc_of_nth l : NoDup l -> (forall i j, (i <= j)%nat -> (j < length l)%nat -> nth i l 0 <= nth j l 0) -> asc l.
Proof.
  induction l as [|a l IH]; intros ND H; [constructor|]. inversion ND as [|? ? N1 N2]; subst. constructor.
  - apply IH; auto. intros i j Hij Hj. apply (H (S i) (S j)); cbn; lia.
  - apply Forall_forall. intros x Hx. destruct (In_nth _ _ 0 Hx) as (k & Lk & Ek). specialize (H O (S k)). cbn in H. rewrite Ek in H. assert (a <> x) by congruence. lia.
Qed.
Lemma asc_ext l1 : forall l2, asc l1 -> asc l2 -> (forall e, In e l1 <-> In e l2) -> l1 = l2.
Proof.
  induction l1 as [|a l1 IH]; intros [|b l2] A1 A2 H; auto.
  - exfalso. destruct (proj2 (H b)); now left.
  - exfalso. destruct (proj1 (H a)); now left.
  - inversion A1 as [|? ? Q1 Q2]; subst. inversion A2 as [|? ? R1 R2]; subst. rewrite Forall_forall in Q2, R2.
    assert (a = b). { destruct (proj1 (H a) (or_introl eq_refl)) as [E|E]; auto. destruct (proj2 (H b) (or_introl eq_refl)) as [E'|E']; auto. apply Q2 in E'. apply R2 in E. lia. }
    subst b. f_equal. apply IH; auto. intros e. split; intros He.
    + destruct (proj1 (H e) (or_intror He)) as [<-|Q]; auto. apply Q2 in He. lia.
    + destruct (proj2 (H e) (or_intror He)) as [<-|Q]; auto. apply R2 in He. lia.
Qed.

(** ** Nodes *)
Definition dn : lmnode := {| n_full := true; n_num := 0; n_lms := [] |}.
Definition nd (ns : list lmnode) (i : nat) : lmnode := nth i ns dn.
Definition fullb (ns : list lmnode) (i : nat) : bool := n_full (nd ns i).
Definition lmof (n : lmnode) : list Z := firstn (n_num n) (n_lms n).
Definition lms (ns : list lmnode) (i : nat) : list Z := lmof (nd ns i).

Record node_ok (nn : nat) (ns : list lmnode) (i : nat) : Prop := {
  no_full : fullb ns i = true -> n_num (nd ns i) = O;
  no_num : (n_num (nd ns i) <= length (n_lms (nd ns i)))%nat;
  no_asc : asc (lms ns i);
  no_rng : forall e, In e (lms ns i) -> exists j, (j < nn)%nat /\ e = Z.of_nat j /\ fullb ns j = false;
  no_own : fullb ns i = false -> In (Z.of_nat i) (lms ns i) }.

Lemma get_nd ns i : (i < length ns)%nat -> get ns i = Some (nd ns i).
Proof. apply get_d. Qed.

Lemma lms_full nn ns i : node_ok nn ns i -> fullb ns i = true -> lms ns i = [].
Proof. intros O F. unfold lms, lmof. rewrite (no_full _ _ _ O F). reflexivity. Qed.

Lemma get_lms n j : (n_num n <= length (n_lms n))%nat -> (j < n_num n)%nat -> get (n_lms n) j = get (lmof n) j.
Proof. intros L Lj. unfold lmof, get. revert j Lj L. generalize (n_num n) (n_lms n). intros k. induction k as [|k IH]; intros l j Lj L; [lia|]. destruct l as [|a l]; [cbn in L; lia|].
  destruct j as [|j]; cbn; auto. apply IH; [lia|cbn in L; lia].
Qed.
Lemma lmof_length n : (n_num n <= length (n_lms n))%nat -> length (lmof n) = n_num n.
Proof. intros L. unfold lmof. rewrite firstn_length. lia. Qed.

Lemma skipn_next {A} (l : list A) a v r : skipn a l = v :: r -> skipn (S a) l = r.
Proof. revert a. induction l as [|x l IH]; intros [|a] E; cbn in E; try discriminate; [injection E as -> ->; reflexivity|]. apply (IH a E). Qed.

(** a loop over the landmarks of a node *)
Lemma lms_fold {A} (f : A -> Z -> option A) n x : (n_num n <= length (n_lms n))%nat ->
  ofold (fun x j => v <- get (n_lms n) j ;; f x v) (seq 0 (n_num n)) x = ofold f (lmof n) x.
Proof.
  intros L. assert (E : forall k l a x, (a + k = n_num n)%nat -> skipn a (lmof n) = l -> ofold (fun x j => v <- get (n_lms n) j ;; f x v) (seq a k) x = ofold f l x).
  { induction k as [|k IH]; intros l a y Ea El.
    - cbn [seq ofold]. rewrite skipn_all2 in El by (rewrite lmof_length; lia). subst l. reflexivity.
    - cbn [seq ofold]. rewrite get_lms by lia. destruct l as [|v l].
      + apply (f_equal (@length Z)) in El. rewrite skipn_length, lmof_length in El by auto. cbn in El. lia.
      + assert (G : get (lmof n) a = Some v). { unfold get. rewrite <- (firstn_skipn a (lmof n)), El. rewrite nth_error_app2 by (rewrite firstn_length; lia). rewrite firstn_length, lmof_length by auto. replace (a - _)%nat with O by lia. reflexivity. }
        rewrite G. cbn [obind]. cbn [ofold]. destruct (f y v) as [z|]; [|reflexivity]. cbn [obind]. apply IH; [lia|].
        apply (skipn_next _ _ _ _ El). }
  apply (E (n_num n) (lmof n) O); auto.
Qed.

Lemma existsb_eqb_In v l : existsb (Z.eqb v) l = true <-> In v l.
Proof. rewrite existsb_exists. split; [intros (y & Hy & E); apply Z.eqb_eq in E; congruence|intros H; exists v; split; auto; apply Z.eqb_refl]. Qed.

Lemma zinsert_ok nn u v : 0 <= v < Z.of_nat nn -> NoDup u -> exists u', zinsert nn u v = Some u' /\ NoDup u' /\ forall e, In e u' <-> In e u \/ e = v.
Proof.
  intros V ND. unfold zinsert. destruct (Z.leb_spec 0 v); [|lia]. destruct (Z.ltb_spec v (Z.of_nat nn)); [|lia]. cbn [andb].
  destruct (existsb (Z.eqb v) u) eqn:E.
  - apply existsb_eqb_In in E. exists u. split; auto. split; auto. intros e. split; auto. intros [Q| ->]; auto.
  - assert (N : ~ In v u) by (intros Q; apply existsb_eqb_In in Q; congruence). exists (u ++ [v]). split; auto. split.
    + apply nodup_app_iff. split; auto. split; [constructor; [easy|constructor]|]. intros e He [<-|[]]. auto.
    + intros e. rewrite in_app_iff. cbn. intuition.
Qed.

Lemma zinserts_ok nn vs : forall u, (forall v, In v vs -> 0 <= v < Z.of_nat nn) -> NoDup u -> exists u', ofold (zinsert nn) vs u = Some u' /\ NoDup u' /\ forall e, In e u' <-> In e u \/ In e vs.
Proof.
  induction vs as [|v vs IH]; intros u V ND; cbn [ofold].
  - exists u. split; auto. split; auto. intros e. cbn. tauto.
  - destruct (zinsert_ok nn u v) as (u1 & E1 & N1 & I1); auto; [apply V; now left|]. rewrite E1. cbn [obind].
    destruct (IH u1) as (u2 & E2 & N2 & I2); auto; [intros; apply V; now right|]. exists u2. split; auto. split; auto. intros e. rewrite I2, I1. cbn. intuition.
Qed.

Record graph_ok (nn : nat) (g : aog) : Prop := {
  go_by : length (g_by g) = nn;
  go_aff : length (g_aff g) = nn;
  go_ty : length (g_ty g) = nn;
  go_lt : forall i c, In c (nth i (g_by g) []) -> (c < nn)%nat;
  go_inv : forall i c, In i (nth c (g_aff g) []) <-> In c (nth i (g_by g) []);
  go_irr : forall i, ~ In i (nth i (g_by g) []) }.

Section GR.
Variables (al : nat -> list Z) (nn : nat) (rch : list bool) (g : aog).
Hypothesis AL : forall n, length (al n) = n.
Hypothesis RL : length rch = nn.
Hypothesis GO : graph_ok nn g.

Definition kids (i : nat) : list nat := nth i (g_by g) [].
Definition kid (i c : nat) : Prop := In c (kids i) /\ bat rch c = true.
Definition ty (i : nat) : lmtype := nth i (g_ty g) INIT.

(** what a node should contain: the full set, or these elements *)
Definition FF (ns : list lmnode) (i : nat) : Prop :=
  match ty i with
  | AND => exists c, kid i c /\ fullb ns c = true
  | OR => forall c, kid i c -> fullb ns c = true
  | INIT => False
  end.
Definition FM (ns : list lmnode) (i : nat) (e : Z) : Prop :=
  e = Z.of_nat i \/
  match ty i with
  | AND => exists c, kid i c /\ In e (lms ns c)
  | OR => forall c, kid i c -> fullb ns c = false -> In e (lms ns c)
  | INIT => False
  end.

Record upd_ok (ns : list lmnode) (i : nat) (ch : bool) (n' : lmnode) : Prop := {
  uo_full : n_full n' = true <-> FF ns i;
  uo_same : n_full n' = true -> n' = nd ns i /\ ch = false;
  uo_num : (n_num n' <= length (n_lms n'))%nat;
  uo_asc : asc (lmof n');
  uo_lms : n_full n' = false -> forall e, In e (lmof n') <-> FM ns i e;
  uo_unch : ch = false -> n_full n' = fullb ns i /\ lmof n' = lms ns i;
  uo_ch : ch = true -> lmof n' <> lms ns i }.

Section UPD.
Variable ns : list lmnode.
Hypothesis LN : length ns = nn.
Hypothesis OK : forall i, (i < nn)%nat -> node_ok nn ns i.

Lemma kid_lt i c : In c (kids i) -> (c < nn)%nat.
Proof. apply (go_lt _ _ GO). Qed.

Lemma lms_rng i : (i < nn)%nat -> forall v, In v (lms ns i) -> 0 <= v < Z.of_nat nn.
Proof. intros Li v Hv. destruct (no_rng _ _ _ (OK i Li) v Hv) as (j & Lj & -> & _). lia. Qed.

Lemma collect_ok l : (forall c, In c l -> (c < nn)%nat) ->
  (collect rch ns l = Some None /\ exists c, In c l /\ bat rch c = true /\ fullb ns c = true) \/
  (collect rch ns l = Some (Some (filter (bat rch) l)) /\ forall c, In c l -> bat rch c = true -> fullb ns c = false).
Proof.
  induction l as [|c l IH]; intros H; cbn [collect filter].
  - right. split; [auto|easy].
  - assert (Lc : (c < nn)%nat) by (apply H; now left). rewrite get_bat by lia. cbn [obind]. rewrite get_nd by lia. cbn [obind]. specialize (IH (fun x Hx => H x (or_intror Hx))).
    destruct (bat rch c) eqn:Eb.
    + fold (fullb ns c). destruct (fullb ns c) eqn:Ef.
      * left. split; auto. exists c. split; [now left|auto].
      * destruct IH as [[E Q]|[E Q]]; rewrite E; cbn [obind].
        -- left. split; auto. destruct Q as (x & Hx & Q). exists x. split; [now right|auto].
        -- right. split; auto. intros x [<-|Hx]; auto.
    + destruct IH as [[E Q]|[E Q]]; rewrite E.
      * left. split; auto. destruct Q as (x & Hx & Q). exists x. split; [now right|auto].
      * right. split; auto. intros x [<-|Hx]; auto. congruence.
Qed.

Lemma insert_lms_ok i u : (i < nn)%nat -> NoDup u -> exists u', insert_lms nn (nd ns i) u = Some u' /\ NoDup u' /\ forall e, In e u' <-> In e u \/ In e (lms ns i).
Proof.
  intros Li ND. unfold insert_lms. rewrite lms_fold by apply (no_num _ _ _ (OK i Li)). apply zinserts_ok; auto. now apply lms_rng.
Qed.

Lemma insert_all_ok l : forall u, (forall c, In c l -> (c < nn)%nat) -> NoDup u ->
  exists u', ofold (fun s c => n <- get ns c ;; insert_lms nn n s) l u = Some u' /\ NoDup u' /\ forall e, In e u' <-> In e u \/ exists c, In c l /\ In e (lms ns c).
Proof.
  induction l as [|c l IH]; intros u H ND; cbn [ofold].
  - exists u. split; auto. split; auto. intros e. split; auto. intros [Q|(c & [] & _)]; auto.
  - assert (Lc : (c < nn)%nat) by (apply H; now left). rewrite get_nd by lia. cbn [obind].
    destruct (insert_lms_ok c u Lc ND) as (u1 & E1 & N1 & I1). rewrite E1. cbn [obind].
    destruct (IH u1) as (u2 & E2 & N2 & I2); auto; [intros; apply H; now right|]. exists u2. split; auto. split; auto. intros e. rewrite I2, I1. split.
    + intros [[Q|Q]|(x & Hx & Q)]; auto; right; [exists c|exists x]; split; auto; [now left|now right].
    + intros [Q|(x & [<-|Hx] & Q)]; auto. right. exists x. auto.
Qed.

Lemma sort_whole (l : list Z) : NoDup l -> exists l', sort l 0 (length l) = Some l' /\ asc l' /\ forall e, In e l' <-> In e l.
Proof.
  intros ND. destruct (sort_correct l 0 (length l) ltac:(lia)) as (l' & E & Ll & Pm & _ & S). exists l'. split; auto.
  assert (Pm' : Permutation l l').
  { rewrite slice_full in Pm. rewrite <- Ll in Pm. rewrite slice_full in Pm. auto. }
  assert (ND' : NoDup l') by (eapply Permutation_NoDup; eauto). split.
  - apply asc_of_nth; auto. intros i j Hij Hj. apply S; lia.
  - intros e. split; apply Permutation_in; auto. now symmetry.
Qed.

Lemma set0_ok (l : list Z) v : (1 <= length l)%nat -> exists l', set l 0 v = Some l' /\ (1 <= length l')%nat /\ firstn 1 l' = [v].
Proof. intros L. destruct l as [|a l]; [cbn in L; lia|]. exists (v :: l). cbn. repeat split; auto; lia. Qed.

Lemma not_self_ok i : (i < nn)%nat -> exists ch, not_self i (nd ns i) = Some ch /\ (ch = false <-> lms ns i = [Z.of_nat i]) /\ (ch = false -> fullb ns i = false).
Proof.
  intros Li. pose proof (OK i Li) as O. pose proof (no_num _ _ _ O) as L. unfold not_self. fold (fullb ns i). destruct (fullb ns i) eqn:F; cbn [negb andb].
  - exists true. split; auto. split; [|discriminate]. rewrite (lms_full _ _ _ O F). split; discriminate.
  - destruct (Nat.eqb_spec (n_num (nd ns i)) 1) as [E|E].
    + destruct (n_lms (nd ns i)) as [|w l] eqn:El; [cbn in L; lia|]. unfold lms, lmof. rewrite E, El. cbn. exists (negb (w =? Z.of_nat i)). split; auto. split; auto.
      rewrite Bool.negb_false_iff, Z.eqb_eq. split; congruence.
    + exists true. split; auto. split; [|discriminate]. split; [discriminate|]. intros Q. apply (f_equal (@length Z)) in Q. unfold lms in Q. rewrite lmof_length in Q by auto. cbn in Q. lia.
Qed.

Lemma own_set_upd i l' ch : (i < nn)%nat -> (1 <= length l')%nat -> firstn 1 l' = [Z.of_nat i] -> ~ FF ns i -> (forall e, FM ns i e <-> e = Z.of_nat i) ->
  (ch = false <-> lms ns i = [Z.of_nat i]) -> (ch = false -> fullb ns i = false) -> upd_ok ns i ch {| n_full := false; n_num := 1; n_lms := l' |}.
Proof.
  intros Li L1 E1 NF EM C1 C2. constructor; cbn [n_full n_num n_lms]; auto.
  - split; [discriminate|tauto].
  - discriminate.
  - unfold lmof. cbn [n_num n_lms]. rewrite E1. apply asc_one.
  - intros _ e. unfold lmof. cbn [n_num n_lms]. rewrite E1, EM. cbn. intuition.
  - intros Q. unfold lmof. cbn [n_num n_lms]. rewrite E1. split; [symmetry; auto|symmetry; now apply C1].
  - intros Q. unfold lmof. cbn [n_num n_lms]. rewrite E1. intros Q'. symmetry in Q'. apply C1 in Q'. congruence.
Qed.

Lemma full_same i ch : (fullb ns i = false -> ~ FF ns i) -> FF ns i -> ch = negb (fullb ns i) ->
  {| n_full := true; n_num := n_num (nd ns i); n_lms := n_lms (nd ns i) |} = nd ns i /\ ch = false /\ fullb ns i = true.
Proof.
  intros M F ->. assert (Q : fullb ns i = true) by (destruct (fullb ns i); auto; elim M; auto). split; [|split; auto; rewrite Q; auto].
  unfold fullb in Q. destruct (nd ns i) as [b k l]. cbn in Q. subst b. reflexivity.
Qed.

Lemma full_upd i : (i < nn)%nat -> (fullb ns i = false -> ~ FF ns i) -> FF ns i ->
  upd_ok ns i (negb (fullb ns i)) {| n_full := true; n_num := n_num (nd ns i); n_lms := n_lms (nd ns i) |}.
Proof.
  intros Li M F. destruct (full_same i _ M F eq_refl) as (E1 & E2 & E3). rewrite E1, E2. pose proof (OK i Li) as O. constructor; auto.
  - split; auto.
  - apply (no_num _ _ _ O).
  - apply (no_asc _ _ _ O).
  - intros Q. fold (fullb ns i) in Q. congruence.
  - discriminate.
Qed.

Lemma self_ok i : (i < nn)%nat -> ty i = INIT -> exists ch n', setToSelfLM ns i = Some (ch, n') /\ upd_ok ns i ch n'.
Proof.
  intros Li T. unfold setToSelfLM. rewrite get_nd by lia. cbn [obind]. destruct (not_self_ok i Li) as (ch & E & C1 & C2). rewrite E. cbn [obind].
  assert (NF : ~ FF ns i) by (unfold FF; rewrite T; auto). assert (EM : forall e, FM ns i e <-> e = Z.of_nat i) by (intros e; unfold FM; rewrite T; tauto).
  destruct ch.
  - destruct (set0_ok (ensureSizeCopy (n_lms (nd ns i)) 1) (Z.of_nat i)) as (l' & E' & L1 & F1); [apply ensure_len|]. rewrite E'. cbn [obind].
    eexists _, _. split; [reflexivity|]. now apply own_set_upd.
  - exists false, (nd ns i). split; auto. pose proof (OK i Li) as O. specialize (C2 eq_refl). pose proof (proj1 C1 eq_refl) as C3. constructor; fold (fullb ns i); fold (lms ns i); auto.
    + rewrite C2. split; [discriminate|tauto].
    + apply (no_num _ _ _ O).
    + apply (no_asc _ _ _ O).
    + intros _ e. rewrite C3, EM. cbn. intuition.
    + discriminate.
Qed.

Lemma resize_len l n : (n <= length (resizeNOCOPY l n))%nat.
Proof. unfold resizeNOCOPY. destruct (Nat.ltb_spec (length l) n); [rewrite repeat_length|]; lia. Qed.

(** the comparison after resizing *)
Lemma resize_changed orig out l r ch num : WR (resizeNOCOPY orig (length out)) out (l, r, ch) -> (num <= length orig)%nat -> out <> [] -> (forall v, In v out -> 0 <= v) ->
  (ch || negb (num =? length out)%nat = false <-> firstn num orig = out).
Proof.
  intros W N NE P. unfold resizeNOCOPY in W. destruct (Nat.ltb_spec (length orig) (length out)) as [L|L].
  - destruct W as (_ & _ & _ & _ & _ & C). split.
    + intros Q. apply Bool.orb_false_iff in Q as [Q _]. apply C in Q. destruct out as [|v out]; [congruence|]. cbn in Q. exfalso. assert (v = -1) by congruence. specialize (P v (or_introl eq_refl)). lia.
    + intros Q. apply (f_equal (@length Z)) in Q. rewrite firstn_length in Q. lia.
  - destruct (WR_changed _ _ _ _ _ num W N) as (E & _ & _ & C). subst r. exact C.
Qed.

Lemma expl_upd i out l r ch : (i < nn)%nat -> r = length out -> firstn r l = out -> (r <= length l)%nat -> asc out -> ~ FF ns i -> (forall e, In e out <-> FM ns i e) ->
  (ch = false <-> lms ns i = out) -> upd_ok ns i ch {| n_full := false; n_num := r; n_lms := l |}.
Proof.
  intros Li E1 E2 E3 A NF EM C. constructor; cbn [n_full n_num n_lms]; auto; try unfold lmof; cbn [n_num n_lms]; rewrite ?E2; auto.
  - split; [discriminate|tauto].
  - discriminate.
  - intros Q. apply C in Q. split; [|congruence]. symmetry. destruct (fullb ns i) eqn:F; auto. rewrite (lms_full _ _ _ (OK i Li) F) in Q. exfalso.
    assert (Q' : In (Z.of_nat i) out) by (apply EM; now left). rewrite <- Q in Q'. destruct Q'.
  - intros Q Q'. symmetry in Q'. apply C in Q'. congruence.
Qed.

Lemma union_ok i : (i < nn)%nat -> ty i = AND -> (fullb ns i = false -> ~ FF ns i) -> exists ch n', setUnion nn rch ns i (kids i) = Some (ch, n') /\ upd_ok ns i ch n'.
Proof.
  intros Li T M. unfold setUnion. rewrite get_nd by lia. cbn [obind]. pose proof (OK i Li) as OI.
  destruct (collect_ok (kids i)) as [[E (c & H1 & H2 & H3)]|[E Q]]; [apply kid_lt| |]; rewrite E; cbn [obind].
  - eexists _, _. split; [reflexivity|]. apply full_upd; auto. unfold FF. rewrite T. exists c. split; auto. split; auto.
  - assert (NF : ~ FF ns i). { unfold FF. rewrite T. intros (c & [K1 K2] & K3). rewrite (Q c K1 K2) in K3. discriminate. }
    assert (KE : forall c, In c (filter (bat rch) (kids i)) <-> kid i c) by (intros c; rewrite filter_In; reflexivity).
    destruct (filter (bat rch) (kids i)) as [|c0 L] eqn:EL.
    + destruct (not_self_ok i Li) as (ch & E' & C1 & C2). rewrite E'. cbn [obind].
      destruct (set0_ok (resizeNOCOPY (n_lms (nd ns i)) 1) (Z.of_nat i)) as (l' & E'' & L1 & F1); [apply resize_len|]. rewrite E''. cbn [obind].
      eexists _, _. split; [reflexivity|]. apply own_set_upd; auto. intros e. unfold FM. rewrite T. split; auto. intros [?|(c & K & _)]; auto. apply KE in K. destruct K.
    + destruct (zinsert_ok nn [] (Z.of_nat i)) as (s0 & E0 & N0 & I0); [lia|constructor|]. rewrite E0. cbn [obind].
      destruct (insert_all_ok (c0 :: L) s0) as (s1 & E1 & N1 & I1); auto; [intros c Hc; apply KE in Hc as [Hc _]; eapply kid_lt; eauto|]. rewrite E1. cbn [obind].
      destruct (sort_whole s1 N1) as (s2 & E2 & A2 & I2). rewrite E2. cbn [obind].
      assert (EM : forall e, In e s2 <-> FM ns i e).
      { intros e. rewrite I2, I1, I0. unfold FM. rewrite T. cbn [In]. split.
        - intros [[[]|H]|(c & H1 & H2)]; auto. right. exists c. split; auto. now apply KE.
        - intros [H|(c & H1 & H2)]; auto. right. exists c. split; auto. now apply KE. }
      assert (P2 : forall v, In v s2 -> 0 <= v). { intros v Hv. apply EM in Hv. unfold FM in Hv. rewrite T in Hv. destruct Hv as [->|(c & [K _] & Hv)]; [lia|]. eapply lms_rng; [|exact Hv]. eapply kid_lt; eauto. }
      assert (NE : s2 <> []). { intros ->. apply (EM (Z.of_nat i)). now left. }
      destruct (writes_ok (resizeNOCOPY (n_lms (nd ns i)) (length s2)) s2 [] (resizeNOCOPY (n_lms (nd ns i)) (length s2), O, false)) as (((l & r) & ch) & E3 & W); auto; [apply WR_start|cbn [fst length]; apply resize_len|].
      rewrite E3. cbn [obind]. eexists _, _. split; [reflexivity|]. cbn [app] in W.
      pose proof (resize_changed _ _ _ _ _ (n_num (nd ns i)) W (no_num _ _ _ OI) NE P2) as C. destruct W as (W1 & W2 & W3 & _). rewrite <- W1. rewrite <- W1 in C.
      apply expl_upd with (out := s2); auto.
Qed.

Definition sz (c : nat) : Z := Z.of_nat (getSize nn (nd ns c)).

Lemma fill_ok l : forall h B, (forall c, In c l -> (c < nn)%nat) -> PQz h B ->
  exists h' B', fill al nn rch ns l h = Some h' /\ PQz h' B' /\ Permutation B' (map (fun c => (sz c, c)) (filter (bat rch) l) ++ B).
Proof.
  induction l as [|c l IH]; intros h B H PQ; unfold fill; cbn [ofold filter].
  - exists h, B. split; auto.
  - assert (Lc : (c < nn)%nat) by (apply H; now left). rewrite get_bat by lia. cbn [obind]. destruct (bat rch c) eqn:Eb.
    + rewrite get_nd by lia. cbn [obind]. destruct (PQz_add al h B (sz c) c AL PQ) as (h1 & E1 & P1); [unfold sz, int_min; lia|]. fold (sz c). rewrite E1. cbn [obind].
      destruct (IH h1 ((sz c, c) :: B)) as (h' & B' & E' & P' & Q'); auto; [intros; apply H; now right|]. exists h', B'. split; auto. split; auto.
      rewrite Q'. cbn [map app]. symmetry. apply Permutation_middle.
    + apply IH; auto. intros; apply H; now right.
Qed.

Lemma drain_ok k : forall h B, PQz h B -> k = length B -> exists L h', drain k h = Some (L, h') /\ HInv h' /\ Permutation L (map snd B) /\
  match L with [] => True | c :: _ => exists kc, In (kc, c) B /\ forall e, In e B -> kc <= fst e end.
Proof.
  induction k as [|k IH]; intros h B PQ Ek; cbn [drain].
  - destruct B; [|discriminate]. exists [], h. split; auto. split; [apply PQ|]. split; auto.
  - destruct (PQz_pop h B PQ) as (kc & c & h1 & B1 & _ & E2 & E3 & P1 & Pm & Mn); [destruct B; [discriminate|congruence]|]. rewrite E2. cbn [obind]. rewrite E3. cbn [obind].
    destruct (IH h1 B1 P1) as (L & h' & E & Hh & Q & _); [apply Permutation_length in Pm; cbn in Pm; lia|]. rewrite E. cbn [obind].
    exists (c :: L), h'. rewrite Nat2Z.id. split; auto. split; auto. split.
    + rewrite (Permutation_map snd Pm). cbn. now constructor.
    + exists kc. split; auto. eapply Permutation_in; [symmetry; exact Pm|now left].
Qed.

Lemma PQz_size h B : PQz h B -> heap_size h = length B.
Proof. intros (H & Pm). apply Permutation_length in Pm. rewrite elems_length, map_length in Pm. auto. Qed.

Lemma contains_ok c v : (c < nn)%nat -> exists b, contains (nd ns c) v = Some b /\ (b = true <-> fullb ns c = true \/ In v (lms ns c)).
Proof.
  intros Lc. pose proof (OK c Lc) as OI. unfold contains. fold (fullb ns c). destruct (fullb ns c) eqn:F.
  - exists true. split; auto. split; auto.
  - pose proof (no_num _ _ _ OI) as L. assert (N : forall i, (i < n_num (nd ns c))%nat -> nth i (n_lms (nd ns c)) 0 = nth i (lms ns c) 0).
    { intros i Hi. pose proof (get_lms (nd ns c) i L Hi) as Q. rewrite (get_d 0), (get_d 0) in Q by (rewrite ?lmof_length; lia). unfold lms. congruence. }
    destruct (containsInt_correct (n_lms (nd ns c)) 0 (n_num (nd ns c)) v L) as (b & E & Q).
    + intros i j _ Hij Hj. rewrite !N by lia. apply asc_nth; [apply (no_asc _ _ _ OI)|auto|]. unfold lms. rewrite lmof_length; lia.
    + exists b. split; auto. rewrite Q. split.
      * intros (i & Hi & Ei). right. rewrite <- Ei, N by lia. apply nth_In. unfold lms. rewrite lmof_length; lia.
      * intros [H|H]; [discriminate|]. destruct (In_nth _ _ 0 H) as (i & Hi & Ei). exists i. unfold lms in Hi. rewrite lmof_length in Hi by auto. split; [lia|]. rewrite N by lia. auto.
Qed.

Definition allc (l : list nat) (v : Z) : Prop := forall c, In c l -> fullb ns c = true \/ In v (lms ns c).

Lemma all_contain_ok l v : (forall c, In c l -> (c < nn)%nat) -> exists b, all_contain ns l v = Some b /\ (b = true <-> allc l v).
Proof.
  induction l as [|c l IH]; intros H; cbn [all_contain].
  - exists true. split; auto. split; [intros _ c []|auto].
  - assert (Lc : (c < nn)%nat) by (apply H; now left). rewrite get_nd by lia. cbn [obind]. destruct (contains_ok c v Lc) as (b & E & Q). rewrite E. cbn [obind]. destruct b.
    + destruct IH as (b' & E' & Q'); [intros; apply H; now right|]. exists b'. split; auto. rewrite Q'. split; intros A x Hx; [destruct Hx as [<-|Hx]; [now apply Q|auto]|apply A; now right].
    + exists false. split; auto. split; [discriminate|]. intros A. apply Q. apply A. now left.
Qed.

Definition INV (orig : list Z) (own : nat) (oth : list nat) (p out : list Z) (x : list Z * nat * bool * bool) : Prop :=
  let '(y, added) := x in
  WR orig out y /\ asc out /\ (forall e, In e out <-> (e = Z.of_nat own /\ added = true) \/ (In e p /\ e <> Z.of_nat own /\ allc oth e)) /\
  (added = false -> forall z, In z p -> z < Z.of_nat own) /\ (forall e, In e out -> exists z, In z p /\ e <= z) .

Lemma inter_step_ok orig own oth p out x v : (forall c, In c oth -> (c < nn)%nat) -> INV orig own oth p out x -> asc (p ++ [v]) -> 0 <= v ->
  exists x' out', inter_step ns own oth x v = Some x' /\ INV orig own oth (p ++ [v]) out' x'.
Proof.
  intros HO. destruct x as (y & added). intros (W & A & EM & AD & MX) AP V. apply asc_app in AP as (_ & _ & AP). assert (LT : forall z, In z p -> z < v) by (intros z Hz; apply AP; auto; now left).
  assert (LO : forall e, In e out -> e < v). { intros e He. destruct (MX e He) as (z & Hz & Q). specialize (LT z Hz). lia. }
  assert (MX' : forall e, In e out -> exists z, In z (p ++ [v]) /\ e <= z). { intros e He. destruct (MX e He) as (z & Hz & Q). exists z. split; auto. apply in_or_app. auto. }
  assert (IV : In v (p ++ [v])) by (apply in_or_app; right; now left).
  unfold inter_step. destruct (Z.eqb_spec v (Z.of_nat own)) as [Ev|Ev]; cbn [obind].
  - cbn [negb andb obind]. destruct (put_ok orig out y v V W) as (y' & E & W'). rewrite E. cbn [obind].
    assert (added = false). { destruct added; auto. assert (Q : In (Z.of_nat own) out) by (apply EM; auto). apply LO in Q. lia. } subst added.
    eexists _, _. split; [reflexivity|]. split; [exact W'|]. split; [apply asc_app; split; auto; split; [apply asc_one|]; intros a b Ha [<-|[]]; auto|]. split; [|split].
    + intros e. rewrite in_app_iff, EM. cbn [In]. split.
      * intros [[[_ Q]|(Q1 & Q2 & Q3)]|[<-|[]]]; [discriminate| |auto]. right. split; auto. apply in_or_app. auto.
      * intros [[-> _]|(Q1 & Q2 & Q3)]; auto. left. right. split; auto. apply in_app_or in Q1 as [Q1|[<-|[]]]; auto. congruence.
    + discriminate.
    + intros e He. apply in_app_or in He as [He|[<-|[]]]; auto. exists v. split; auto. lia.
  - destruct (all_contain_ok oth v HO) as (b & Eb & Qb). rewrite Eb. cbn [obind].
    assert (S1 : exists y1 out1 added1, (if negb added && (Z.of_nat own <? v) then y' <- put (Z.of_nat own) y ;; Some (y', true) else Some (y, added)) = Some (y1, added1) /\
              WR orig out1 y1 /\ asc out1 /\ (forall e, In e out1 <-> (e = Z.of_nat own /\ added1 = true) \/ (In e p /\ e <> Z.of_nat own /\ allc oth e)) /\
              (added1 = false -> (forall z, In z p -> z < Z.of_nat own) /\ v < Z.of_nat own) /\ (forall e, In e out1 -> e < v)).
    { destruct added; cbn [negb andb].
      - exists y, out, true. split; auto. split; auto. split; auto. split; auto. split; auto. discriminate.
      - specialize (AD eq_refl). destruct (Z.ltb_spec (Z.of_nat own) v) as [L|L]; [|exists y, out, false; split; auto; split; auto; split; auto; split; auto; split; auto; intros _; split; auto; lia].
        destruct (put_ok orig out y (Z.of_nat own) ltac:(lia) W) as (y' & E & W'). rewrite E. cbn [obind]. exists y', (out ++ [Z.of_nat own]), true. split; auto. split; auto.
        assert (LO' : forall e, In e out -> e < Z.of_nat own). { intros e He. apply EM in He as [[_ Q]|(Q & _)]; [discriminate|]. auto. }
        split; [apply asc_app; split; auto; split; [apply asc_one|]; intros a c Ha [<-|[]]; auto|]. split; [|split; [discriminate|]].
        + intros e. rewrite in_app_iff, EM. cbn [In]. split.
          * intros [[[_ Q]|Q]|[<-|[]]]; [discriminate|auto|auto].
          * intros [[-> _]|Q]; auto.
        + intros e He. apply in_app_or in He as [He|[<-|[]]]; auto. }
    destruct S1 as (y1 & out1 & added1 & E1 & W1 & A1 & EM1 & AD1 & LO1). rewrite E1. cbn [obind]. destruct b.
    + destruct (put_ok orig out1 y1 v V W1) as (y' & E & W'). rewrite E. cbn [obind]. eexists _, _. split; [reflexivity|]. split; [exact W'|].
      split; [apply asc_app; split; auto; split; [apply asc_one|]; intros a c Ha [<-|[]]; auto|]. split; [|split].
      * intros e. rewrite in_app_iff, EM1, in_app_iff. cbn [In]. split.
        -- intros [[Q|(Q1 & Q2)]|[<-|[]]]; auto. right. split; auto. split; auto. now apply Qb.
        -- intros [Q|([Q1|[<-|[]]] & Q2)]; auto.
      * intros Q z Hz. destruct (AD1 Q). apply in_app_or in Hz as [Hz|[<-|[]]]; auto.
      * intros e He. exists v. split; auto. apply in_app_or in He as [He|[<-|[]]]; [apply LO1 in He|]; lia.
    + eexists _, _. split; [reflexivity|]. split; [exact W1|]. split; auto. split; [|split].
      * intros e. rewrite EM1, in_app_iff. cbn [In]. split.
        -- intros [Q|(Q1 & Q2)]; auto.
        -- intros [Q|([Q1|[<-|[]]] & Q2 & Q3)]; auto. apply Qb in Q3. discriminate.
      * intros Q z Hz. destruct (AD1 Q). apply in_app_or in Hz as [Hz|[<-|[]]]; auto.
      * intros e He. exists v. split; auto. apply LO1 in He. lia.
Qed.

Lemma inter_fold_ok orig own oth vs : forall p out x, (forall c, In c oth -> (c < nn)%nat) -> INV orig own oth p out x -> asc (p ++ vs) -> (forall v, In v vs -> 0 <= v) ->
  exists x' out', ofold (inter_step ns own oth) vs x = Some x' /\ INV orig own oth (p ++ vs) out' x'.
Proof.
  induction vs as [|v vs IH]; intros p out x HO I A V; cbn [ofold].
  - exists x, out. rewrite app_nil_r. auto.
  - replace (p ++ v :: vs) with ((p ++ [v]) ++ vs) in A |- * by (rewrite <- app_assoc; reflexivity).
    destruct (inter_step_ok orig own oth p out x v HO I) as (x' & out' & E & I'); [apply asc_app in A; apply A|apply V; now left|]. rewrite E. cbn [obind]. apply (IH _ out'); auto. intros; apply V; now right.
Qed.

Lemma size_expl c : (c < nn)%nat -> fullb ns c = false -> (forall c', (c' < nn)%nat -> fullb ns c' = true -> sz c < sz c') /\ sz c = Z.of_nat (n_num (nd ns c)).
Proof.
  intros Lc F. pose proof (OK c Lc) as OI. unfold sz, getSize. fold (fullb ns c). rewrite F. split; auto. intros c' Lc' F'. fold (fullb ns c'). rewrite F'.
  apply inj_lt. rewrite <- (lmof_length _ (no_num _ _ _ OI)). fold (lms ns c).
  assert (ND : NoDup (c' :: map Z.to_nat (lms ns c))).
  { constructor.
    - rewrite in_map_iff. intros (e & Ee & He). destruct (no_rng _ _ _ OI e He) as (j & Lj & -> & Fj). rewrite Nat2Z.id in Ee. congruence.
    - pose proof (asc_nodup _ (no_asc _ _ _ OI)) as ND. assert (P : forall e, In e (lms ns c) -> 0 <= e) by (intros e He; destruct (lms_rng c Lc e He); lia). induction (lms ns c) as [|a l IH]; cbn; [constructor|].
      inversion ND as [|? ? N1 N2]; subst. constructor; [|apply IH; auto; intros; apply P; now right]. rewrite in_map_iff. intros (b & Eb & Hb). apply N1. replace a with b; auto.
      pose proof (P a (or_introl eq_refl)). pose proof (P b (or_intror Hb)). lia. }
  apply NoDup_incl_length with (l' := seq 0 nn) in ND.
  - cbn in ND. rewrite map_length, seq_length in ND. lia.
  - intros x [<-|Hx]; [apply in_seq; lia|]. apply in_map_iff in Hx as (e & <- & He). destruct (lms_rng c Lc e He). apply in_seq. lia.
Qed.

Lemma inter_ok i h : (i < nn)%nat -> ty i = OR -> HInv h -> (fullb ns i = false -> ~ FF ns i) ->
  exists ch n' h', setIntersection al nn rch ns i (kids i) h = Some (ch, n', h') /\ HInv h' /\ upd_ok ns i ch n'.
Proof.
  intros Li T HI M. unfold setIntersection. rewrite get_nd by lia. cbn [obind]. pose proof (OK i Li) as OI.
  destruct (fill_ok (kids i) (heap_clear h) []) as (h1 & B & E1 & P1 & Q1); [apply kid_lt|now apply PQz_clear|]. rewrite E1. cbn [obind].
  rewrite (PQz_size _ _ P1). destruct (drain_ok (length B) h1 B P1 eq_refl) as (L & h2 & E2 & H2 & Q2 & Mn). rewrite E2. cbn [obind].
  rewrite app_nil_r in Q1.
  assert (KE : forall c, In c L <-> kid i c).
  { intros c. unfold kid. rewrite <- (filter_In (bat rch) c (kids i)). replace (filter (bat rch) (kids i)) with (map snd (map (fun c => (sz c, c)) (filter (bat rch) (kids i)))) by (rewrite map_map; apply map_id).
    split; apply Permutation_in; [rewrite Q2; now apply Permutation_map|symmetry; rewrite Q2; now apply Permutation_map]. }
  assert (BE : forall e, In e B <-> kid i (snd e) /\ fst e = sz (snd e)).
  { intros (k & c). cbn. split.
    - intros H. apply (Permutation_in _ Q1) in H. apply in_map_iff in H as (c' & E & H). injection E as <- <-. apply filter_In in H. auto.
    - intros [H ->]. apply (Permutation_in _ (Permutation_sym Q1)). apply in_map_iff. exists c. split; auto. apply filter_In. auto. }
  destruct L as [|c oth].
  - eexists _, _, _. split; [reflexivity|]. split; auto. apply full_upd; auto. unfold FF. rewrite T. intros c K. apply KE in K. destruct K.
  - destruct Mn as (kc & Kc & Mn). apply BE in Kc as [Kc Ek]. cbn in Kc, Ek. assert (Lc : (c < nn)%nat) by (eapply kid_lt; apply Kc). rewrite get_nd by lia. cbn [obind]. fold (fullb ns c).
    destruct (fullb ns c) eqn:Fc.
    + eexists _, _, _. split; [reflexivity|]. split; auto. apply full_upd; auto. unfold FF. rewrite T. intros d K. destruct (fullb ns d) eqn:Fd; auto. exfalso.
      assert (Ld : (d < nn)%nat) by (eapply kid_lt; apply K). pose proof (proj1 (size_expl d Ld Fd) c Lc Fc) as Q. specialize (Mn (sz d, d)). cbn in Mn. rewrite BE in Mn. cbn in Mn. specialize (Mn (conj K eq_refl)). lia.
    + pose proof (OK c Lc) as Oc. rewrite (lms_fold (inter_step ns i oth)) by apply (no_num _ _ _ Oc). fold (lms ns c).
      assert (HO : forall d, In d oth -> (d < nn)%nat) by (intros d Hd; eapply kid_lt; apply KE; right; exact Hd).
      destruct (inter_fold_ok (n_lms (nd ns i)) i oth (lms ns c) [] [] (n_lms (nd ns i), O, false, false) HO) as ((y & added) & out & E3 & W & A & EM & AD & MX).
      { split; [apply WR_start|]. split; [constructor|]. split; [|split; [easy|easy]]. intros e. split; [easy|]. intros [[_ ?]|[[] _]]. discriminate. }
      { apply (no_asc _ _ _ Oc). }
      { intros v Hv. eapply lms_rng; eauto. }
      rewrite E3. cbn [obind]. cbn [app] in *.
      assert (NF : ~ FF ns i). { unfold FF. rewrite T. intros Q. rewrite (Q c Kc) in Fc. discriminate. }
      assert (S1 : exists l r ch out', (if added : bool then Some y else put (Z.of_nat i) y) = Some (l, r, ch) /\ WR (n_lms (nd ns i)) out' (l, r, ch) /\ asc out' /\ forall e, In e out' <-> e = Z.of_nat i \/ (In e (lms ns c) /\ allc oth e)).
      { destruct added.
        - destruct y as ((l & r) & ch). exists l, r, ch, out. split; auto. split; auto. split; auto. intros e. rewrite EM. split.
          + intros [[-> _]|(Q & _ & Q')]; auto.
          + intros [->|[Q Q']]; auto. destruct (Z.eq_dec e (Z.of_nat i)) as [->|N]; auto.
        - destruct (put_ok _ out y (Z.of_nat i) ltac:(lia) W) as (((l & r) & ch) & E & W'). exists l, r, ch, (out ++ [Z.of_nat i]). split; auto. split; auto. specialize (AD eq_refl).
          assert (LO : forall e, In e out -> e < Z.of_nat i). { intros e He. apply EM in He as [[_ Q]|(Q & _)]; [discriminate|]. auto. }
          split; [apply asc_app; split; auto; split; [apply asc_one|]; intros a b Ha [<-|[]]; auto|].
          intros e. rewrite in_app_iff, EM. cbn [In]. split.
          + intros [[[_ Q]|(Q & _ & Q')]|[<-|[]]]; [discriminate|auto|auto].
          + intros [->|[Q Q']]; auto. left. right. split; auto. split; auto. specialize (AD e Q). lia. }
      destruct S1 as (l & r & ch & out' & E4 & W4 & A4 & EM4). rewrite E4. cbn [obind]. eexists _, _, _. split; [reflexivity|]. split; auto.
      destruct (WR_changed _ _ _ _ _ (n_num (nd ns i)) W4 (no_num _ _ _ OI)) as (C1 & C2 & C3 & C4). apply expl_upd with (out := out'); auto.
      intros e. rewrite EM4. unfold FM. rewrite T. split.
      * intros [Q|[Q1' Q2']]; auto. right. intros d Kd Fd. apply KE in Kd as [<-|Kd]; auto. destruct (Q2' d Kd); auto. congruence.
      * intros [Q|Q]; auto. right. split; [apply Q; auto|]. intros d Hd. destruct (fullb ns d) eqn:Fd; auto. right. apply Q; auto. apply KE. now right.
Qed.

Lemma update_ok x i : l_nodes x = ns -> HInv (l_soh x) -> (i < nn)%nat -> (fullb ns i = false -> ~ FF ns i) ->
  exists ch n' h', update al nn rch g x i = Some (ch, n', h') /\ HInv h' /\ upd_ok ns i ch n'.
Proof.
  intros Ex HI Li M. unfold update. rewrite (get_d INIT) by (rewrite (go_ty _ _ GO); auto). cbn [obind]. rewrite (get_d []) by (rewrite (go_by _ _ GO); auto). cbn [obind]. fold (ty i). fold (kids i). rewrite Ex.
  destruct (ty i) eqn:T.
  - destruct (self_ok i Li T) as (ch & n' & E & U). rewrite E. cbn [obind]. exists ch, n', (l_soh x). auto.
  - destruct (union_ok i Li T M) as (ch & n' & E & U). rewrite E. cbn [obind]. exists ch, n', (l_soh x). auto.
  - apply inter_ok; auto.
Qed.
End UPD.

(** ** The invariant of the main loop; [H]: the nodes in the queue, [st]: those that are in it at the start *)
Variable st : nat -> Prop.
Hypothesis ST : forall i, st i -> ty i = INIT.
Hypothesis AN : forall i, ty i = AND -> kids i <> [].

Definition undone (ns : list lmnode) (i : nat) : Prop :=
  match ty i with
  | AND => bat rch i = true -> exists c, In c (kids i) /\ fullb ns c = true
  | OR => bat rch i = true -> forall c, kid i c -> fullb ns c = true
  | INIT => ~ st i
  end.

Record LI (ns : list lmnode) (H : nat -> Prop) : Prop := {
  li_len : length ns = nn;
  li_ok : forall i, (i < nn)%nat -> node_ok nn ns i;
  li_M : forall i, (i < nn)%nat -> fullb ns i = false -> ~ FF ns i;
  li_mon : forall i, (i < nn)%nat -> fullb ns i = false -> forall e, FM ns i e -> In e (lms ns i);
  li_sub : forall i, (i < nn)%nat -> fullb ns i = false -> ~ H i -> forall e, In e (lms ns i) -> FM ns i e;
  li_rch : forall i, (i < nn)%nat -> fullb ns i = false -> bat rch i = true \/ st i;
  li_D : forall i, (i < nn)%nat -> fullb ns i = true -> ~ H i -> undone ns i }.

Lemma some_expl ns l : (forall c, In c l -> fullb ns c = true) \/ exists c, In c l /\ fullb ns c = false.
Proof.
  induction l as [|c l IH]; [left; easy|]. destruct (fullb ns c) eqn:F; [|right; exists c; split; [now left|auto]].
  destruct IH as [IH|(d & Hd & Fd)]; [left; intros d [<-|Hd]; auto|right; exists d; split; [now right|auto]].
Qed.
Lemma not_FF_or ns i : ty i = OR -> ~ FF ns i -> exists c, kid i c /\ fullb ns c = false.
Proof.
  intros T N. destruct (some_expl ns (filter (bat rch) (kids i))) as [Q|(c & Hc & Fc)].
  - elim N. unfold FF. rewrite T. intros c [K1 K2]. apply Q, filter_In. auto.
  - exists c. apply filter_In in Hc. auto.
Qed.

Lemma lms_length ms j : node_ok nn ms j -> (length (lms ms j) <= nn)%nat.
Proof.
  intros O. pose proof (asc_nodup _ (no_asc _ _ _ O)) as ND. assert (E : incl (lms ms j) (map Z.of_nat (seq 0 nn))).
  { intros e He. destruct (no_rng _ _ _ O e He) as (k & Lk & -> & _). apply in_map, in_seq. lia. }
  apply NoDup_incl_length in E; auto. rewrite map_length, seq_length in E. auto.
Qed.

Section STEP.
Variables (ns ns' : list lmnode) (H H' : nat -> Prop) (i : nat) (ch : bool) (n' : lmnode).
Hypothesis I : LI ns H.
Hypothesis Li : (i < nn)%nat.
Hypothesis Ri : bat rch i = true \/ st i.
Hypothesis U : upd_ok ns i ch n'.
Hypothesis ES : set ns i n' = Some ns'.
Hypothesis HH : forall j, H' j <-> (H j /\ j <> i) \/ (ch = true /\ In j (nth i (g_aff g) []) /\ bat rch j = true).

Lemma nd_neq j : j <> i -> nd ns' j = nd ns j.
Proof.
  intros N. destruct (Nat.lt_ge_cases j nn) as [L|L].
  - pose proof (get_set_neq _ _ j _ _ ES ltac:(congruence)) as Q. rewrite (get_d dn) in Q by (rewrite (set_length _ _ _ _ ES), (li_len _ _ I); auto). rewrite (get_d dn) in Q by (rewrite (li_len _ _ I); auto). unfold nd. congruence.
  - unfold nd. rewrite !nth_overflow; auto; [rewrite (li_len _ _ I); auto|rewrite (set_length _ _ _ _ ES), (li_len _ _ I); auto].
Qed.
Lemma nd_eq : nd ns' i = n'.
Proof. apply nth_get. apply (get_set_eq _ _ _ _ ES). Qed.
Lemma fb_neq j : j <> i -> fullb ns' j = fullb ns j.
Proof. intros N. unfold fullb. now rewrite nd_neq. Qed.
Lemma lm_neq j : j <> i -> lms ns' j = lms ns j.
Proof. intros N. unfold lms. now rewrite nd_neq. Qed.
Lemma fb_eq : fullb ns' i = n_full n'.
Proof. unfold fullb. now rewrite nd_eq. Qed.
Lemma lm_eq : lms ns' i = lmof n'.
Proof. unfold lms. now rewrite nd_eq. Qed.

Lemma kid_neq c : In c (kids i) -> c <> i.
Proof. intros K ->. apply (go_irr _ _ GO i K). Qed.

Lemma expl_stays j : fullb ns j = false -> fullb ns' j = false.
Proof.
  intros F. destruct (Nat.eq_dec j i) as [->|N]; [|now rewrite fb_neq]. rewrite fb_eq. destruct (n_full n') eqn:Q; auto. destruct (uo_same _ _ _ _ U Q) as [E _].
  unfold fullb in F. rewrite <- E in F. congruence.
Qed.
Lemma shrinks j : fullb ns j = false -> forall e, In e (lms ns' j) -> In e (lms ns j).
Proof.
  intros F e He. destruct (Nat.eq_dec j i) as [->|N]; [|now rewrite lm_neq in He]. pose proof (expl_stays _ F) as F'. rewrite fb_eq in F'. rewrite lm_eq in He.
  apply (li_mon _ _ I); auto. now apply (uo_lms _ _ _ _ U).
Qed.
Lemma FF_mono j : FF ns' j -> FF ns j.
Proof.
  unfold FF. assert (Q : forall c, fullb ns' c = true -> fullb ns c = true). { intros c Hc. destruct (fullb ns c) eqn:F; auto. apply expl_stays in F. congruence. }
  destruct (ty j); auto. intros (c & K & Hc). exists c. auto.
Qed.
Lemma FF_own : FF ns' i <-> FF ns i.
Proof.
  split; [apply FF_mono|]. unfold FF. destruct (ty i); auto.
  - intros (c & K & Hc). exists c. split; auto. rewrite fb_neq; auto. apply kid_neq, K.
  - intros Q c K. rewrite fb_neq; auto. apply kid_neq, K.
Qed.
Lemma FM_own e : FM ns' i e <-> FM ns i e.
Proof.
  unfold FM. destruct (ty i); [tauto| |].
  - split; (intros [Q|(c & K & Q)]; [auto|]); right; exists c; (split; [auto|]); [rewrite <- lm_neq|rewrite lm_neq]; auto; apply kid_neq, K.
  - split; (intros [Q|Q]; [auto|]); right; intros c K F.
    + rewrite <- lm_neq by (apply kid_neq, K). apply Q; auto. rewrite fb_neq; auto. apply kid_neq, K.
    + rewrite lm_neq by (apply kid_neq, K). apply Q; auto. rewrite <- fb_neq; auto. apply kid_neq, K.
Qed.
Lemma unch_all : ch = false -> forall j, fullb ns' j = fullb ns j /\ lms ns' j = lms ns j.
Proof.
  intros C j. destruct (Nat.eq_dec j i) as [->|N]; [|rewrite fb_neq, lm_neq; auto]. rewrite fb_eq, lm_eq. apply (uo_unch _ _ _ _ U C).
Qed.
(** nodes that are not in the queue do not depend on a change *)
Lemma not_dep j : j <> i -> ~ H' j -> bat rch j = true -> (forall c, In c (kids j) -> fullb ns' c = fullb ns c /\ lms ns' c = lms ns c) /\ ~ H j.
Proof.
  intros N NH R. split; [|intros Q; apply NH, HH; auto]. intros c K. destruct (Bool.bool_dec ch true) as [C|C]; [|apply Bool.not_true_is_false in C; now apply unch_all]. destruct (Nat.eq_dec c i) as [->|Nc]; [|rewrite fb_neq, lm_neq; auto].
  exfalso. apply NH, HH. right. split; auto. split; auto. now apply (go_inv _ _ GO).
Qed.

Lemma step_LI : LI ns' H'.
Proof.
  constructor.
  - rewrite (set_length _ _ _ _ ES). apply (li_len _ _ I).
  - intros j Lj. pose proof (li_ok _ _ I j Lj) as O. destruct (Nat.eq_dec j i) as [->|N].
    + assert (RG : n_full n' = true -> lms ns i = [] /\ n_num n' = 0%nat). { intros Q. destruct (uo_same _ _ _ _ U Q) as [E _]. assert (F : fullb ns i = true) by (unfold fullb; rewrite <- E; auto).
        split; [now apply (lms_full nn)|]. rewrite E. now apply (no_full _ _ _ O). }
      constructor; rewrite ?fb_eq, ?lm_eq, ?nd_eq; try apply U.
      * intros Q. now apply RG.
      * intros e He. destruct (n_full n') eqn:Q.
        -- destruct (RG eq_refl) as [_ E]. unfold lmof in He. rewrite E in He. destruct He.
        -- apply (uo_lms _ _ _ _ U) in He; auto. destruct He as [->|He]; [exists i; split; auto; split; auto; now rewrite fb_eq|].
           assert (NF : ~ FF ns i) by (rewrite <- (uo_full _ _ _ _ U); congruence).
           assert (X : exists c, kid i c /\ In e (lms ns c)). { destruct (ty i) eqn:T; [destruct He|auto|]. destruct (not_FF_or _ _ T NF) as (c & K & F). exists c. split; auto. }
           destruct X as (c & [K _] & Hc). destruct (no_rng _ _ _ (li_ok _ _ I c (kid_lt _ _ K)) e Hc) as (k & Lk & -> & Fk). exists k. split; auto. split; auto. now apply expl_stays.
      * intros Q. apply (uo_lms _ _ _ _ U); auto. now left.
    + constructor; rewrite ?(fb_neq _ N), ?(lm_neq _ N), ?(nd_neq _ N); try apply O.
      intros e He. destruct (no_rng _ _ _ O e He) as (k & Lk & -> & Fk). exists k. split; auto. split; auto. now apply expl_stays.
  - intros j Lj F Q. destruct (Nat.eq_dec j i) as [->|N].
    + rewrite fb_eq in F. apply FF_mono, (uo_full _ _ _ _ U) in Q. congruence.
    + rewrite fb_neq in F by auto. apply (li_M _ _ I j Lj F), FF_mono, Q.
  - intros j Lj F e Q. destruct (Nat.eq_dec j i) as [->|N].
    + rewrite fb_eq in F. rewrite lm_eq. apply (uo_lms _ _ _ _ U F). now apply FM_own.
    + rewrite fb_neq in F by auto. rewrite lm_neq by auto. apply (li_mon _ _ I j Lj F). destruct Q as [Q|Q]; [now left|]. pose proof (li_M _ _ I j Lj F) as NF. unfold FF in NF. right. destruct (ty j); auto.
      * destruct Q as (c & K & Hc). exists c. split; auto. apply shrinks; auto. destruct (fullb ns c) eqn:Fc; auto. elim NF. exists c. auto.
      * intros c K Fc. apply shrinks; auto. apply Q; auto. now apply expl_stays.
  - intros j Lj F NH e He. destruct (Nat.eq_dec j i) as [->|N].
    + rewrite fb_eq in F. rewrite lm_eq in He. apply FM_own. now apply (uo_lms _ _ _ _ U F).
    + rewrite fb_neq in F by auto. rewrite lm_neq in He by auto. assert (NH0 : ~ H j) by (intros Q; apply NH, HH; auto). pose proof (li_sub _ _ I j Lj F NH0 e He) as Q.
      destruct (li_rch _ _ I j Lj F) as [R|R].
      * destruct (not_dep j N NH R) as [D _]. destruct Q as [Q|Q]; [now left|]. right. destruct (ty j); auto.
        -- destruct Q as (c & K & Hc). exists c. split; auto. destruct (D c (proj1 K)) as [_ ->]. auto.
        -- intros c K Fc. destruct (D c (proj1 K)) as [D1 ->]. apply Q; auto. congruence.
      * unfold FM in *. rewrite (ST j R) in *. auto.
  - intros j Lj F. destruct (Nat.eq_dec j i) as [->|N]; auto. rewrite fb_neq in F by auto. now apply (li_rch _ _ I).
  - intros j Lj F NH. destruct (Nat.eq_dec j i) as [->|N].
    + rewrite fb_eq in F. apply (uo_full _ _ _ _ U), FF_own in F. unfold FF in F. unfold undone. destruct (ty i); [tauto| |auto].
      intros _. destruct F as (c & [K _] & Fc). exists c. auto.
    + rewrite fb_neq in F by auto. assert (NH0 : ~ H j) by (intros Q; apply NH, HH; auto). pose proof (li_D _ _ I j Lj F NH0) as Q. unfold undone in *. destruct (ty j); auto; intros R; specialize (Q R); destruct (not_dep j N NH R) as [D _].
      * destruct Q as (c & K & Fc). exists c. split; auto. destruct (D c K) as [-> _]. auto.
      * intros c K. destruct (D c (proj1 K)) as [-> _]. auto.
Qed.

Definition weight (ms : list lmnode) (j : nat) : nat := if fullb ms j then S nn else length (lms ms j).
Definition mu (ms : list lmnode) : nat := list_sum (map (weight ms) (seq 0 nn)).

Lemma weight_dec : ch = true -> (weight ns' i < weight ns i)%nat.
Proof.
  intros C. unfold weight. assert (F' : fullb ns' i = false). { rewrite fb_eq. destruct (n_full n') eqn:Q; auto. destruct (uo_same _ _ _ _ U Q). congruence. }
  rewrite F'. pose proof (li_ok _ _ step_LI i Li) as O'. pose proof (lms_length _ _ O'). destruct (fullb ns i) eqn:F; [lia|].
  pose proof (li_ok _ _ I i Li) as O. pose proof (asc_nodup _ (no_asc _ _ _ O)) as ND. pose proof (asc_nodup _ (no_asc _ _ _ O')) as ND'.
  assert (IN : incl (lms ns' i) (lms ns i)) by (intros e; now apply shrinks). pose proof (NoDup_incl_length ND' IN) as L. destruct (Nat.eq_dec (length (lms ns' i)) (length (lms ns i))) as [E|E]; [|lia].
  exfalso. apply (uo_ch _ _ _ _ U C). rewrite <- lm_eq. apply asc_ext; [apply O'|apply O|]. intros e. split; [apply IN|]. apply NoDup_length_incl; auto. lia.
Qed.

Lemma mu_step : if ch then (mu ns' < mu ns)%nat else mu ns' = mu ns.
Proof.
  assert (W : forall j, j <> i -> weight ns' j = weight ns j) by (intros j N; unfold weight; rewrite fb_neq, lm_neq; auto).
  destruct (Bool.bool_dec ch true) as [C|C]; [|apply Bool.not_true_is_false in C]; rewrite C.
  - unfold mu. assert (Q : forall a k, (a <= i < a + k)%nat -> (list_sum (map (weight ns') (seq a k)) < list_sum (map (weight ns) (seq a k)))%nat).
    { intros a k. revert a. induction k as [|k IH]; intros a L; [lia|]. cbn [seq map list_sum fold_right]. change (fold_right Nat.add 0%nat) with list_sum. destruct (Nat.eq_dec a i) as [->|N].
      - assert (E : map (weight ns') (seq (S i) k) = map (weight ns) (seq (S i) k)) by (apply map_ext_in; intros j Hj; apply in_seq in Hj; apply W; lia). rewrite E. pose proof (weight_dec C). lia.
      - rewrite (W a N). specialize (IH (S a)). lia. }
    apply Q. lia.
  - unfold mu. f_equal. apply map_ext_in. intros j _. unfold weight. destruct (unch_all C j) as [-> ->]. auto.
Qed.

(** nothing is lost: [Dv i e] means that [i] can be obtained without [e] *)
Definition CI (Dv : nat -> nat -> Prop) (keep : nat -> Prop) (ms : list lmnode) : Prop :=
  forall j e, (j < nn)%nat -> fullb ms j = false -> keep e -> ~ In (Z.of_nat e) (lms ms j) -> Dv j e.
Definition avoid_ok (Dv : nat -> nat -> Prop) (keep : nat -> Prop) : Prop :=
  (forall j e, (j < nn)%nat -> ty j = INIT -> bat rch j = true \/ st j -> e <> j -> Dv j e) /\
  (forall j e, (j < nn)%nat -> ty j = AND -> bat rch j = true -> e <> j -> keep e -> (forall c, kid j c -> Dv c e) -> Dv j e) /\
  (forall j c e, (j < nn)%nat -> ty j = OR -> bat rch j = true -> e <> j -> kid j c -> Dv c e -> Dv j e).

Lemma In_dec_Z (e : Z) l : In e l \/ ~ In e l.
Proof. destruct (in_dec Z.eq_dec e l); auto. Qed.

Lemma step_CI Dv keep : avoid_ok Dv keep -> CI Dv keep ns -> CI Dv keep ns'.
Proof.
  intros (A1 & A2 & A3) C j e Lj F K N. destruct (Nat.eq_dec j i) as [->|Nj]; [|rewrite fb_neq in F by auto; rewrite lm_neq in N by auto; now apply C].
  rewrite fb_eq in F. rewrite lm_eq, (uo_lms _ _ _ _ U F) in N. assert (NF : ~ FF ns i) by (rewrite <- (uo_full _ _ _ _ U); congruence).
  assert (Ne : e <> i) by (intros ->; apply N; now left). destruct (ty i) eqn:T.
  - apply A1; auto.
  - assert (R : bat rch i = true) by (destruct Ri as [R|R]; auto; rewrite (ST i R) in T; discriminate). apply A2; auto. intros c Kc. apply C; auto.
    + eapply kid_lt, Kc.
    + destruct (fullb ns c) eqn:Fc; auto. elim NF. unfold FF. rewrite T. exists c. auto.
    + intros Q. apply N. right. rewrite T. exists c. auto.
  - assert (R : bat rch i = true) by (destruct Ri as [R|R]; auto; rewrite (ST i R) in T; discriminate).
    (* some child lacks e *)
    assert (X : exists c, kid i c /\ fullb ns c = false /\ ~ In (Z.of_nat e) (lms ns c)).
    { assert (Y : forall l, (forall c, In c l -> fullb ns c = false -> In (Z.of_nat e) (lms ns c)) \/ exists c, In c l /\ fullb ns c = false /\ ~ In (Z.of_nat e) (lms ns c)).
      { induction l as [|c l IH]; [left; easy|]. destruct IH as [IH|(d & Hd & Q)]; [|right; exists d; split; [now right|auto]]. destruct (fullb ns c) eqn:Fc.
        - left. intros d [<-|Hd]; auto. congruence.
        - destruct (In_dec_Z (Z.of_nat e) (lms ns c)) as [Q|Q]; [left; intros d [<-|Hd]; auto|right; exists c; split; [now left|auto]]. }
      destruct (Y (filter (bat rch) (kids i))) as [Q|(c & Hc & Q)]; [|exists c; apply filter_In in Hc; auto].
      elim N. right. rewrite T. intros c Kc Fc. apply Q; auto. now apply filter_In. }
    destruct X as (c & Kc & Fc & Q). eapply A3; eauto. apply C; auto. eapply kid_lt, Kc.
Qed.
End STEP.

(** ** The loop *)
Variable scc : list Z.
Hypothesis SCL : length scc = nn.
Hypothesis SCB : forall c, In c scc -> int_min <= c * 10000 /\ c * 10000 + Z.of_nat nn <= INT_MAX.

Record LQ (B : list (Z * nat)) (x : lmst) : Prop := {
  lq_pq : PQz (l_heap x) B;
  lq_nd : NoDup (map snd B);
  lq_inl : length (l_in x) = nn;
  lq_in : forall j, bat (l_in x) j = true <-> In j (map snd B);
  lq_soh : HInv (l_soh x);
  lq_b : forall j, In j (map snd B) -> (j < nn)%nat /\ (bat rch j = true \/ st j) }.

Lemma bat_set l i v l' : set l i v = Some l' -> forall j, bat l' j = if (j =? i)%nat then v else bat l j.
Proof.
  intros E j. unfold bat. destruct (Nat.eqb_spec j i) as [->|N]; [apply (nth_get false), (get_set_eq _ _ _ _ E)|].
  destruct (Nat.lt_ge_cases j (length l)) as [L|L].
  - pose proof (get_set_neq _ _ j _ _ E ltac:(congruence)) as Q. rewrite (get_d false), (get_d false) in Q by (rewrite ?(set_length _ _ _ _ E); auto). congruence.
  - rewrite !nth_overflow; auto. rewrite (set_length _ _ _ _ E); auto.
Qed.

Lemma enqueue_ok B x k i : LQ B x -> (i < nn)%nat -> bat rch i = true \/ st i -> ~ In i (map snd B) -> int_min <= k ->
  exists x', enqueue al k i x = Some x' /\ LQ ((k, i) :: B) x' /\ l_nodes x' = l_nodes x.
Proof.
  intros Q L R N K. unfold enqueue. destruct (PQz_add al _ B k i AL (lq_pq _ _ Q) K) as (h & Eh & Ph). rewrite Eh. cbn [obind].
  destruct (set_some (l_in x) i true) as (b & Eb); [rewrite (lq_inl _ _ Q); auto|]. rewrite Eb. cbn [obind]. eexists. split; [reflexivity|]. split; [|reflexivity]. constructor; cbn [l_heap l_in l_soh map snd]; auto.
  - constructor; auto. apply Q.
  - rewrite (set_length _ _ _ _ Eb). apply Q.
  - intros j. rewrite (bat_set _ _ _ _ Eb j). cbn [In]. destruct (Nat.eqb_spec j i) as [->|Nj]; [tauto|]. rewrite (lq_in _ _ Q). split; [auto|intros [?|?]; [congruence|auto]].
  - apply Q.
  - intros j [<-|Hj]; auto. now apply (lq_b _ _ Q).
Qed.

Lemma affects_ok size l : (size <= nn)%nat -> (forall j, In j l -> (j < nn)%nat) -> forall B x, LQ B x ->
  exists B' x', ofold (affect al rch scc size) l x = Some x' /\ LQ B' x' /\ l_nodes x' = l_nodes x /\
    (forall j, In j (map snd B') <-> In j (map snd B) \/ (In j l /\ bat rch j = true)).
Proof.
  intros SZ. induction l as [|i l IH]; intros H B x Q; cbn [ofold].
  - exists B, x. split; auto. split; auto. split; auto. intros j. split; auto. intros [?|[[] _]]; auto.
  - assert (Li : (i < nn)%nat) by (apply H; now left). unfold affect at 1. rewrite get_bat by lia. cbn [obind]. rewrite get_bat by (rewrite (lq_inl _ _ Q); auto). cbn [obind].
    specialize (IH (fun j Hj => H j (or_intror Hj))).
    destruct (bat rch i && negb (bat (l_in x) i)) eqn:C.
    + apply andb_prop in C as [C1 C2]. apply Bool.negb_true_iff in C2.
      assert (N : ~ In i (map snd B)) by (rewrite <- (lq_in _ _ Q); congruence).
      rewrite (get_d 0) by lia. cbn [obind]. assert (Hc : In (nth i scc 0) scc) by (apply nth_In; lia). destruct (SCB _ Hc) as [S1 S2]. unfold INT_MAX in *.
      repeat match goal with |- context [?a <=? ?b] => destruct (Z.leb_spec a b); [|unfold int_min in *; lia] end. cbn [andb].
      destruct (enqueue_ok B x (nth i scc 0 * 10000 + Z.of_nat size) i Q Li (or_introl C1) N) as (x1 & E1 & Q1 & N1); [unfold int_min in *; lia|]. rewrite E1. cbn [obind].
      destruct (IH _ _ Q1) as (B' & x' & E' & Q' & N' & I'). exists B', x'. split; auto. split; auto. split; [congruence|]. intros j. rewrite I'. cbn [map snd In]. split.
      * intros [[<-|?]|[? ?]]; auto.
      * intros [?|[[<-|?] ?]]; auto.
    + cbn [obind]. destruct (IH _ _ Q) as (B' & x' & E' & Q' & N' & I'). exists B', x'. split; auto. split; auto. split; auto. intros j. rewrite I'. split.
      * intros [?|[? ?]]; auto. right. split; auto. now right.
      * intros [?|[[<-|?] R]]; auto. left. apply (lq_in _ _ Q). rewrite R in C. cbn in C. now apply Bool.negb_false_iff in C.
Qed.

Definition inq (B : list (Z * nat)) (j : nat) : Prop := In j (map snd B).

Lemma loop_step B x : LQ B x -> LI (l_nodes x) (inq B) -> B <> [] ->
  exists B' x', lm_step al nn rch g scc x = Some x' /\ LQ B' x' /\ LI (l_nodes x') (inq B') /\
    (length B' + nn * mu (l_nodes x') < length B + nn * mu (l_nodes x))%nat /\
    (forall Dv keep, avoid_ok Dv keep -> CI Dv keep (l_nodes x) -> CI Dv keep (l_nodes x')).
Proof.
  intros Q I NE. unfold lm_step. destruct (PQz_pop _ B (lq_pq _ _ Q) NE) as (k & i & h & B1 & _ & E2 & E3 & P1 & Pm & _). rewrite E2. cbn [obind]. rewrite E3. cbn [obind]. rewrite Nat2Z.id.
  assert (Pm' : Permutation (map snd B) (i :: map snd B1)) by apply (Permutation_map snd Pm). pose proof (lq_nd _ _ Q) as ND. rewrite Pm' in ND. inversion ND as [|? ? N1 N2]; subst.
  destruct (lq_b _ _ Q i) as [Li Ri]; [rewrite Pm'; now left|].
  destruct (set_some (l_in x) i false) as (b & Eb); [rewrite (lq_inl _ _ Q); auto|]. rewrite Eb. cbn [obind].
  destruct (update_ok (l_nodes x) (li_len _ _ I) (li_ok _ _ I) x i eq_refl (lq_soh _ _ Q) Li (li_M _ _ I i Li)) as (ch & n' & soh & Eu & Hs & U). rewrite Eu. cbn [obind].
  destruct (set_some (l_nodes x) i n') as (ns' & En); [rewrite (li_len _ _ I); auto|]. rewrite En. cbn [obind].
  set (x1 := {| l_nodes := ns'; l_in := b; l_heap := h; l_soh := soh |}).
  assert (Q1 : LQ B1 x1).
  { constructor; unfold x1; cbn [l_heap l_in l_soh]; auto.
    - rewrite (set_length _ _ _ _ Eb). apply Q.
    - intros j. rewrite (bat_set _ _ _ _ Eb j). destruct (Nat.eqb_spec j i) as [->|Nj]; [split; [discriminate|tauto]|]. rewrite (lq_in _ _ Q), Pm'. cbn. intuition congruence.
    - intros j Hj. apply (lq_b _ _ Q). rewrite Pm'. now right. }
  assert (LB : length B = S (length B1)) by (apply Permutation_length in Pm; exact Pm).
  assert (HB : forall j, In j (map snd B1) <-> inq B j /\ j <> i). { intros j. unfold inq. rewrite Pm'. cbn. split; [intros Hj; split; auto; congruence|intros [[?|?] ?]; [congruence|auto]]. }
  destruct ch.
  - rewrite (get_d []) by (rewrite (go_aff _ _ GO); auto). cbn [obind].
    assert (SZ : (getSize nn n' <= nn)%nat).
    { unfold getSize. destruct (n_full n') eqn:F; auto. rewrite <- (lmof_length n' (uo_num _ _ _ _ U)).
      set (H' := fun j => (inq B j /\ j <> i) \/ (true = true /\ In j (nth i (g_aff g) []) /\ bat rch j = true)).
      pose proof (step_LI _ ns' _ H' i true n' I Li Ri U En (fun j => iff_refl _)) as I'. pose proof (lms_length _ _ (li_ok _ _ I' i Li)) as L. unfold lms in L. rewrite (nd_eq _ _ _ _ En) in L. exact L. }
    destruct (affects_ok (getSize nn n') (nth i (g_aff g) []) SZ) with (B := B1) (x := x1) as (B' & x' & E' & Q' & N' & I'); auto.
    { intros j Hj. destruct (Nat.lt_ge_cases j nn) as [L|L]; auto. exfalso. apply (go_inv _ _ GO) in Hj. rewrite nth_overflow in Hj; [destruct Hj|]. rewrite (go_by _ _ GO); auto. }
    assert (HH : forall j, inq B' j <-> (inq B j /\ j <> i) \/ (true = true /\ In j (nth i (g_aff g) []) /\ bat rch j = true)).
    { intros j. unfold inq at 1. rewrite I', HB. tauto. }
    exists B', x'. split; auto. split; auto. unfold x1 in N'. cbn [l_nodes] in N'. rewrite N'. split; [|split].
    + eapply step_LI; eauto.
    + pose proof (mu_step _ _ _ _ _ _ _ I Li Ri U En HH) as Mu. cbv beta iota in Mu.
      assert (LB' : (length B' <= nn)%nat).
      { rewrite <- (map_length snd). rewrite <- (seq_length nn 0). apply NoDup_incl_length; [apply Q'|]. intros j Hj. apply in_seq. destruct (lq_b _ _ Q' j Hj). lia. }
      nia.
    + intros Dv keep A C. eapply step_CI; eauto.
  - assert (HH : forall j, inq B1 j <-> (inq B j /\ j <> i) \/ (false = true /\ In j (nth i (g_aff g) []) /\ bat rch j = true)).
    { intros j. unfold inq at 1. rewrite HB. intuition discriminate. }
    exists B1, x1. split; auto. split; auto. unfold x1. cbn [l_nodes]. split; [|split].
    + eapply step_LI; eauto.
    + pose proof (mu_step _ _ _ _ _ _ _ I Li Ri U En HH) as Mu. cbv beta iota in Mu. nia.
    + intros Dv keep A C. eapply step_CI; eauto.
Qed.

Lemma loop_ok fuel : forall B x, LQ B x -> LI (l_nodes x) (inq B) -> (length B + nn * mu (l_nodes x) <= fuel)%nat ->
  exists x', lm_loop al nn rch fuel g scc x = Some x' /\ LI (l_nodes x') (fun _ => False) /\
    (forall Dv keep, avoid_ok Dv keep -> CI Dv keep (l_nodes x) -> CI Dv keep (l_nodes x')).
Proof.
  induction fuel as [|fuel IH]; intros B x Q I F; cbn [lm_loop]; rewrite (PQz_empty _ _ (lq_pq _ _ Q)); destruct B as [|b B0] eqn:EB.
  - exists x. split; auto.
  - cbn in F. lia.
  - exists x. split; auto.
  - destruct (loop_step _ x Q I) as (B' & x1 & E & Q' & I' & M & C); [discriminate|]. rewrite E. cbn [obind]. destruct (IH B' x1 Q' I') as (x' & E' & I2 & C2); [lia|].
    exists x'. auto.
Qed.
End GR.
