(** Proofs about the planning graph model. *)
From Verif Require Import Base Htn_problem Htn_spec Heap_model Heap_proof Arr Dij Aff_proof Pg_model Pg_spec.
Local Open Scope Z_scope.

(** ** The queue as a bag of (key, fact) *)
Definition zn (e : Z * nat) : Z * Z := (fst e, Z.of_nat (snd e)).
Definition PQz (h : heap) (B : list (Z * nat)) : Prop := HInv h /\ Permutation (elems h) (map zn B).

Lemma PQz_clear h : HInv h -> PQz (heap_clear h) [].
Proof. intros H. destruct (heap_clear_ok h H) as (A & E). split; [exact A|]. rewrite E. constructor. Qed.

Lemma PQz_add al h B k v : (forall n, length (al n) = n) -> PQz h B -> int_min <= k ->
  exists h', heap_add al h k (Z.of_nat v) = Some h' /\ PQz h' ((k, v) :: B).
Proof.
  intros AL (H & P) K. destruct (heap_add_ok al h k (Z.of_nat v) AL H K) as (h' & E & H' & P').
  exists h'. split; [exact E|]. split; auto. cbn [map]. rewrite P'. unfold zn at 1. cbn [fst snd]. now constructor.
Qed.

Lemma PQz_empty h B : PQz h B -> heap_isEmpty h = match B with [] => true | _ => false end.
Proof.
  intros (H & P). apply Permutation_length in P. rewrite elems_length, map_length in P.
  unfold heap_isEmpty, heap_size in *. destruct H as [(N & _) _ _ _ _]. destruct B; cbn in P.
  - apply Nat.eqb_eq. lia.
  - apply Nat.eqb_neq. lia.
Qed.

Lemma PQz_pop h B : PQz h B -> B <> [] ->
  exists k v h' B', heap_topKey h = Some k /\ heap_topVal h = Some (Z.of_nat v) /\ heap_pop h = Some h' /\ PQz h' B' /\
    Permutation B ((k, v) :: B') /\ (forall e, In e B -> k <= fst e).
Proof.
  intros (H & P) NE.
  destruct (heap_pop_ok h H) as (h' & k & v & E & H' & K & V & P' & Mn).
  { intros Q. rewrite Q in P. apply Permutation_nil in P. destruct B; [congruence|discriminate]. }
  assert (I : In (k, v) (map zn B)).
  { eapply Permutation_in; [exact P|]. eapply Permutation_in; [symmetry; exact P'|]. now left. }
  apply in_map_iff in I as ((k0 & v0) & Q & I). unfold zn in Q. cbn in Q. injection Q as <- <-.
  apply in_split in I as (B1 & B2 & ->).
  exists k0, v0, h', (B1 ++ B2). split; auto. split; auto. split; auto. split.
  - split; auto. apply (Permutation_cons_inv (a := (k0, Z.of_nat v0))). rewrite <- P', P.
    rewrite !map_app. cbn [map]. symmetry. apply Permutation_middle.
  - split; [symmetry; apply Permutation_middle|]. intros e He.
    assert (I : In (zn e) (elems h)).
    { eapply Permutation_in; [symmetry; exact P|]. now apply in_map. }
    apply Mn in I. exact I.
Qed.

(** ** Arrays and sets *)
Definition zat (l : list Z) (i : nat) : Z := nth i l 0.
Definition bat (l : list bool) (i : nat) : bool := nth i l false.

Lemma get_zat l i : (i < length l)%nat -> get l i = Some (zat l i).
Proof. intros H. apply (get_nth 0). auto. Qed.
Lemma get_bat l i : (i < length l)%nat -> get l i = Some (bat l i).
Proof. intros H. apply (get_nth false). auto. Qed.
Lemma get_row (l : list (list nat)) i : (i < length l)%nat -> get l i = Some (nth i l []).
Proof. intros H. apply (get_nth []). auto. Qed.
Lemma set_zat l i v : (i < length l)%nat -> exists l', set l i v = Some l' /\ length l' = length l /\ forall k, zat l' k = if Nat.eqb k i then v else zat l k.
Proof.
  intros H. destruct (set_some l i v H) as (l' & E). exists l'. split; auto. split; [eapply set_length; eauto|]. apply (nth_set 0 _ _ _ _ E).
Qed.

Lemma insert_In x y l : In y (insert x l) <-> y = x \/ In y l.
Proof.
  unfold insert. destruct (memb x l) eqn:M.
  - apply memb_In in M. split; [auto|]. intros [->|H]; auto.
  - rewrite in_app_iff. cbn. intuition.
Qed.
Lemma insert_NoDup x l : NoDup l -> NoDup (insert x l).
Proof.
  unfold insert. destruct (memb x l) eqn:M; auto. apply memb_false in M. intros H. apply nodup_app_iff. repeat split; auto.
  - constructor; [easy|constructor].
  - intros y Hy [<-|[]]. easy.
Qed.
Lemma insert_length x l : (length (insert x l) <= S (length l))%nat.
Proof. unfold insert. destruct (memb x l); [lia|]. rewrite app_length. cbn. lia. Qed.

Lemma add_useful_ok s l u : (forall f, In f l -> (f < length s)%nat) -> exists u', add_useful s l u = Some u' /\
  (forall f, In f u' <-> In f u \/ (In f l /\ bat s f = false)) /\ (NoDup u -> NoDup u').
Proof.
  unfold add_useful. revert u. induction l as [|f l IH]; intros u H; cbn [ofold].
  - exists u. split; auto. split; auto. intros f. intuition. easy.
  - rewrite get_bat by (apply H; now left). cbn [obind].
    destruct (IH (if bat s f then u else insert f u)) as (u' & E & I & N). { intros g Hg. apply H. now right. }
    exists u'. split; auto. split.
    + intros g. rewrite I. destruct (bat s f) eqn:Q.
      * cbn [In]. intuition. subst. congruence.
      * rewrite insert_In. cbn [In]. intuition; subst; auto.
    + intros Nu. apply N. destruct (bat s f); auto. now apply insert_NoDup.
Qed.

(** ** Well-formed tables *)
Record pg_wf (P : problem) (T : pg_tables) : Prop := {
  w_tasks : (length (p_cost P) <= length (p_prim P))%nat;
  w_pre : forall l, In l (p_prec P) -> NoDup l;
  w_p2a_len : length (t_p2a T) = p_nfacts P;
  w_p2a : forall f l, nth_error (t_p2a T) f = Some l -> NoDup l /\ forall a, In a l <-> precs P a f;
  w_precless_nd : NoDup (t_precless T);
  w_precless : forall a, In a (t_precless T) <-> nth_error (p_prec P) a = Some [];
  w_stm_len : (length (p_prim P) <= length (t_stm T))%nat;
  w_stm : forall t l, (t < length (p_prim P))%nat -> nth_error (t_stm T) t = Some l -> NoDup l /\ forall m, In m l <-> exists md, nth_error (p_methods P) m = Some md /\ In t (m_subs md);
  w_nst : forall m md, nth_error (p_methods P) m = Some md -> nth_error (t_nst T) m = Some (length (nodup Nat.eq_dec (m_subs md))) }.

Section PG.
Variables (al : nat -> list Z) (P : problem) (T : pg_tables) (s R : list bool).
Hypothesis AL : forall n, length (al n) = n.
Hypothesis WP : wf_problem P.
Hypothesis WT : pg_wf P T.
Hypothesis Ls : length s = p_nfacts P.
Hypothesis LR : length R = length (p_prim P).
Hypothesis CL : forall c, In c (p_cost P) -> Z.of_nat c < INT_MAX.

Notation na := (length (p_cost P)).
Notation nf := (p_nfacts P).
Definition pre (a : nat) : list nat := nth a (p_prec P) [].
Definition add (a : nat) : list nat := nth a (p_add P) [].

Lemma precs_pre a f : precs P a f <-> In f (pre a).
Proof.
  unfold precs, pre. split.
  - intros (l & E & I). now rewrite (nth_error_nth _ _ _ E).
  - intros I. destruct (Nat.lt_ge_cases a (length (p_prec P))) as [L|L].
    + exists (nth a (p_prec P) []). split; auto. now apply nth_error_nth'.
    + rewrite nth_overflow in I by auto. easy.
Qed.
Lemma adds_add a f : adds P a f <-> In f (add a).
Proof.
  unfold adds, add. split.
  - intros (l & E & I). now rewrite (nth_error_nth _ _ _ E).
  - intros I. destruct (Nat.lt_ge_cases a (length (p_add P))) as [L|L].
    + exists (nth a (p_add P) []). split; auto. now apply nth_error_nth'.
    + rewrite nth_overflow in I by auto. easy.
Qed.
Lemma pre_lt a f : In f (pre a) -> (f < nf)%nat.
Proof. intros H. apply precs_pre in H as (l & E & I). eapply (wf_facts _ WP); eauto. left. eapply nth_error_In; eauto. Qed.
Lemma add_lt a f : In f (add a) -> (f < nf)%nat.
Proof. intros H. apply adds_add in H as (l & E & I). eapply (wf_facts _ WP); eauto. right. left. eapply nth_error_In; eauto. Qed.
Lemma pre_nd a : NoDup (pre a).
Proof.
  unfold pre. destruct (nth_in_or_default a (p_prec P) []) as [H|H]; [now apply (w_pre _ _ WT)|]. rewrite H. constructor.
Qed.
Lemma pre_na a f : In f (pre a) -> (a < na)%nat.
Proof. intros H. apply precs_pre in H as (l & E & _). rewrite <- (wf_prec _ WP). apply nth_error_Some. congruence. Qed.
Lemma R_lt a : (a < na)%nat -> (a < length R)%nat.
Proof. pose proof (w_tasks _ _ WT). lia. Qed.

Notation freach := (fact_reach P (fun f => bat s f = true) (fun a => bat R a = true)).
Notation areach := (act_reach P (fun f => bat s f = true) (fun a => bat R a = true)).
Notation cnt := (cntun pre).

(** The invariant. [E] holds if no fact is queued twice at the beginning; [D]: the processed facts, [Df a]: those already counted for action [a], [C]: the actions
    that have been treated completely. *)
Record PI (E : Prop) (C : nat -> Prop) (Df : nat -> list nat) (D : list nat) (B : list (Z * nat)) (last : Z) (x : pg) : Prop := {
  i_lu : length (g_unsat x) = na;
  i_lo : length (g_op x) = na;
  i_lp : length (g_prop x) = nf;
  i_pq : PQz (g_q x) B;
  i_B : forall k f, In (k, f) B -> (f < nf)%nat /\ 0 <= k < INT_MAX;
  i_D : forall f, In f D -> (f < nf)%nat;
  i_pp : forall f, (f < nf)%nat -> 0 <= zat (g_prop x) f <= INT_MAX;
  i_op : forall a, (a < na)%nat -> 0 <= zat (g_op x) a;
  i_s : forall f, bat s f = true -> zat (g_prop x) f < INT_MAX;
  i_cov : forall f, (f < nf)%nat -> zat (g_prop x) f < INT_MAX -> In f D \/ In (zat (g_prop x) f, f) B;
  i_un : forall a, (a < na)%nat -> zat (g_unsat x) a <= Z.of_nat (cnt (Df a) a);
  i_fire : forall a, (a < na)%nat -> C a -> bat R a = true -> pre a <> [] -> zat (g_unsat x) a <= 0 ->
    In a (g_tasks x) /\ (zat (g_op x) a < INT_MAX -> forall f, In f (add a) -> zat (g_prop x) f < INT_MAX);
  i_pl : forall a, (a < na)%nat -> C a -> bat R a = true -> pre a = [] -> In a (g_tasks x) /\ forall f, In f (add a) -> zat (g_prop x) f < INT_MAX;
  i_nd : NoDup (g_tasks x);
  i_task : forall a, In a (g_tasks x) -> (a < na)%nat /\ bat R a = true;
  i_und : NoDup (g_useful x);
  i_use : forall f, In f (g_useful x) <-> bat s f = false /\ (In f (p_goal P) \/ exists a, In a (g_tasks x) /\ In f (pre a));
  e_un : E -> forall a, (a < na)%nat -> zat (g_unsat x) a = Z.of_nat (cnt (Df a) a);
  e_q : E -> forall k f, In (k, f) B -> zat (g_prop x) f <= k /\ (In f D -> zat (g_prop x) f < k) /\ last <= k;
  e_nd : E -> NoDup B;
  e_D : E -> forall f, In f D -> zat (g_prop x) f <= last /\ freach f;
  e_prop : E -> forall f, (f < nf)%nat -> zat (g_prop x) f < INT_MAX -> freach f;
  e_task : E -> forall a, In a (g_tasks x) -> areach a }.
Lemma s_lt f : bat s f = true -> (f < nf)%nat.
Proof. intros H. destruct (Nat.lt_ge_cases f nf) as [L|L]; auto. unfold bat in H. rewrite nth_overflow in H by lia. discriminate. Qed.

(** ** One add effect in the main loop *)
Lemma add_effect_ok E C Df D B last x v f : PI E C Df D B last x -> 0 <= v <= INT_MAX -> (E -> last <= v) -> (f < nf)%nat -> (E -> freach f) ->
  exists x' B', add_effect al v x f = Some x' /\ PI E C Df D B' last x' /\ (length B' <= S (length B))%nat /\
    g_unsat x' = g_unsat x /\ g_op x' = g_op x /\ (v < INT_MAX -> zat (g_prop x') f < INT_MAX) /\ (forall g, zat (g_prop x') g <= zat (g_prop x) g) /\
    (forall k g, In (k, g) B' -> In (k, g) B \/ k = v) /\ g_tasks x' = g_tasks x.
Proof.
  intros I V LV Lf FR. unfold add_effect. rewrite get_zat by (rewrite (i_lp _ _ _ _ _ _ _ I); auto). cbn [obind].
  destruct (Z.ltb_spec v (zat (g_prop x) f)) as [H|H].
  2: { exists x, B. repeat (split; auto); try lia. }
  destruct (set_zat (g_prop x) f v) as (p & Ep & Lp & Zp); [rewrite (i_lp _ _ _ _ _ _ _ I); auto|]. rewrite Ep. cbn [obind].
  destruct (PQz_add al (g_q x) B v f AL (i_pq _ _ _ _ _ _ _ I)) as (q & Eq & Q); [unfold int_min; lia|]. rewrite Eq. cbn [obind].
  eexists. exists ((v, f) :: B). split; [reflexivity|]. cbn [g_unsat g_op g_prop g_q g_tasks g_useful].
  assert (MON : forall g, zat p g <= zat (g_prop x) g).
  { intros g. rewrite Zp. destruct (Nat.eqb_spec g f) as [->|]; lia. }
  split; [|repeat split; auto].
  - destruct I. constructor; cbn [g_unsat g_op g_prop g_q g_tasks g_useful]; auto; try lia.
    + intros k g [Q1|I]; [apply pair_equal_spec in Q1 as [<- <-]; split; [auto|]; specialize (i_pp0 f Lf); lia|]. eauto.
    + intros g Hg. rewrite Zp. destruct (Nat.eqb_spec g f); [lia|auto].
    + intros g Hg. specialize (i_s0 g Hg). specialize (MON g). lia.
    + intros g Hg L. rewrite Zp in *. destruct (Nat.eqb_spec g f) as [->|N]; [right; now left|].
      destruct (i_cov0 g Hg L); auto. right. now right.
    + intros a Ha Ca Ra Na U. destruct (i_fire0 a Ha Ca Ra Na U) as [Q1 Q2]. split; auto. intros Q3 g Hg. specialize (Q2 Q3 g Hg). specialize (MON g). lia.
    + intros a Ha Ca Ra Na. destruct (i_pl0 a Ha Ca Ra Na) as [Q1 Q2]. split; auto. intros g Hg. specialize (Q2 g Hg). specialize (MON g). lia.
    + intros e k g [Q1|I].
      * apply pair_equal_spec in Q1 as [<- <-]. rewrite Zp, Nat.eqb_refl. specialize (LV e). split; [lia|]. split; [|auto].
        intros HD. destruct (e_D0 e f HD). lia.
      * destruct (e_q0 e k g I) as (Q1 & Q2 & Q3). specialize (MON g). split; [lia|]. split; auto. intros HD. specialize (Q2 HD). lia.
    + intros e. constructor; [|auto]. intros HI. destruct (e_q0 e v f HI). lia.
    + intros e g HD. destruct (e_D0 e g HD). specialize (MON g). split; [lia|auto].
    + intros e g Hg L. rewrite Zp in L. destruct (Nat.eqb_spec g f) as [->|N]; auto.
  - intros HV. rewrite Zp, Nat.eqb_refl. auto.
  - intros k g [Q1|Q1]; [|auto]. apply pair_equal_spec in Q1 as [<- <-]. auto.
Qed.

Lemma add_effects_ok (E : Prop) C Df D last v l : 0 <= v <= INT_MAX -> (E -> last <= v) -> (forall f, In f l -> (f < nf)%nat /\ (E -> freach f)) ->
  forall B x, PI E C Df D B last x ->
  exists x' B', ofold (add_effect al v) l x = Some x' /\ PI E C Df D B' last x' /\ (length B' <= length l + length B)%nat /\
    g_unsat x' = g_unsat x /\ g_op x' = g_op x /\ (v < INT_MAX -> forall f, In f l -> zat (g_prop x') f < INT_MAX) /\ (forall g, zat (g_prop x') g <= zat (g_prop x) g) /\
    (forall k g, In (k, g) B' -> In (k, g) B \/ k = v) /\ g_tasks x' = g_tasks x.
Proof.
  intros V LV. induction l as [|f l IH]; intros H B x I; cbn [ofold].
  - exists x, B. repeat (split; auto); try lia; easy.
  - destruct (H f (or_introl eq_refl)) as [Hf Ff].
    destruct (add_effect_ok E C Df D B last x v f I V LV Hf Ff) as (x1 & B1 & E1 & I1 & L1 & U1 & O1 & F1 & M1 & K1 & T1). rewrite E1. cbn [obind].
    destruct (IH (fun g Hg => H g (or_intror Hg)) B1 x1 I1) as (x2 & B2 & E2 & I2 & L2 & U2 & O2 & F2 & M2 & K2 & T2).
    exists x2, B2. split; auto. split; auto. split; [cbn [length]; lia|]. split; [congruence|]. split; [congruence|]. split; [|split; [|split; [|congruence]]].
    + intros Q g [<-|Hg]; [|auto]. specialize (M2 f). specialize (F1 Q). lia.
    + intros g. specialize (M1 g). specialize (M2 g). lia.
    + intros k g Hk. destruct (K2 k g Hk) as [Hk2|]; auto.
Qed.

(** ** One action of the row of fact [p] *)
Lemma pend_neg us adds op u us' : get us op = Some u -> u <= 0 -> set us op (u - 1) = Some us' -> pend us' adds = pend us adds.
Proof.
  revert adds op us'. induction us as [|y us IH]; intros [|a adds] [|op] us' G U S; cbn in G; try discriminate.
  - cbn in S. injection G as ->. injection S as <-. reflexivity.
  - cbn in S. destruct (set us op (u - 1)) as [t|] eqn:E; [|discriminate]. cbn in S. injection S as <-. reflexivity.
  - injection G as ->. cbn in S. injection S as <-. cbn [pend]. destruct (Z.ltb_spec 0 u), (Z.ltb_spec 0 (u - 1)); try lia.
  - cbn in S. destruct (set us op (u - 1)) as [t|] eqn:E; [|discriminate]. cbn in S. injection S as <-. cbn [pend]. f_equal. eapply IH; eauto.
Qed.

Lemma visit_op_ok (E : Prop) C Df D B p pVal x op :
  PI E C Df (p :: D) B pVal x -> 0 <= pVal -> In p (pre op) -> Df op = D -> (E -> ~ In p D) -> (forall a, C a) ->
  match visit_op al P s R pVal x op with
  | Some x' => exists B', PI E C (fun a => if Nat.eqb a op then p :: D else Df a) (p :: D) B' pVal x' /\
      (length B' + pend (g_unsat x') (p_add P) <= length B + pend (g_unsat x) (p_add P))%nat /\
      (forall a, zat (g_op x') a = if Nat.eqb a op then zat (g_op x) op + pVal else zat (g_op x) a) /\
      (forall k g, In (k, g) B' -> In (k, g) B \/ k = zat (g_op x) op + pVal)
  | None => INT_MAX < zat (g_op x) op + pVal
  end.
Proof.
  intros I KV Ip ED NP CA. assert (Hop : (op < na)%nat) by (eapply pre_na; eauto).
  pose proof (i_op _ _ _ _ _ _ _ I op Hop) as OP.
  unfold visit_op. rewrite get_zat by (rewrite (i_lo _ _ _ _ _ _ _ I); auto). cbn [obind].
  destruct (Z.leb_spec (zat (g_op x) op + pVal) INT_MAX) as [OV|OV]; [|exact OV].
  set (v := zat (g_op x) op + pVal) in *.
  destruct (set_zat (g_op x) op v) as (ops & Eo & Lo & Zo); [rewrite (i_lo _ _ _ _ _ _ _ I); auto|]. rewrite Eo. cbn [obind].
  assert (GU : get (g_unsat x) op = Some (zat (g_unsat x) op)) by (apply get_zat; rewrite (i_lu _ _ _ _ _ _ _ I); auto).
  rewrite GU. cbn [obind]. set (u := zat (g_unsat x) op) in *.
  destruct (set_zat (g_unsat x) op (u - 1)) as (us & Eu & Lu & Zu); [rewrite (i_lu _ _ _ _ _ _ _ I); auto|]. rewrite Eu. cbn [obind].
  rewrite (get_bat R op (R_lt op Hop)). cbn [obind].
  set (Df' := fun a => if Nat.eqb a op then p :: D else Df a).
  assert (UN : forall a, (a < na)%nat -> zat us a <= Z.of_nat (cnt (Df' a) a)).
  { intros a Ha. rewrite Zu. unfold Df'. pose proof (i_un _ _ _ _ _ _ _ I a Ha) as Q. destruct (Nat.eqb_spec a op) as [->|N]; auto.
    fold u in Q. rewrite ED in Q. destruct (in_dec Nat.eq_dec p D) as [HD|HD].
    - assert (Z1 : cnt (p :: D) op = cnt D op).
      { unfold cntun. f_equal. apply filter_ext_in. intros b Hb. cbn. destruct (Nat.eqb_spec b p) as [->|]; auto. apply memb_In in HD. now rewrite HD. }
      rewrite Z1. lia.
    - rewrite (cntun_in pre p D op (pre_nd op) Ip HD) in Q. lia. }
  assert (UE : E -> forall a, (a < na)%nat -> zat us a = Z.of_nat (cnt (Df' a) a)).
  { intros e a Ha. rewrite Zu. unfold Df'. pose proof (e_un _ _ _ _ _ _ _ I e a Ha) as Q. destruct (Nat.eqb_spec a op) as [->|N]; auto.
    fold u in Q. rewrite ED in Q. rewrite (cntun_in pre p D op (pre_nd op) Ip (NP e)) in Q. lia. }
  assert (OPZ : forall a, (a < na)%nat -> 0 <= zat ops a).
  { intros a Ha. rewrite Zo. destruct (Nat.eqb_spec a op); [lia|]. now apply (i_op _ _ _ _ _ _ _ I). }
  assert (OPM : forall a, zat (g_op x) a <= zat ops a).
  { intros a. rewrite Zo. destruct (Nat.eqb_spec a op) as [->|]; lia. }
  assert (PN : pre op <> []) by (intros Q; rewrite Q in Ip; easy).
  assert (LA : (op < length (p_add P))%nat) by (rewrite (wf_add _ WP); auto).
  assert (PD : (pend us (p_add P) + (if Z.eqb (u - 1) 0 then length (add op) else 0) <= pend (g_unsat x) (p_add P))%nat).
  { destruct (Z.ltb_spec 0 u).
    - eapply pend_dec; eauto.
    - destruct (Z.eqb_spec (u - 1) 0); [lia|]. rewrite (pend_neg _ (p_add P) _ _ _ GU ltac:(lia) Eu). lia. }
  destruct ((u - 1 =? 0) && bat R op) eqn:FI.
  - apply andb_prop in FI as [FU FR]. apply Z.eqb_eq in FU. rewrite (proj2 (Z.eqb_eq _ _) FU) in PD.
    rewrite (get_row (p_prec P)) by (rewrite (wf_prec _ WP); auto). cbn [obind]. fold (pre op).
    destruct (add_useful_ok s (pre op) (g_useful x)) as (uf & Euf & Iuf & Nuf). { intros f Hf. rewrite Ls. eapply pre_lt; eauto. }
    rewrite Euf. cbn [obind]. rewrite (get_row (p_add P)) by auto. cbn [obind]. fold (add op).
    set (x1 := {| g_unsat := us; g_op := ops; g_prop := g_prop x; g_q := g_q x; g_tasks := insert op (g_tasks x); g_useful := uf |}).
    assert (AR : E -> areach op).
    { intros e. constructor; auto. intros f Hf. apply precs_pre in Hf.
      assert (Z0 : cnt (p :: D) op = 0%nat). { specialize (UE e op Hop). rewrite Zu, Nat.eqb_refl in UE. unfold Df' in UE. rewrite Nat.eqb_refl in UE. lia. }
      apply (proj1 (cntun_0 pre _ _) Z0) in Hf. apply (e_D _ _ _ _ _ _ _ I e f Hf). }
    assert (I1 : PI E (fun a => a <> op) Df' (p :: D) B pVal x1).
    { destruct I. constructor; unfold x1; cbn [g_unsat g_op g_prop g_q g_tasks g_useful]; auto; try lia.
      - intros a Ha Ca Ra Na U. rewrite Zu in U. destruct (Nat.eqb_spec a op) as [->|N]; [easy|].
        destruct (i_fire0 a Ha (CA a) Ra Na U) as [Q1 Q2]. split; [apply insert_In; auto|]. intros Q3. apply Q2. specialize (OPM a). lia.
      - intros a Ha Ca Ra Na. destruct (i_pl0 a Ha (CA a) Ra Na) as [Q1 Q2]. split; auto. apply insert_In. auto.
      - now apply insert_NoDup.
      - intros a Ha. apply insert_In in Ha as [->|Ha]; auto.
      - intros f. rewrite Iuf, i_use0. split.
        + intros [[Q1 [Q2|(a & Q2 & Q3)]]|[Q1 Q2]]; [auto| |].
          * split; auto. right. exists a. rewrite insert_In. auto.
          * split; auto. right. exists op. rewrite insert_In. auto.
        + intros [Q1 [Q2|(a & Q2 & Q3)]]; [auto|]. apply insert_In in Q2 as [->|Q2]; [auto|]. left. split; auto. right. eauto.
      - intros e a Ha. apply insert_In in Ha as [->|Ha]; auto. }
    destruct (add_effects_ok E (fun a => a <> op) Df' (p :: D) pVal v (add op)) with (B := B) (x := x1) as (x2 & B2 & E2 & I2 & L2 & U2 & O2 & F2 & M2 & K2 & T2); auto; [lia|lia| |].
    { intros f Hf. split; [eapply add_lt; eauto|]. intros e. eapply fr_add; [apply AR; auto|]. now apply adds_add. }
    rewrite E2. exists B2. split; [|split; [|split]].
    + assert (FIN : v < INT_MAX -> forall f, In f (add op) -> zat (g_prop x2) f < INT_MAX) by auto. clear F2.
      destruct I2. constructor; auto.
      * intros a Ha _ Ra Na U. destruct (Nat.eq_dec a op) as [->|N]; [|now apply i_fire0]. split.
        -- rewrite T2. unfold x1. cbn [g_tasks]. apply insert_In. auto.
        -- intros Q. apply FIN. rewrite O2 in Q. unfold x1 in Q. cbn [g_op] in Q. rewrite Zo, Nat.eqb_refl in Q. auto.
      * intros a Ha _ Ra Na. apply i_pl0; auto. intros ->. easy.
    + rewrite U2. unfold x1. cbn [g_unsat]. lia.
    + intros a. rewrite O2. apply Zo.
    + exact K2.
  - exists B. cbn [g_unsat g_op]. split; [|split; [|split; auto]].
    + destruct I. constructor; cbn [g_unsat g_op g_prop g_q g_tasks g_useful]; auto; try lia.
      intros a Ha Ca Ra Na U. rewrite Zu in U.
      assert (A : In a (g_tasks x) /\ (zat (g_op x) a < INT_MAX -> forall f, In f (add a) -> zat (g_prop x) f < INT_MAX)).
      { destruct (Nat.eqb_spec a op) as [->|N]; auto. apply i_fire0; auto. fold u.
        rewrite Ra, andb_true_r in FI. apply Z.eqb_neq in FI. lia. }
      destruct A as [Q1 Q2]. split; auto. intros Q3. apply Q2. specialize (OPM a). lia.
    + destruct (Z.eqb (u - 1) 0); lia.
Qed.

Lemma PI_ext E C Df Df' D B last x : (forall a, (a < na)%nat -> cnt (Df a) a = cnt (Df' a) a) -> PI E C Df D B last x -> PI E C Df' D B last x.
Proof.
  intros H []. constructor; auto.
  - intros a Ha. rewrite <- H; auto.
  - intros e a Ha. rewrite <- H; auto.
Qed.

Lemma row_ok (E : Prop) (C : nat -> Prop) D p pVal : 0 <= pVal -> (E -> ~ In p D) -> (forall a, C a) ->
  forall rest, NoDup rest -> (forall a, In a rest -> In p (pre a)) ->
  forall Df B x, PI E C Df (p :: D) B pVal x -> (forall a, In a rest -> Df a = D) ->
  match ofold (visit_op al P s R pVal) rest x with
  | Some x' => exists B', PI E C (fun a => if memb a rest then p :: D else Df a) (p :: D) B' pVal x' /\
      (length B' + pend (g_unsat x') (p_add P) <= length B + pend (g_unsat x) (p_add P))%nat /\
      (forall a, zat (g_op x') a = if memb a rest then zat (g_op x) a + pVal else zat (g_op x) a) /\
      (forall k g, In (k, g) B' -> In (k, g) B \/ exists a, In a rest /\ k = zat (g_op x) a + pVal)
  | None => exists a, In a rest /\ INT_MAX < zat (g_op x) a + pVal
  end.
Proof.
  intros KV NP CA. induction rest as [|op rest IH]; intros ND Hp Df B x I HD; cbn [ofold].
  - exists B. split; [|split; [lia|split; auto]]. exact I.
  - inversion ND as [|? ? N1 N2]; subst.
    pose proof (visit_op_ok E C Df D B p pVal x op I KV (Hp op (or_introl eq_refl)) (HD op (or_introl eq_refl)) NP CA) as V.
    destruct (visit_op al P s R pVal x op) as [x1|]; cbn [obind].
    2: { exists op. split; [now left|exact V]. }
    destruct V as (B1 & I1 & L1 & O1 & K1).
    specialize (IH N2 (fun a Ha => Hp a (or_intror Ha)) _ _ _ I1).
    assert (HD1 : forall a, In a rest -> (if Nat.eqb a op then p :: D else Df a) = D).
    { intros a Ha. destruct (Nat.eqb_spec a op) as [->|]; [easy|]. apply HD. now right. }
    specialize (IH HD1).
    assert (OR : forall a, In a rest -> zat (g_op x1) a = zat (g_op x) a).
    { intros a Ha. rewrite O1. destruct (Nat.eqb_spec a op) as [->|]; [easy|auto]. }
    destruct (ofold (visit_op al P s R pVal) rest x1) as [x2|].
    + destruct IH as (B2 & I2 & L2 & O2 & K2). exists B2. split; [|split; [lia|split]].
      * eapply PI_ext; [|exact I2]. intros a _. cbn [memb existsb]. fold (memb a rest). destruct (Nat.eqb a op), (memb a rest); auto.
      * intros a. rewrite O2. cbn [memb existsb]. fold (memb a rest). rewrite O1. destruct (Nat.eqb_spec a op) as [->|N]; auto.
        apply memb_false in N1. rewrite N1. reflexivity.
      * intros k g H. destruct (K2 k g H) as [H2|(a & Ha & Ek)].
        -- destruct (K1 k g H2) as [|Ek]; auto. right. exists op. split; [now left|auto].
        -- right. exists a. split; [now right|]. now rewrite <- OR.
    + destruct IH as (a & Ha & Q). exists a. split; [now right|]. now rewrite <- OR.
Qed.

(** ** The main loop *)
Lemma pop_ok (E : Prop) C D B last x k f q B' : PI E C (fun _ => D) D B last x -> Permutation B ((k, f) :: B') -> (forall e, In e B -> k <= fst e) -> PQz q B' ->
  let x1 := {| g_unsat := g_unsat x; g_op := g_op x; g_prop := g_prop x; g_q := q; g_tasks := g_tasks x; g_useful := g_useful x |} in
  if zat (g_prop x) f <? k then PI E C (fun _ => D) D B' k x1 else PI E C (fun _ => D) (f :: D) B' k x1 /\ (E -> ~ In f D).
Proof.
  intros I Pm Mn Q x1.
  assert (SUB : forall e, In e B' -> In e B) by (intros e He; eapply Permutation_in; [symmetry; exact Pm|]; now right).
  assert (IN : In (k, f) B) by (eapply Permutation_in; [symmetry; exact Pm|]; now left).
  assert (CAS : forall e, In e B -> e = (k, f) \/ In e B').
  { intros e He. eapply Permutation_in in He; [|exact Pm]. destruct He; auto. }
  destruct (i_B _ _ _ _ _ _ _ I k f IN) as [Lf Kp].
  destruct (Z.ltb_spec (zat (g_prop x) f) k) as [H|H].
  - destruct I. unfold x1. constructor; cbn [g_unsat g_op g_prop g_q g_tasks g_useful]; auto; try lia.
    + intros g Hg L. destruct (i_cov0 g Hg L) as [?|HI]; auto. destruct (CAS _ HI) as [Q1|]; auto.
      apply pair_equal_spec in Q1 as [Q1 ->]. lia.
    + intros e k' g HI. destruct (e_q0 e k' g (SUB _ HI)) as (Q1 & Q2 & Q3). repeat split; auto. apply (Mn _ (SUB _ HI)).
    + intros e. specialize (e_nd0 e). eapply Permutation_NoDup in e_nd0; [|exact Pm]. now inversion e_nd0.
    + intros e g HD. destruct (e_D0 e g HD) as [Q1 Q2]. destruct (e_q0 e k f IN) as (_ & _ & Q3). split; [lia|auto].
  - assert (NP : E -> ~ In f D). { intros e HD. destruct (e_q _ _ _ _ _ _ _ I e k f IN) as (_ & Q1 & _). specialize (Q1 HD). lia. }
    split; [|exact NP]. destruct I. unfold x1. constructor; cbn [g_unsat g_op g_prop g_q g_tasks g_useful]; auto; try lia.
    + intros g [<-|Hg]; auto.
    + intros g Hg L. destruct (i_cov0 g Hg L) as [?|HI]; [left; now right|]. destruct (CAS _ HI) as [Q1|]; auto.
      apply pair_equal_spec in Q1 as [Q1 ->]. left. now left.
    + intros e k' g HI. destruct (e_q0 e k' g (SUB _ HI)) as (Q1 & Q2 & Q3). split; auto. split; [|apply (Mn _ (SUB _ HI))].
      intros [<-|HD]; auto. destruct (e_q0 e k f IN) as (Q4 & _). pose proof (Mn _ (SUB _ HI)) as Q5. cbn [fst] in Q5.
      specialize (e_nd0 e). eapply Permutation_NoDup in e_nd0; [|exact Pm]. inversion e_nd0 as [|? ? N1 _]; subst.
      destruct (Z.eq_dec k k') as [->|]; [easy|lia].
    + intros e. specialize (e_nd0 e). eapply Permutation_NoDup in e_nd0; [|exact Pm]. now inversion e_nd0.
    + intros e g [<-|HD].
      * destruct (e_q0 e k f IN) as (Q4 & _). split; auto. apply e_prop0; auto. lia.
      * destruct (e_D0 e g HD) as [Q1 Q2]. destruct (e_q0 e k f IN) as (_ & _ & Q3). split; [lia|auto].
Qed.

Lemma pg_loop_ok (E : Prop) (C : nat -> Prop) : (forall a, C a) -> forall fuel D B last x M,
  PI E C (fun _ => D) D B last x -> (length B + pend (g_unsat x) (p_add P) <= fuel)%nat ->
  (forall a, (a < na)%nat -> zat (g_op x) a <= M) -> (forall k f, In (k, f) B -> k <= M) ->
  match pg_loop fuel al P T s R x with
  | Some x' => exists D' last', PI E C (fun _ => D') D' [] last' x' /\ forall a, (a < na)%nat -> zat (g_op x') a <= M * 2 ^ Z.of_nat fuel
  | None => INT_MAX < M * 2 ^ Z.of_nat fuel
  end.
Proof.
  intros CA. induction fuel as [|fuel IH]; intros D B last x M I Fu OM KM; cbn [pg_loop].
  - destruct B as [|b B]; [|cbn [length] in Fu; lia]. rewrite (PQz_empty _ _ (i_pq _ _ _ _ _ _ _ I)). exists D, last. split; auto. intros a Ha. specialize (OM a Ha). cbn. lia.
  - rewrite (PQz_empty _ _ (i_pq _ _ _ _ _ _ _ I)). destruct B as [|b B0] eqn:EB.
    { exists D, last. split; auto. intros a Ha. specialize (OM a Ha). pose proof (i_op _ _ _ _ _ _ _ I a Ha). pose proof (Z.pow_pos_nonneg 2 (Z.of_nat (S fuel))). nia. }
    rewrite <- EB in *.
    destruct (PQz_pop _ _ (i_pq _ _ _ _ _ _ _ I)) as (k & f & q & B' & Ek & Ev & Ep & Q & Pm & Mn); [rewrite EB; discriminate|].
    rewrite Ek, Ev, Ep. cbn [obind]. rewrite Nat2Z.id. cbn [g_prop].
    assert (IN : In (k, f) B) by (eapply Permutation_in; [symmetry; exact Pm|]; now left).
    assert (SUB : forall e, In e B' -> In e B) by (intros e He; eapply Permutation_in; [symmetry; exact Pm|]; now right).
    destruct (i_B _ _ _ _ _ _ _ I k f IN) as [Lf Kp]. pose proof (KM k f IN) as KM0.
    assert (LB : length B = S (length B')) by (apply Permutation_length in Pm; exact Pm).
    rewrite get_zat by (rewrite (i_lp _ _ _ _ _ _ _ I); auto). cbn [obind].
    pose proof (pop_ok E C D B last x k f q B' I Pm Mn Q) as PO. cbv zeta in PO.
    assert (P2 : 2 ^ Z.of_nat (S fuel) = 2 * 2 ^ Z.of_nat fuel) by (rewrite Nat2Z.inj_succ, Z.pow_succ_r; lia).
    assert (P0 : 1 <= 2 ^ Z.of_nat fuel) by (pose proof (Z.pow_pos_nonneg 2 (Z.of_nat fuel)); lia).
    set (x1 := {| g_unsat := g_unsat x; g_op := g_op x; g_prop := g_prop x; g_q := q; g_tasks := g_tasks x; g_useful := g_useful x |}) in *.
    destruct (zat (g_prop x) f <? k).
    + specialize (IH D B' k x1 M PO). cbn [g_unsat g_op x1] in IH.
      specialize (IH ltac:(unfold x1; cbn [g_unsat]; lia) OM (fun k' f' H => KM k' f' (SUB _ H))).
      destruct (pg_loop fuel al P T s R x1); [|nia]. destruct IH as (D' & l' & I' & O'). exists D', l'. split; auto. intros a Ha. specialize (O' a Ha). nia.
    + destruct PO as [I1 NP].
      rewrite (get_row (t_p2a T)) by (rewrite (w_p2a_len _ _ WT); auto). cbn [obind].
      destruct (w_p2a _ _ WT f (nth f (t_p2a T) [])) as [ND RW]. { apply nth_error_nth'. rewrite (w_p2a_len _ _ WT). auto. }
      set (row := nth f (t_p2a T) []) in *.
      assert (RP : forall a, In a row -> In f (pre a)) by (intros a Ha; apply precs_pre; now apply RW).
      pose proof (row_ok E C D f k (proj1 Kp) NP CA row ND RP (fun _ => D) B' x1 I1 (fun _ _ => eq_refl)) as RO.
      destruct (ofold (visit_op al P s R k) row x1) as [x2|]; cbn [obind].
      * destruct RO as (B2 & I2 & L2 & O2 & K2).
        assert (I3 : PI E C (fun _ => f :: D) (f :: D) B2 k x2).
        { eapply PI_ext; [|exact I2]. intros a _. cbv beta. destruct (memb a row) eqn:MR; auto. symmetry. apply cntun_out. apply memb_false in MR.
          intros H. apply MR. apply RW. now apply precs_pre. }
        specialize (IH (f :: D) B2 k x2 (2 * M) I3). 
        assert (A1 : (length B2 + pend (g_unsat x2) (p_add P) <= fuel)%nat) by (unfold x1 in L2; cbn [g_unsat] in L2; lia).
        assert (A2 : forall a, (a < na)%nat -> zat (g_op x2) a <= 2 * M).
        { intros a Ha. rewrite O2. unfold x1. cbn [g_op]. specialize (OM a Ha). destruct (memb a row); lia. }
        assert (A3 : forall k' f', In (k', f') B2 -> k' <= 2 * M).
        { intros k' f' H. destruct (K2 k' f' H) as [H2|(a & Ha & ->)].
          - specialize (KM k' f' (SUB _ H2)). lia.
          - unfold x1. cbn [g_op]. assert (a < na)%nat by (eapply pre_na; apply RP; auto). specialize (OM a H0). lia. }
        specialize (IH A1 A2 A3). destruct (pg_loop fuel al P T s R x2); [|nia]. destruct IH as (D' & l' & I' & O'). exists D', l'. split; auto. intros a Ha. specialize (O' a Ha). nia.
      * destruct RO as (a & Ha & OV). unfold x1 in OV. cbn [g_op] in OV. assert (a < na)%nat by (eapply pre_na; apply RP; auto). specialize (OM a H). nia.
Qed.

(** ** The beginning *)
(** Facts put into the queue at the beginning, with repetitions. *)
Definition start_facts : list nat :=
  filter (bat s) (seq 0 nf) ++ flat_map (fun a => if bat R a then add a else []) (t_precless T).

Definition x_init (q0 : heap) (uf : list nat) : pg :=
  {| g_unsat := map (fun l => Z.of_nat (length l)) (p_prec P); g_op := map Z.of_nat (p_cost P); g_prop := repeat UNREACHABLE nf;
     g_q := heap_clear q0; g_tasks := []; g_useful := uf |}.

Lemma zat_map_nat l i : zat (map Z.of_nat l) i = Z.of_nat (nth i l 0%nat).
Proof. unfold zat. change 0 with (Z.of_nat 0). apply map_nth. Qed.
Lemma zat_map_len (l : list (list nat)) i : zat (map (fun l => Z.of_nat (length l)) l) i = Z.of_nat (length (nth i l [])).
Proof. unfold zat. change 0 with (Z.of_nat (length (@nil nat))). apply (map_nth (fun l => Z.of_nat (length l))). Qed.
Lemma zat_repeat n i : (i < n)%nat -> zat (repeat UNREACHABLE n) i = UNREACHABLE.
Proof. intros H. unfold zat. revert i H. induction n as [|n IH]; intros [|i] H; cbn; auto; [lia|lia|apply IH; lia]. Qed.
Lemma cnt_nil a : cnt [] a = length (pre a).
Proof. unfold cntun. induction (pre a) as [|f l IH]; cbn; auto. Qed.

(** While the facts are queued: [L] is the list of facts queued so far, [S] the facts of the state already queued. *)
Record SI (S : nat -> Prop) (C : nat -> Prop) (L : list nat) (B : list (Z * nat)) (x : pg) : Prop := {
  si_lu : length (g_unsat x) = na;
  si_un : g_unsat x = map (fun l => Z.of_nat (length l)) (p_prec P);
  si_op : g_op x = map Z.of_nat (p_cost P);
  si_lp : length (g_prop x) = nf;
  si_pq : PQz (g_q x) B;
  si_L : map snd B = L;
  si_B : forall k f, In (k, f) B -> (f < nf)%nat /\ 0 <= k < INT_MAX /\ (k = 0 \/ exists a, (a < na)%nat /\ k = zat (g_op x) a);
  si_pp : forall f, (f < nf)%nat -> 0 <= zat (g_prop x) f <= INT_MAX;
  si_s : forall f, S f -> bat s f = true -> zat (g_prop x) f < INT_MAX;
  si_cov : forall f, (f < nf)%nat -> zat (g_prop x) f < INT_MAX -> In (zat (g_prop x) f, f) B;
  si_pl : forall a, (a < na)%nat -> C a -> bat R a = true -> pre a = [] -> In a (g_tasks x) /\ forall f, In f (add a) -> zat (g_prop x) f < INT_MAX;
  si_nd : NoDup (g_tasks x);
  si_task : forall a, In a (g_tasks x) -> (a < na)%nat /\ bat R a = true /\ pre a = [];
  si_und : NoDup (g_useful x);
  si_use : forall f, In f (g_useful x) <-> bat s f = false /\ In f (p_goal P);
  se_q : NoDup L -> forall k f, In (k, f) B -> zat (g_prop x) f = k;
  se_prop : forall f, (f < nf)%nat -> zat (g_prop x) f < INT_MAX -> freach f;
  se_task : forall a, In a (g_tasks x) -> areach a }.

Definition put (x : pg) (p : list Z) (q : heap) : pg :=
  {| g_unsat := g_unsat x; g_op := g_op x; g_prop := p; g_q := q; g_tasks := g_tasks x; g_useful := g_useful x |}.

Lemma put_ok S C L B x f c : SI S C L B x -> (f < nf)%nat -> 0 <= c < INT_MAX -> (c = 0 \/ exists a, (a < na)%nat /\ c = zat (g_op x) a) -> freach f ->
  exists p q, set (g_prop x) f c = Some p /\ heap_add al (g_q x) c (Z.of_nat f) = Some q /\ SI S C (f :: L) ((c, f) :: B) (put x p q) /\
    (forall g, zat p g = if Nat.eqb g f then c else zat (g_prop x) g).
Proof.
  intros I Lf Hc Hs FR. destruct (set_zat (g_prop x) f c) as (p & Ep & Lp & Zp); [rewrite (si_lp _ _ _ _ _ I); auto|].
  destruct (PQz_add al (g_q x) B c f AL (si_pq _ _ _ _ _ I)) as (q & Eq & Q); [unfold int_min; lia|].
  exists p, q. split; auto. split; auto. split; [|exact Zp]. destruct I. unfold put. constructor; cbn [g_unsat g_op g_prop g_q g_tasks g_useful map snd]; auto; try congruence.
  - intros k g [Q1|I]; [apply pair_equal_spec in Q1 as [<- <-]; auto|eauto].
  - intros g Hg. rewrite Zp. destruct (Nat.eqb g f); [lia|auto].
  - intros g Hg Sg. rewrite Zp. destruct (Nat.eqb g f); [lia|auto].
  - intros g Hg L1. rewrite Zp in *. destruct (Nat.eqb_spec g f) as [->|N]; [now left|right; auto].
  - intros a Ha Ca Ra Na. destruct (si_pl0 a Ha Ca Ra Na) as [Q1 Q2]. split; auto. intros g Hg. rewrite Zp. destruct (Nat.eqb g f); [lia|auto].
  - intros ND k g HI. inversion ND as [|? ? N1 N2]; subst. rewrite Zp. destruct HI as [Q1|HI].
    + apply pair_equal_spec in Q1 as [<- <-]. now rewrite Nat.eqb_refl.
    + destruct (Nat.eqb_spec g f) as [->|N]; [|auto]. elim N1. apply in_map_iff. exists (k, f). auto.
  - intros g Hg L1. rewrite Zp in L1. destruct (Nat.eqb_spec g f) as [->|N]; auto.
Qed.

Lemma init_facts_ok (C : nat -> Prop) l : forall S L B x, SI S C L B x -> (forall f, In f l -> (f < nf)%nat) ->
  exists x' B', ofold (init_fact al s) l x = Some x' /\ SI (fun f => S f \/ In f l) C (rev (filter (bat s) l) ++ L) B' x'.
Proof.
  induction l as [|f l IH]; intros S L B x I H; cbn [ofold filter rev app].
  - exists x, B. split; auto. destruct I. constructor; auto. intros g [Q|[]]; auto.
  - unfold init_fact at 1. rewrite get_bat by (rewrite Ls; apply H; now left). cbn [obind]. destruct (bat s f) eqn:Sf.
    + destruct (put_ok S C L B x f 0 I (H f (or_introl eq_refl))) as (p & q & Ep & Eq & I1 & Zp); [unfold INT_MAX; lia|auto|now constructor|].
      rewrite Eq. cbn [obind]. rewrite Ep. cbn [obind]. fold (put x p q).
      assert (I2 : SI (fun g => S g \/ g = f) C (f :: L) ((0, f) :: B) (put x p q)).
      { destruct I1. constructor; auto. intros g [Q| ->] Q2; auto. unfold put. cbn [g_prop]. rewrite Zp, Nat.eqb_refl. unfold INT_MAX. lia. }
      destruct (IH _ _ _ _ I2 (fun g Hg => H g (or_intror Hg))) as (x' & B' & E' & I'). exists x', B'. split; auto.
      cbn [rev]. rewrite <- app_assoc. cbn [app]. destruct I'. constructor; auto. intros g Q. apply si_s0. cbn [In] in Q. intuition.
    + destruct (IH _ _ _ _ I (fun g Hg => H g (or_intror Hg))) as (x' & B' & E' & I'). exists x', B'. split; auto.
      destruct I'. constructor; auto. intros g Q Q2. apply si_s0; auto. cbn [In] in Q. destruct Q as [Q|[<-|Q]]; auto. congruence.
Qed.

Lemma put_adds_ok S C c l : 0 <= c < INT_MAX -> forall L B x, SI S C L B x -> (c = 0 \/ exists a, (a < na)%nat /\ c = zat (g_op x) a) -> (forall f, In f l -> (f < nf)%nat /\ freach f) ->
  exists x' B', ofold (fun x f => p <- set (g_prop x) f c ;; q <- heap_add al (g_q x) c (Z.of_nat f) ;; Some (put x p q)) l x = Some x' /\
    SI S C (rev l ++ L) B' x' /\ (forall f, In f l -> zat (g_prop x') f < INT_MAX) /\ (forall f, zat (g_prop x) f < INT_MAX -> zat (g_prop x') f < INT_MAX) /\
    g_tasks x' = g_tasks x.
Proof.
  intros Hc. induction l as [|f l IH]; intros L B x I Hs H; cbn [ofold rev app].
  - exists x, B. repeat (split; auto). easy.
  - destruct (H f (or_introl eq_refl)) as [Lf Ff].
    destruct (put_ok S C L B x f c I Lf Hc Hs Ff) as (p & q & Ep & Eq & I1 & Zp). rewrite Ep. cbn [obind]. rewrite Eq. cbn [obind].
    destruct (IH _ _ _ I1 Hs (fun g Hg => H g (or_intror Hg))) as (x' & B' & E' & I' & F' & M' & T').
    exists x', B'. split; auto. split; [rewrite <- app_assoc; exact I'|]. 
    assert (MM : forall g, g = f \/ zat (g_prop x) g < INT_MAX -> zat (g_prop x') g < INT_MAX).
    { intros g Hg. apply M'. unfold put. cbn [g_prop]. rewrite Zp. destruct (Nat.eqb_spec g f) as [->|N]; [lia|]. destruct Hg; [easy|auto]. }
    split; [|split; [|exact T']].
    + intros g [<-|Hg]; auto.
    + intros g Hg. auto.
Qed.

Lemma precless_pre a : In a (t_precless T) -> (a < na)%nat /\ pre a = [].
Proof.
  intros H. apply (w_precless _ _ WT) in H. split; [|now apply nth_error_nth]. rewrite <- (wf_prec _ WP). apply nth_error_Some. congruence.
Qed.

Lemma precless_ok S l : (forall a, In a l -> In a (t_precless T)) -> forall (C : nat -> Prop) L B x, SI S C L B x -> 
  exists x' B', ofold (init_precless al P R) l x = Some x' /\
    SI S (fun a => C a \/ In a l) (rev (flat_map (fun a => if bat R a then add a else []) l) ++ L) B' x'.
Proof.
  induction l as [|a l IH]; intros H C L B x I; cbn [ofold flat_map].
  - exists x, B. split; auto. destruct I. constructor; auto. intros b Hb [Q|[]]; auto.
  - destruct (precless_pre a (H a (or_introl eq_refl))) as [La Pa].
    unfold init_precless at 1. rewrite get_bat by (now apply R_lt). cbn [obind]. destruct (bat R a) eqn:Ra.
    + rewrite (get_row (p_add P)) by (rewrite (wf_add _ WP); auto). cbn [obind]. fold (add a).
      destruct (get_some (p_cost P) a La) as (c & Ec). rewrite Ec. cbn [obind].
      assert (Hc : 0 <= Z.of_nat c < INT_MAX). { split; [lia|]. apply CL. eapply nth_error_In. exact Ec. }
      assert (AR : areach a). { constructor; auto. intros f Hf. apply precs_pre in Hf. rewrite Pa in Hf. easy. }
      set (x1 := {| g_unsat := g_unsat x; g_op := g_op x; g_prop := g_prop x; g_q := g_q x; g_tasks := insert a (g_tasks x); g_useful := g_useful x |}).
      assert (I1 : SI S C L B x1).
      { destruct I. unfold x1. constructor; cbn [g_unsat g_op g_prop g_q g_tasks g_useful]; auto.
        - intros b Hb Cb Rb Pb. destruct (si_pl0 b Hb Cb Rb Pb). rewrite insert_In. auto.
        - now apply insert_NoDup.
        - intros b Hb. apply insert_In in Hb as [->|Hb]; auto.
        - intros b Hb. apply insert_In in Hb as [->|Hb]; auto. }
      destruct (put_adds_ok S C (Z.of_nat c) (add a) Hc L B x1 I1) as (x2 & B2 & E2 & I2 & F2 & M2 & T2).
      { right. exists a. split; auto. unfold x1. cbn [g_op]. rewrite (si_op _ _ _ _ _ I), zat_map_nat. f_equal. symmetry. now apply nth_error_nth. }
      { intros f Hf. split; [eapply add_lt; eauto|]. eapply fr_add; [exact AR|]. now apply adds_add. }
      change (ofold _ (add a) _) with (ofold (fun x f => p <- set (g_prop x) f (Z.of_nat c) ;; q <- heap_add al (g_q x) (Z.of_nat c) (Z.of_nat f) ;; Some (put x p q)) (add a) x1).
      rewrite E2. cbn [obind].
      assert (I3 : SI S (fun b => C b \/ b = a) (rev (add a) ++ L) B2 x2).
      { destruct I2. constructor; auto. intros b Hb [Cb| ->] Rb Pb; auto. split; auto. rewrite T2. unfold x1. cbn [g_tasks]. apply insert_In. auto. }
      destruct (IH (fun b Hb => H b (or_intror Hb)) _ _ _ _ I3) as (x' & B' & E' & I'). exists x', B'. split; auto.
      rewrite rev_app_distr, <- app_assoc. destruct I'. constructor; auto. intros b Hb Q. apply si_pl0; auto. cbn [In] in Q. intuition.
    + destruct (IH (fun b Hb => H b (or_intror Hb)) _ _ _ _ I) as (x' & B' & E' & I'). exists x', B'. split; auto.
      cbn [app]. destruct I'. constructor; auto. intros b Hb Q Rb. apply si_pl0; auto. cbn [In] in Q. destruct Q as [Q|[<-|Q]]; auto. congruence.
Qed.

Lemma pg_start_ok q0 : HInv q0 -> exists x B, pg_start al P T q0 s R = Some x /\
  PI (NoDup start_facts) (fun _ => True) (fun _ => []) [] B 0 x /\ length B = length start_facts /\
  g_unsat x = map (fun l => Z.of_nat (length l)) (p_prec P) /\ g_op x = map Z.of_nat (p_cost P) /\
  (forall k f, In (k, f) B -> k = 0 \/ exists c, In c (p_cost P) /\ k = Z.of_nat c).
Proof.
  intros HQ. unfold pg_start.
  destruct (add_useful_ok s (p_goal P) []) as (uf & Eu & Iu & Nu). { intros f Hf. rewrite Ls. now apply (wf_goal _ WP). }
  rewrite Eu. cbn [obind]. fold (x_init q0 uf).
  assert (I0 : SI (fun _ => False) (fun _ => False) [] [] (x_init q0 uf)).
  { unfold x_init. constructor; cbn [g_unsat g_op g_prop g_q g_tasks g_useful]; try easy.
    - rewrite map_length. apply (wf_prec _ WP).
    - apply repeat_length.
    - now apply PQz_clear.
    - intros f Hf. rewrite zat_repeat by auto. unfold UNREACHABLE, INT_MAX. lia.
    - intros f Hf. rewrite zat_repeat by auto. unfold UNREACHABLE, INT_MAX. lia.
    - constructor.
    - apply Nu. constructor.
    - intros f. rewrite Iu. cbn [In]. intuition.
    - intros f Hf. rewrite zat_repeat by auto. unfold UNREACHABLE, INT_MAX. lia. }
  rewrite Ls. destruct (init_facts_ok _ (seq 0 nf) _ _ _ _ I0) as (x1 & B1 & E1 & I1). { intros f Hf. apply in_seq in Hf. lia. }
  unfold init_fact in E1 at 1. fold (init_fact al s) in E1. rewrite E1. cbn [obind].
  destruct (precless_ok _ (t_precless T) (fun a H => H) _ _ _ _ I1) as (x2 & B2 & E2 & I2). exists x2, B2. split; [exact E2|].
  rewrite app_nil_r, <- rev_app_distr in I2. fold start_facts in I2.
  assert (ND : NoDup start_facts -> NoDup B2).
  { intros H. apply NoDup_rev in H. rewrite <- (si_L _ _ _ _ _ I2) in H. now apply NoDup_map_inv in H. }
  assert (SE : forall f, bat s f = true -> zat (g_prop x2) f < INT_MAX).
  { intros f Hf. apply (si_s _ _ _ _ _ I2); auto. right. apply in_seq. pose proof (s_lt f Hf). lia. }
  split; [|split; [|split; [|split]]].
  - destruct I2. constructor; auto.
    + rewrite si_op0. apply map_length.
    + intros k f Hk. destruct (si_B0 k f Hk) as (Q1 & Q2 & _). auto.
    + easy.
    + intros a Ha. rewrite si_op0, zat_map_nat. lia.
    + intros a Ha. rewrite si_un0, zat_map_len, cnt_nil. unfold pre. lia.
    + intros a Ha _ Ra Na U. rewrite si_un0, zat_map_len in U. fold (pre a) in U. destruct (pre a); [easy|cbn [length] in U; lia].
    + intros a Ha _ Ra Pa. apply si_pl0; auto. right. apply (w_precless _ _ WT). rewrite <- Pa. apply nth_error_nth'. rewrite (wf_prec _ WP). auto.
    + intros a Ha. destruct (si_task0 a Ha) as (Q1 & Q2 & _). auto.
    + intros f. rewrite si_use0. split; [intuition|]. intros [Q1 [Q2|(a & Q2 & Q3)]]; auto.
      destruct (si_task0 a Q2) as (_ & _ & Q4). rewrite Q4 in Q3. easy.
    + intros e a Ha. rewrite si_un0, zat_map_len, cnt_nil. unfold pre. lia.
    + intros e k f Hk. rewrite (se_q0 (NoDup_rev e) k f Hk). split; [lia|]. split; [easy|]. destruct (si_B0 k f Hk) as (_ & Q & _). lia.
    + easy.
  - rewrite <- (rev_length start_facts), <- (si_L _ _ _ _ _ I2), map_length. reflexivity.
  - apply (si_un _ _ _ _ _ I2).
  - apply (si_op _ _ _ _ _ I2).
  - intros k f Hk. destruct (si_B _ _ _ _ _ I2 k f Hk) as (_ & _ & [Q|(a & La & Ea)]); auto. right. exists (nth a (p_cost P) 0%nat). split.
    + now apply nth_In.
    + rewrite Ea, (si_op _ _ _ _ _ I2), zat_map_nat. reflexivity.
Qed.

Lemma list_sum_filter l : (length (flat_map (fun a => if bat R a then add a else []) l) <= list_sum (map (fun a => length (nth a (p_add P) [])) l))%nat.
Proof. induction l as [|a l IH]; [auto|]. cbn [flat_map map list_sum fold_right]. unfold list_sum in IH. rewrite app_length. fold (add a). destruct (bat R a); cbn [length]; lia. Qed.

Lemma phase1_ok q0 M : HInv q0 -> 0 <= M -> (forall c, In c (p_cost P) -> Z.of_nat c <= M) ->
  match x0 <- pg_start al P T q0 s R ;; pg_loop (pg_fuel P T) al P T s R x0 with
  | Some x => exists D last, PI (NoDup start_facts) (fun _ => True) (fun _ => D) D [] last x /\ forall a, (a < na)%nat -> zat (g_op x) a <= M * 2 ^ Z.of_nat (pg_fuel P T)
  | None => INT_MAX < M * 2 ^ Z.of_nat (pg_fuel P T)
  end.
Proof.
  intros HQ HM CM. destruct (pg_start_ok q0 HQ) as (x & B & E & I & L & EU & EO & K). rewrite E. cbn [obind].
  apply (pg_loop_ok _ _ (fun _ => Logic.I) (pg_fuel P T) [] B 0 x M I).
  - rewrite L, EU. pose proof (pend_init (p_prec P) (p_add P)) as Q. rewrite (wf_add _ WP), (wf_prec _ WP) in Q. specialize (Q eq_refl).
    unfold start_facts, pg_fuel. rewrite app_length. pose proof (list_sum_filter (t_precless T)).
    assert (length (filter (bat s) (seq 0 nf)) <= nf)%nat. { clear. rewrite <- (seq_length nf 0) at 2. induction (seq 0 nf) as [|a l IH]; cbn; auto. destruct (bat s a); cbn; lia. }
    lia.
  - intros a Ha. rewrite EO, zat_map_nat. apply CM. now apply nth_In.
  - intros k f Hk. destruct (K k f Hk) as [->|(c & Hc & ->)]; [auto|]. auto.
Qed.

Lemma phase1_complete (E : Prop) D last x : PI E (fun _ => True) (fun _ => D) D [] last x -> (forall a, (a < na)%nat -> zat (g_op x) a < INT_MAX) ->
  (forall f, freach f -> (f < nf)%nat /\ zat (g_prop x) f < INT_MAX) /\ (forall a, areach a -> In a (g_tasks x)).
Proof.
  intros I OM.
  assert (ALL : forall a, (a < na)%nat -> bat R a = true -> (forall f, In f (pre a) -> (f < nf)%nat /\ zat (g_prop x) f < INT_MAX) ->
    In a (g_tasks x) /\ forall f, In f (add a) -> zat (g_prop x) f < INT_MAX).
  { intros a Ha Ra Hp. destruct (list_eq_dec Nat.eq_dec (pre a) []) as [Pa|Pa].
    - now apply (i_pl _ _ _ _ _ _ _ I).
    - destruct (i_fire _ _ _ _ _ _ _ I a Ha Logic.I Ra Pa) as [Q1 Q2]; [|split; auto].
      pose proof (i_un _ _ _ _ _ _ _ I a Ha) as U. assert (Z0 : cnt D a = 0%nat); [|lia]. apply cntun_0. intros f Hf. destruct (Hp f Hf) as [Lf Ff].
      destruct (i_cov _ _ _ _ _ _ _ I f Lf Ff) as [|[]]. auto. }
  enough (G : (forall f, freach f -> (f < nf)%nat /\ zat (g_prop x) f < INT_MAX) /\ (forall a, areach a -> In a (g_tasks x) /\ forall f, In f (add a) -> zat (g_prop x) f < INT_MAX)).
  { destruct G as [G1 G2]. split; auto. intros a Ha. now apply G2. }
  apply (reach_ind P (fun f => bat s f = true) (fun a => bat R a = true) (fun f _ => (f < nf)%nat /\ zat (g_prop x) f < INT_MAX)
    (fun a _ => In a (g_tasks x) /\ forall f, In f (add a) -> zat (g_prop x) f < INT_MAX)).
  - intros f Hf. split; [now apply s_lt|]. now apply (i_s _ _ _ _ _ _ _ I).
  - intros a f Ha [_ IH] Hf. apply adds_add in Hf. split; [eapply add_lt; eauto|auto].
  - intros a La Ra Hp IH. apply ALL; auto. intros f Hf. apply (IH f). now apply precs_pre.
Qed.

(** ** Tasks and methods *)
Notation nt := (length (p_prim P)).
Definition subs (m : nat) : list nat := match nth_error (p_methods P) m with Some md => nodup Nat.eq_dec (m_subs md) | None => [] end.
Notation treach A := (task_reach P (fun a => bat R a = true) (fun a => In a A)).
Notation mreach A := (method_reach P (fun a => bat R a = true) (fun a => In a A)).

Lemma subs_In m md t : nth_error (p_methods P) m = Some md -> In t (subs m) <-> In t (m_subs md).
Proof. intros E. unfold subs. rewrite E. apply nodup_In. Qed.
Lemma subs_nd m : NoDup (subs m).
Proof. unfold subs. destruct (nth_error _ _); [apply NoDup_nodup|constructor]. Qed.

Record UI (A : list nat) (Vf : nat -> list nat) (V : list nat) (x : up) : Prop := {
  u_len : forall m, (m < length (p_methods P))%nat -> (m < length (u_cnt x))%nat;
  u_nd : NoDup (u_tasks x);
  u_perm : Permutation (u_tasks x) (u_stack x ++ V);
  u_lt : forall t, In t (u_tasks x) -> (t < nt)%nat;
  u_A : forall t, In t A -> In t (u_tasks x);
  u_c : forall m, (m < length (p_methods P))%nat -> zat (u_cnt x) m = Z.of_nat (cntun subs (Vf m) m);
  u_m : forall m, In m (u_meths x) <-> exists md, nth_error (p_methods P) m = Some md /\ bat R (m_task md) = true /\ m_subs md <> [] /\ forall t, In t (m_subs md) -> In t (Vf m);
  u_mt : forall m md, In m (u_meths x) -> nth_error (p_methods P) m = Some md -> In (m_task md) (u_tasks x);
  u_nm : NoDup (u_meths x);
  u_st : forall t, In t (u_tasks x) -> treach A t }.

Lemma task_lt md : In md (p_methods P) -> (m_task md < nt)%nat.
Proof. intros H. apply nth_error_Some. rewrite (wfm_task _ _ (wf_methods _ WP md H)). discriminate. Qed.

Lemma visit_method_ok A Vf V x m t : UI A Vf (t :: V) x -> (m < length (p_methods P))%nat -> In t (subs m) -> Vf m = V -> ~ In t V ->
  exists x', visit_method P R x m = Some x' /\ UI A (fun n => if Nat.eqb n m then t :: V else Vf n) (t :: V) x'.
Proof.
  intros I Hm It EV NV. destruct (get_some (p_methods P) m Hm) as (md & Em).
  assert (Em' : nth_error (p_methods P) m = Some md) by exact Em.
  unfold visit_method. rewrite get_zat by (now apply (u_len _ _ _ _ I)). cbn [obind].
  set (c := zat (u_cnt x) m). destruct (set_zat (u_cnt x) m (c - 1)) as (cn & Ec & Lc & Zc); [now apply (u_len _ _ _ _ I)|]. rewrite Ec. cbn [obind].
  rewrite Em. cbn [obind]. assert (Lt : (m_task md < nt)%nat) by (apply task_lt; eapply nth_error_In; exact Em).
  rewrite get_bat by lia. cbn [obind].
  set (Vf' := fun n => if Nat.eqb n m then t :: V else Vf n).
  assert (C0 : c = Z.of_nat (S (cntun subs (t :: V) m))).
  { unfold c. rewrite (u_c _ _ _ _ I m Hm), EV. f_equal. apply cntun_in; auto. apply subs_nd. }
  assert (CC : forall n, (n < length (p_methods P))%nat -> zat cn n = Z.of_nat (cntun subs (Vf' n) n)).
  { intros n Hn. rewrite Zc. unfold Vf'. destruct (Nat.eqb_spec n m) as [->|N]; [lia|]. now apply (u_c _ _ _ _ I). }
  assert (CL' : forall n, (n < length (p_methods P))%nat -> (n < length cn)%nat) by (intros n Hn; rewrite Lc; now apply (u_len _ _ _ _ I)).
  assert (NM : ~ In m (u_meths x)).
  { intros H. apply (u_m _ _ _ _ I) in H as (md' & E' & _ & _ & H). apply NV. rewrite <- EV. apply H. apply (subs_In m md'); auto. }
  assert (SN : m_subs md <> []). { intros Q. apply (subs_In m md) in It; auto. rewrite Q in It. easy. }
  assert (MO : forall n, n <> m -> Vf' n = Vf n). { intros n N. unfold Vf'. destruct (Nat.eqb_spec n m); easy. }
  assert (MS : Vf' m = t :: V) by (unfold Vf'; now rewrite Nat.eqb_refl).
  destruct ((c - 1 =? 0) && bat R (m_task md)) eqn:FI.
  - apply andb_prop in FI as [F1 FR]. apply Z.eqb_eq in F1.
    assert (ALL : forall u, In u (m_subs md) -> In u (t :: V)).
    { intros u Hu. apply (proj1 (cntun_0 subs (t :: V) m)); [lia|]. apply (subs_In m md); auto. }
    assert (IM : forall n, In n (insert m (u_meths x)) <-> exists md, nth_error (p_methods P) n = Some md /\ bat R (m_task md) = true /\ m_subs md <> [] /\ forall t, In t (m_subs md) -> In t (Vf' n)).
    { intros n. rewrite insert_In. destruct (Nat.eq_dec n m) as [->|N].
      - split; [|auto]. intros _. exists md. rewrite MS. auto.
      - rewrite (MO n N), (u_m _ _ _ _ I). intuition. }
    assert (TR : treach A (m_task md)).
    { eapply tr_method; [|exact Em]. eapply mr_intro; eauto. intros u Hu. apply (u_st _ _ _ _ I). eapply Permutation_in; [symmetry; apply (u_perm _ _ _ _ I)|].
      apply in_app_iff. right. auto. }
    destruct (memb (m_task md) (u_tasks x)) eqn:MB.
    + eexists. split; [reflexivity|]. apply memb_In in MB. destruct I. constructor; cbn [u_cnt u_tasks u_meths u_stack]; auto.
      * intros n md' Hn En. apply insert_In in Hn as [->|Hn]; [|eauto]. replace md' with md by congruence. auto.
      * now apply insert_NoDup.
    + apply memb_false in MB. unfold push.
      assert (LL : (length (u_stack x) < nt)%nat).
      { assert (length (m_task md :: u_tasks x) <= length (seq 0 nt))%nat.
        - apply NoDup_incl_length; [constructor; auto; apply (u_nd _ _ _ _ I)|]. intros u [<-|Hu]; apply in_seq; [lia|]. pose proof (u_lt _ _ _ _ I u Hu). lia.
        - rewrite seq_length in H. cbn [length] in H. pose proof (Permutation_length (u_perm _ _ _ _ I)) as Q. rewrite app_length in Q. lia. }
      apply Nat.ltb_lt in LL. rewrite LL. cbn [obind].
      eexists. split; [reflexivity|]. destruct I. constructor; cbn [u_cnt u_tasks u_meths u_stack]; auto.
      * now apply insert_NoDup.
      * unfold insert. apply memb_false in MB. rewrite MB. rewrite <- Permutation_cons_append. cbn [app]. now constructor.
      * intros u Hu. apply insert_In in Hu as [->|Hu]; auto.
      * intros u Hu. apply insert_In. auto.
      * intros n md' Hn En. apply insert_In. apply insert_In in Hn as [->|Hn]; [|eauto]. replace md' with md by congruence. auto.
      * now apply insert_NoDup.
      * intros u Hu. apply insert_In in Hu as [->|Hu]; auto.
  - eexists. split; [reflexivity|]. destruct I. constructor; cbn [u_cnt u_tasks u_meths u_stack]; auto.
    intros n. destruct (Nat.eq_dec n m) as [->|N]; [|rewrite (MO n N); apply u_m0]. split; [easy|].
    intros (md' & E' & R' & S' & H'). exfalso. replace md' with md in * by congruence. rewrite R', andb_true_r in FI. apply Z.eqb_neq in FI. apply FI.
    assert (Z0 : cntun subs (t :: V) m = 0%nat); [|lia]. apply cntun_0. intros u Hu. rewrite <- MS. apply H'. apply (subs_In m md); auto.
Qed.

Lemma UI_ext A Vf Vf' V x : (forall m, (m < length (p_methods P))%nat -> (forall t, In t (subs m) -> In t (Vf m) <-> In t (Vf' m))) -> UI A Vf V x -> UI A Vf' V x.
Proof.
  intros H []. constructor; auto.
  - intros m Hm. rewrite u_c0 by auto. f_equal. unfold cntun. f_equal. apply filter_ext_in. intros t Ht. f_equal. specialize (H m Hm t Ht).
    destruct (memb t (Vf m)) eqn:E1, (memb t (Vf' m)) eqn:E2; auto.
    + apply memb_In in E1. apply memb_false in E2. tauto.
    + apply memb_In in E2. apply memb_false in E1. tauto.
  - intros m. rewrite u_m0. split; intros (md & E & Q1 & Q2 & Q3); exists md; repeat (split; auto); intros t Ht.
    + apply H; auto. { apply nth_error_Some. congruence. } apply (subs_In m md); auto.
    + apply H; auto. { apply nth_error_Some. congruence. } apply (subs_In m md); auto.
Qed.

Lemma methods_ok A V t : ~ In t V -> forall rest, NoDup rest -> (forall m, In m rest -> (m < length (p_methods P))%nat /\ In t (subs m)) ->
  forall Vf x, UI A Vf (t :: V) x -> (forall m, In m rest -> Vf m = V) ->
  exists x', ofold (visit_method P R) rest x = Some x' /\ UI A (fun n => if memb n rest then t :: V else Vf n) (t :: V) x'.
Proof.
  intros NV. induction rest as [|m rest IH]; intros ND H Vf x I HV; cbn [ofold].
  - exists x. split; auto.
  - inversion ND as [|? ? N1 N2]; subst. destruct (H m (or_introl eq_refl)) as [Hm Ht].
    destruct (visit_method_ok A Vf V x m t I Hm Ht (HV m (or_introl eq_refl)) NV) as (x1 & E1 & I1). rewrite E1. cbn [obind].
    destruct (IH N2 (fun n Hn => H n (or_intror Hn)) _ _ I1) as (x2 & E2 & I2).
    { intros n Hn. destruct (Nat.eqb_spec n m) as [->|]; [easy|]. apply HV. now right. }
    exists x2. split; auto. eapply UI_ext; [|exact I2]. intros n _ u _. cbv beta. cbn [memb existsb]. fold (memb n rest).
    destruct (Nat.eqb n m), (memb n rest); cbn [orb]; tauto.
Qed.

Lemma up_loop_ok A : forall fuel V x, UI A (fun _ => V) V x -> (nt <= fuel + length V)%nat ->
  exists x' V', up_loop fuel P T R x = Some x' /\ UI A (fun _ => V') V' x' /\ u_stack x' = [].
Proof.
  induction fuel as [|fuel IH]; intros V x I Fu; cbn [up_loop]; destruct (u_stack x) as [|t st] eqn:ES.
  - exists x, V. auto.
  - exfalso. assert (length (u_tasks x) <= length (seq 0 nt))%nat.
    { apply NoDup_incl_length; [apply (u_nd _ _ _ _ I)|]. intros u Hu. apply in_seq. pose proof (u_lt _ _ _ _ I u Hu). lia. }
    rewrite seq_length in H. pose proof (Permutation_length (u_perm _ _ _ _ I)) as Q. rewrite app_length, ES in Q. cbn [length] in Q. lia.
  - exists x, V. auto.
  - assert (Ht : In t (u_tasks x)). { eapply Permutation_in; [symmetry; apply (u_perm _ _ _ _ I)|]. rewrite ES. now left. }
    assert (NV : ~ In t V).
    { pose proof (u_nd _ _ _ _ I) as N. eapply Permutation_NoDup in N; [|apply (u_perm _ _ _ _ I)]. rewrite ES in N. cbn [app] in N.
      inversion N as [|? ? N1 _]; subst. intros H. apply N1. apply in_app_iff. auto. }
    assert (Lt : (t < length (t_stm T))%nat) by (pose proof (u_lt _ _ _ _ I t Ht); pose proof (w_stm_len _ _ WT); lia).
    rewrite (get_row (t_stm T)) by exact Lt. cbn [obind].
    destruct (w_stm _ _ WT t (nth t (t_stm T) []) (u_lt _ _ _ _ I t Ht)) as [ND RW]. { now apply nth_error_nth'. }
    set (row := nth t (t_stm T) []) in *.
    destruct (methods_ok A V t NV row ND) with (Vf := fun _ : nat => V) (x := {| u_cnt := u_cnt x; u_tasks := u_tasks x; u_meths := u_meths x; u_stack := st |}) as (x1 & E1 & I1).
    + intros m Hm. apply RW in Hm as (md & Em & Hs). split; [apply nth_error_Some; congruence|]. now apply (subs_In m md).
    + destruct I. constructor; cbn [u_cnt u_tasks u_meths u_stack]; auto.
      rewrite u_perm0, ES. cbn [app]. apply Permutation_middle.
    + auto.
    + rewrite E1. cbn [obind].
      destruct (IH (t :: V) x1) as (x2 & V2 & E2 & I2 & S2).
      * eapply UI_ext; [|exact I1]. intros m Hm u Hu. cbv beta. destruct (memb m row) eqn:MR; [tauto|]. apply memb_false in MR. cbn [In].
        split; [auto|]. intros [->|]; auto. elim MR. apply RW. destruct (nth_error (p_methods P) m) as [md|] eqn:Em; [|apply nth_error_None in Em; lia].
        exists md. split; auto. now apply (subs_In m md).
      * cbn [length]. lia.
      * exists x2, V2. auto.
Qed.

Lemma phase2_ok A : NoDup A -> (forall t, In t A -> (t < nt)%nat) ->
  exists u, (st <- ofold (fun st t => push nt t st) A [] ;; up_loop nt P T R {| u_cnt := map Z.of_nat (t_nst T); u_tasks := A; u_meths := []; u_stack := st |}) = Some u /\
    NoDup (u_tasks u) /\ NoDup (u_meths u) /\
    (forall t, In t (u_tasks u) -> treach A t) /\ (forall m, In m (u_meths u) -> mreach A m) /\
    (forall t, In t A -> In t (u_tasks u)) /\
    ((forall md, In md (p_methods P) -> m_subs md <> []) -> (forall t, treach A t -> In t (u_tasks u)) /\ (forall m, mreach A m -> In m (u_meths u))).
Proof.
  intros ND LT.
  assert (PU : forall l st, (length l + length st <= nt)%nat -> ofold (fun st t => push nt t st) l st = Some (rev l ++ st)).
  { induction l as [|a l IH]; intros st H; cbn [ofold rev app]; auto. unfold push at 1. cbn [length] in H. rewrite (proj2 (Nat.ltb_lt (length st) nt)) by lia. cbn [obind].
    rewrite IH by (cbn [length]; lia). rewrite <- app_assoc. reflexivity. }
  rewrite PU. 2: { cbn [length]. rewrite Nat.add_0_r, <- (seq_length nt 0). apply NoDup_incl_length; auto. intros u Hu. apply in_seq. specialize (LT u Hu). lia. }
  cbn [obind]. rewrite app_nil_r.
  destruct (up_loop_ok A nt [] {| u_cnt := map Z.of_nat (t_nst T); u_tasks := A; u_meths := []; u_stack := rev A |}) as (u & V & E & I & S).
  - constructor; cbn [u_cnt u_tasks u_meths u_stack]; auto.
    + intros m Hm. rewrite map_length. destruct (get_some _ m Hm) as (md & Em). apply nth_error_Some. rewrite (w_nst _ _ WT m md Em). discriminate.
    + rewrite app_nil_r. apply Permutation_rev.
    + intros m Hm. rewrite zat_map_nat. f_equal. destruct (get_some _ m Hm) as (md & Em). rewrite (nth_error_nth _ _ _ (w_nst _ _ WT m md Em)).
      unfold cntun, subs. unfold get in Em. rewrite Em. generalize (nodup Nat.eq_dec (m_subs md)) as l. induction l as [|y l IH]; cbn; auto.
    + intros m. split; [easy|]. intros (md & Em & _ & Q1 & Q2). destruct (m_subs md) as [|t l]; [easy|]. elim (Q2 t). now left.
    + easy.
    + constructor.
    + intros t Ht. now constructor.
  - cbn [length]. lia.
  - exists u. split; auto. assert (TV : forall t, In t (u_tasks u) <-> In t V).
    { intros t. pose proof (u_perm _ _ _ _ I) as Q. rewrite S in Q. cbn [app] in Q. split; intros H; [|apply Permutation_sym in Q]; eapply Permutation_in; eauto. }
    split; [apply (u_nd _ _ _ _ I)|]. split; [apply (u_nm _ _ _ _ I)|]. split; [apply (u_st _ _ _ _ I)|].
    assert (MR : forall m, In m (u_meths u) -> mreach A m).
    { intros m Hm. apply (u_m _ _ _ _ I) in Hm as (md & Em & Rm & _ & Hs). eapply mr_intro; eauto. intros t Ht. apply (u_st _ _ _ _ I). apply TV. auto. }
    split; auto. split; [apply (u_A _ _ _ _ I)|]. intros NE.
    apply (task_method_ind P (fun a => bat R a = true) (fun a => In a A) (fun t _ => In t (u_tasks u)) (fun m _ => In m (u_meths u))).
    + intros a Ha. now apply (u_A _ _ _ _ I).
    + intros m md _ Hm Em. eapply (u_mt _ _ _ _ I); eauto.
    + intros m md Em Rm _ IH. apply (u_m _ _ _ _ I). exists md. split; auto. split; auto. split; [apply NE; eapply nth_error_In; eauto|].
      intros t Ht. apply TV. now apply IH.
Qed.
End PG.
