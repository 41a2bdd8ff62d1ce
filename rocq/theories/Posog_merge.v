(** Proofs about the merging of partially ordered methods. *)
From Verif Require Import Base Htn_problem Posog_model Posog_spec.

Lemma mset_true (t : matrix) x y a b : mset t x y true a b = true <-> (a = x /\ b = y) \/ t a b = true.
Proof.
  unfold Order_model.mset. destruct (Nat.eqb_spec a x), (Nat.eqb_spec b y); cbn [andb]; subst; split; intros H; auto; try (destruct H as [[? ?]|H]; congruence).
Qed.
Lemma some_eq {A} (a b : A) : Some a = Some b -> b = a.
Proof. congruence. Qed.

Lemma before_In me a b : before me a b = true <-> In (a, b) (m_ord me).
Proof.
  unfold before. rewrite existsb_exists. split.
  - intros ([x y] & I & E). apply andb_true_iff in E as [E1 E2]. apply Nat.eqb_eq in E1, E2. now subst.
  - intros I. exists (a, b). split; auto. now rewrite !Nat.eqb_refl.
Qed.

(** ** Invariant of the graph *)
Record ginv (g : posog) : Prop := {
  gi_lab : length (g_labels g) = g_n g;
  gi_conv : forall x y, g_bdj g y x = true <-> g_adj g x y = true;
  gi_aconv : forall x y, g_abdj g y x = true <-> g_aadj g x y = true;
  gi_rng : forall x y, g_adj g x y = true -> x < g_n g /\ y < g_n g /\ x <> y;
  gi_arng : forall x y, g_aadj g x y = true -> x < g_n g /\ y < g_n g /\ x <> y;
  gi_dis : forall x y, g_adj g x y = true -> g_aadj g x y = true -> False;
  gi_anti : forall x y, g_adj g x y = true -> g_aadj g y x = true;
  gi_eff : forall v, In v (g_eff g) -> v < g_n g }.

(** The graph only grows. *)
Record ext (g g' : posog) : Prop := {
  ex_n : g_n g <= g_n g';
  ex_lab : forall v ls, nth_error (g_labels g) v = Some ls -> exists ls', nth_error (g_labels g') v = Some ls' /\ incl ls ls';
  ex_adj : forall x y, g_adj g x y = true -> g_adj g' x y = true;
  ex_aadj : forall x y, g_aadj g x y = true -> g_aadj g' x y = true }.
Lemma ext_refl g : ext g g.
Proof. constructor; auto. intros. exists ls. split; auto. apply incl_refl. Qed.
Lemma ext_trans g1 g2 g3 : ext g1 g2 -> ext g2 g3 -> ext g1 g3.
Proof.
  intros [A1 A2 A3 A4] [B1 B2 B3 B4]. constructor; auto; [lia|].
  intros v ls G. destruct (A2 _ _ G) as (l2 & G2 & I2). destruct (B2 _ _ G2) as (l3 & G3 & I3). exists l3. split; auto. eapply incl_tran; eauto.
Qed.

(** The subtasks in [dn] have been put on vertices. *)
Record placed (g : posog) (me : method) (mp dn : list nat) : Prop := {
  pl_some : forall i, In i dn -> exists v t ls, nth_error mp i = Some v /\ v < g_n g /\ nth_error (m_subs me) i = Some t /\ nth_error (g_labels g) v = Some ls /\ In t ls;
  pl_inj : forall i j v, In i dn -> In j dn -> nth_error mp i = Some v -> nth_error mp j = Some v -> i = j;
  pl_ord : forall i j u v, In i dn -> In j dn -> nth_error mp i = Some u -> nth_error mp j = Some v -> i <> j ->
           if before me i j then g_adj g u v = true else g_aadj g u v = true }.
Lemma placed_ext g g' me mp dn : ext g g' -> placed g me mp dn -> placed g' me mp dn.
Proof.
  intros X [S I O]. constructor; auto.
  - intros i Hi. destruct (S i Hi) as (v & t & ls & G & L & T & GL & Il). destruct (ex_lab _ _ X _ _ GL) as (ls' & GL' & Inc).
    exists v, t, ls'. split; [auto|]. split; [pose proof (ex_n _ _ X); lia|]. split; auto.
  - intros i j u v Hi Hj Gu Gv NE. specialize (O i j u v Hi Hj Gu Gv NE). destruct (before me i j); [apply (ex_adj _ _ X)|apply (ex_aadj _ _ X)]; auto.
Qed.

(** ** po_fits, po_cands *)
Definition fit1 (g : posog) (me : method) (sub v o ov : nat) : Prop :=
  if before me sub o then g_adj g ov v = false /\ g_aadj g v ov = false
  else if before me o sub then g_adj g v ov = false /\ g_aadj g ov v = false
  else g_adj g v ov = false /\ g_adj g ov v = false.

Lemma bool_false (b c : bool) : (b = true <-> c = true) -> b = false -> c = false.
Proof. destruct b, c; intros [H1 H2] E; auto; try discriminate. discriminate (H2 eq_refl). Qed.

Lemma fits_ok g me mp sub v others : ginv g -> (forall o, In o others -> exists ov, nth_error mp o = Some ov) ->
  exists b, po_fits g me mp sub v others = Some b /\ (b = true -> forall o ov, In o others -> nth_error mp o = Some ov -> fit1 g me sub v o ov).
Proof.
  intros GI. induction others as [|o r IH]; intros D; cbn [po_fits].
  - exists true. split; auto. intros _ o ov [].
  - destruct (D o (or_introl eq_refl)) as (ov & G). unfold get. rewrite G. cbn [obind].
    match goal with |- context [if ?c then Some false else _] => set (bad := c) end.
    destruct bad eqn:B.
    + exists false. split; auto. discriminate.
    + destruct IH as (b & E & F). { intros o' Ho'. apply D. now right. }
      exists b. split; auto. intros Q o' ov' [<-|I] G'; [|now apply F].
      rewrite G in G'. apply some_eq in G'. subst ov'. unfold fit1. unfold bad in B.
      destruct (before me sub o); [|destruct (before me o sub)]; apply orb_false_iff in B as [B1 B2]; split; auto;
        match goal with
        | H : g_bdj g ?x ?y = false |- g_adj g ?y ?x = false => exact (bool_false _ _ (gi_conv g GI y x) H)
        | H : g_abdj g ?x ?y = false |- g_aadj g ?y ?x = false => exact (bool_false _ _ (gi_aconv g GI y x) H)
        end.
Qed.

Definition eff_match (sep : bool) (g : posog) (e : bool) (v : nat) : Prop := sep = true -> (e = true <-> In v (g_eff g)).

Lemma cands_ok sep g me mp taken others sub e vs : ginv g -> (forall o, In o others -> exists ov, nth_error mp o = Some ov) ->
  exists cs, po_cands sep g me mp taken others sub e vs = Some cs /\
    forall v, In v cs -> In v vs /\ ~ In v taken /\ eff_match sep g e v /\ forall o ov, In o others -> nth_error mp o = Some ov -> fit1 g me sub v o ov.
Proof.
  intros GI D. induction vs as [|v r (cs & E & F)]; cbn [po_cands].
  - exists []. split; auto. intros v [].
  - rewrite E. destruct (memb v taken) eqn:MT.
    + cbn [obind]. exists cs. split; auto. intros w Hw. destruct (F w Hw) as (A & B). split; [now right|auto].
    + destruct (sep && negb (Bool.eqb e (memb v (g_eff g)))) eqn:SE.
      * cbn [obind]. exists cs. split; auto. intros w Hw. destruct (F w Hw) as (A & B). split; [now right|auto].
      * destruct (fits_ok g me mp sub v others GI D) as (b & Eb & Fb). rewrite Eb. cbn [obind]. eexists. split; [reflexivity|].
        intros w Hw. assert (Q : (b = true /\ w = v) \/ In w cs) by (destruct b; [destruct Hw; auto|auto]).
        destruct Q as [[Qb ->]|Q].
        -- split; [now left|]. split; [now apply memb_false|]. split; [|now apply Fb].
           intros ->. cbn [andb] in SE. apply negb_false_iff, Bool.eqb_prop in SE. rewrite SE. apply memb_In.
        -- destruct (F w Q) as (A & B). split; [now right|auto].
Qed.

Lemma labelled_ok labels t cs : (forall x, In x cs -> x < length labels) ->
  exists o, po_labelled labels t cs = Some o /\ forall v, o = Some v -> In v cs.
Proof.
  induction cs as [|x r IH]; intros R; cbn [po_labelled].
  - exists None. split; auto. discriminate.
  - destruct (get_some labels x) as (ls & G). { apply R. now left. } rewrite G. cbn [obind]. destruct (memb t ls).
    + exists (Some x). split; auto. intros v E. left. congruence.
    + destruct IH as (o & E & F). { intros y Hy. apply R. now right. } exists o. split; auto. intros v Ev. right. auto.
Qed.
Lemma choose_ok labels t cs : cs <> [] -> (forall x, In x cs -> x < length labels) -> exists v, po_choose labels t cs = Some v /\ In v cs.
Proof.
  intros NE R. unfold po_choose. destruct (labelled_ok labels t cs R) as (o & E & F). rewrite E. cbn [obind]. destruct o as [v|].
  - exists v. split; auto.
  - destruct cs as [|c r]; [contradiction|]. exists c. split; [reflexivity|now left].
Qed.

(** ** po_edge *)
Definition asym (me : method) : Prop := forall a b, In (a, b) (m_ord me) -> In (b, a) (m_ord me) -> False.

Lemma edge_ok me mp sub v o ov g : ginv g -> asym me -> nth_error mp o = Some ov -> v < g_n g -> ov < g_n g -> v <> ov -> fit1 g me sub v o ov ->
  exists g', po_edge me mp sub v g o = Some g' /\ ginv g' /\ ext g g' /\ g_n g' = g_n g /\ g_labels g' = g_labels g /\ g_eff g' = g_eff g /\
    (if before me sub o then g_adj g' v ov = true else g_aadj g' v ov = true) /\
    (if before me o sub then g_adj g' ov v = true else g_aadj g' ov v = true) /\
    (forall x y, ~ (x = v /\ y = ov) -> ~ (x = ov /\ y = v) -> g_adj g' x y = g_adj g x y /\ g_aadj g' x y = g_aadj g x y) /\
    (forall x y, g_adj g' x y = true -> g_adj g x y = true \/ (before me sub o = true /\ x = v /\ y = ov) \/ (before me o sub = true /\ x = ov /\ y = v)).
Proof.
  intros GI AS G Lv Lo NE F. unfold po_edge, get. rewrite G. cbn [obind].
  destruct (Nat.ltb_spec v (g_n g)); [|lia]. destruct (Nat.ltb_spec ov (g_n g)); [|lia]. cbn [andb negb].
  assert (OTH : forall t : matrix, forall a b x y, ~ (x = a /\ y = b) -> mset t a b true x y = t x y).
  { intros t a b x y N. destruct (t x y) eqn:E; [apply mset_true; auto|]. destruct (mset t a b true x y) eqn:E2; auto. apply mset_true in E2 as [Q|Q]; [contradiction|congruence]. }
  destruct (before me sub o) eqn:B1; [|destruct (before me o sub) eqn:B2]; unfold fit1 in F; rewrite B1 in F; try rewrite B2 in F; destruct F as [F1 F2].
  - assert (B2 : before me o sub = false). { destruct (before me o sub) eqn:B2; auto. apply before_In in B1, B2. elim (AS sub o); auto. }
    rewrite B2. eexists. split; [reflexivity|]. cbn [g_n g_labels g_adj g_bdj g_aadj g_abdj g_eff]. split; [|split; [|split; [auto|split; [auto|split; [auto|split; [|split; [|split]]]]]]].
    + constructor; cbn [g_n g_labels g_adj g_bdj g_aadj g_abdj g_eff]; try apply GI.
      * intros x y. rewrite !mset_true, (gi_conv _ GI). tauto.
      * intros x y. rewrite !mset_true, (gi_aconv _ GI). tauto.
      * intros x y [[-> ->]|Q]%mset_true; [auto|]. now apply (gi_rng _ GI).
      * intros x y [[-> ->]|Q]%mset_true; [auto|]. now apply (gi_arng _ GI).
      * intros x y [[-> ->]|Q]%mset_true [[E1 E2]|R]%mset_true; try congruence; try (subst; congruence). eapply (gi_dis _ GI); eauto.
      * intros x y [[-> ->]|Q]%mset_true; apply mset_true; [auto|]. right. now apply (gi_anti _ GI).
    + constructor; cbn [g_n g_labels g_adj g_aadj]; auto.
      * intros. exists ls. split; auto. apply incl_refl.
      * intros. apply mset_true. auto.
      * intros. apply mset_true. auto.
    + apply mset_true. auto.
    + apply mset_true. auto.
    + intros x y N1 N2. rewrite !OTH; auto.
    + intros x y [[-> ->]|Q]%mset_true; auto.
  - eexists. split; [reflexivity|]. cbn [g_n g_labels g_adj g_bdj g_aadj g_abdj g_eff]. split; [|split; [|split; [auto|split; [auto|split; [auto|split; [|split; [|split]]]]]]].
    + constructor; cbn [g_n g_labels g_adj g_bdj g_aadj g_abdj g_eff]; try apply GI.
      * intros x y. rewrite !mset_true, (gi_conv _ GI). tauto.
      * intros x y. rewrite !mset_true, (gi_aconv _ GI). tauto.
      * intros x y [[-> ->]|Q]%mset_true; [auto|]. now apply (gi_rng _ GI).
      * intros x y [[-> ->]|Q]%mset_true; [auto|]. now apply (gi_arng _ GI).
      * intros x y [[-> ->]|Q]%mset_true [[E1 E2]|R]%mset_true; try congruence; try (subst; congruence). eapply (gi_dis _ GI); eauto.
      * intros x y [[-> ->]|Q]%mset_true; apply mset_true; [auto|]. right. now apply (gi_anti _ GI).
    + constructor; cbn [g_n g_labels g_adj g_aadj]; auto.
      * intros. exists ls. split; auto. apply incl_refl.
      * intros. apply mset_true. auto.
      * intros. apply mset_true. auto.
    + apply mset_true. auto.
    + apply mset_true. auto.
    + intros x y N1 N2. rewrite !OTH; auto.
    + intros x y [[-> ->]|Q]%mset_true; auto.
  - eexists. split; [reflexivity|]. cbn [g_n g_labels g_adj g_bdj g_aadj g_abdj g_eff]. split; [|split; [|split; [auto|split; [auto|split; [auto|split; [|split; [|split]]]]]]].
    + constructor; cbn [g_n g_labels g_adj g_bdj g_aadj g_abdj g_eff]; try apply GI.
      * intros x y. rewrite !mset_true, (gi_aconv _ GI). tauto.
      * intros x y [[-> ->]|[[-> ->]|Q]%mset_true]%mset_true; [auto|auto|]. now apply (gi_arng _ GI).
      * intros x y Q [[-> ->]|[[-> ->]|R]%mset_true]%mset_true; try congruence. eapply (gi_dis _ GI); eauto.
      * intros x y Q. apply mset_true. right. apply mset_true. right. now apply (gi_anti _ GI).
    + constructor; cbn [g_n g_labels g_adj g_aadj]; auto.
      * intros. exists ls. split; auto. apply incl_refl.
      * intros. apply mset_true. right. apply mset_true. auto.
    + apply mset_true. right. apply mset_true. auto.
    + apply mset_true. auto.
    + intros x y N1 N2. rewrite !OTH; auto.
    + auto.
Qed.

(** all earlier subtasks *)
Lemma edges_ok me mp sub v : asym me -> nth_error mp sub = Some v -> forall others g,
  NoDup others -> ~ In sub others ->
  (forall o, In o others -> exists ov, nth_error mp o = Some ov /\ ov < g_n g /\ v <> ov /\ fit1 g me sub v o ov) ->
  (forall i j w, In i others -> In j others -> nth_error mp i = Some w -> nth_error mp j = Some w -> i = j) ->
  ginv g -> v < g_n g ->
  exists g', ofold (po_edge me mp sub v) others g = Some g' /\ ginv g' /\ ext g g' /\ g_n g' = g_n g /\ g_labels g' = g_labels g /\ g_eff g' = g_eff g /\
    (forall o ov, In o others -> nth_error mp o = Some ov ->
       (if before me sub o then g_adj g' v ov = true else g_aadj g' v ov = true) /\ (if before me o sub then g_adj g' ov v = true else g_aadj g' ov v = true)) /\
    (forall x y, g_adj g' x y = true -> g_adj g x y = true \/ exists i j, In i (sub :: others) /\ In j (sub :: others) /\ before me i j = true /\ nth_error mp i = Some x /\ nth_error mp j = Some y).
Proof.
  intros AS GV. induction others as [|o r IH]; intros g ND NI D IJ GI LV; cbn [ofold].
  - exists g. split; auto. split; auto. split; [apply ext_refl|]. repeat split; auto; contradiction.
  - inversion ND as [|? ? N1 N2]; subst. destruct (D o (or_introl eq_refl)) as (ov & G & Lo & NE & F).
    destruct (edge_ok me mp sub v o ov g GI AS G LV Lo NE F) as (g1 & E1 & GI1 & X1 & En & El & Ee & O1 & O2 & OTH & PR). rewrite E1. cbn [obind].
    destruct (IH g1 N2) as (g' & E2 & GI2 & X2 & En2 & El2 & Ee2 & O3 & PR2).
    + intros Q. apply NI. now right.
    + intros o' Ho'. destruct (D o' (or_intror Ho')) as (ov' & G' & Lo' & NE' & F'). exists ov'. rewrite En. split; auto. split; auto. split; auto.
      assert (NV : ov' <> ov). { intros ->. apply N1. rewrite (IJ o o' ov); auto; [now left|now right]. }
      destruct (OTH v ov') as [A1 A2]; [intros [_ Q]; auto|intros [Q _]; auto|]. destruct (OTH ov' v) as [A3 A4]; [intros [Q _]; auto|intros [Q _]; auto|].
      unfold fit1 in *. rewrite A1, A2, A3, A4. auto.
    + intros i j w Hi Hj. apply IJ; now right.
    + auto.
    + rewrite En. auto.
    + exists g'. split; auto. split; auto. split; [eapply ext_trans; eauto|]. split; [congruence|]. split; [congruence|]. split; [congruence|]. split.
      * intros o' ov' [<-|I] G'; [|now apply O3]. rewrite G in G'. apply some_eq in G'. subst ov'. split.
        -- destruct (before me sub o); [apply (ex_adj _ _ X2)|apply (ex_aadj _ _ X2)]; auto.
        -- destruct (before me o sub); [apply (ex_adj _ _ X2)|apply (ex_aadj _ _ X2)]; auto.
      * intros x y Q. destruct (PR2 x y Q) as [Q1|(i & j & Ii & Ij & Z)]; [|right; exists i, j; cbn [In] in *; intuition auto]. destruct (PR x y Q1) as [Q2|[(B & -> & ->)|(B & -> & ->)]]; auto.
        -- right. exists sub, o. cbn [In]. auto 8.
        -- right. exists o, sub. cbn [In]. auto 8.
Qed.

(** ** Labels *)
Lemma label_ok g v t e : ginv g -> v < g_n g -> exists g', po_label g v t e = Some g' /\ ginv g' /\ ext g g' /\ g_n g' = g_n g /\
    g_adj g' = g_adj g /\ g_aadj g' = g_aadj g /\ (forall w, In w (g_eff g') <-> In w (g_eff g) \/ (e = true /\ w = v)) /\
    (exists ls, nth_error (g_labels g') v = Some ls /\ In t ls) /\
    (forall w ls u, nth_error (g_labels g') w = Some ls -> In u ls -> (exists ls0, nth_error (g_labels g) w = Some ls0 /\ In u ls0) \/ (w = v /\ u = t)).
Proof.
  intros GI L. unfold po_label. destruct (get_some (g_labels g) v) as (ls & G). { rewrite (gi_lab _ GI). auto. } rewrite G. cbn [obind].
  destruct (set_some (g_labels g) v (if memb t ls then ls else t :: ls)) as (l' & E). { rewrite (gi_lab _ GI). auto. } rewrite E. cbn [obind].
  pose proof (set_length _ _ _ _ E) as LL. pose proof (get_set_eq _ _ _ _ E) as GE.
  assert (GN : forall w, w <> v -> get l' w = get (g_labels g) w). { intros w N. eapply get_set_neq; eauto. }
  eexists. split; [reflexivity|]. cbn [g_n g_labels g_adj g_aadj g_eff]. split; [|split; [|split; [auto|split; [auto|split; [auto|split; [|split]]]]]].
  - constructor; cbn [g_n g_labels g_adj g_bdj g_aadj g_abdj g_eff]; try apply GI.
    + rewrite LL. apply GI.
    + intros w Hw. destruct e; [destruct Hw as [<-|Hw]; auto|]; now apply (gi_eff _ GI).
  - constructor; cbn [g_n g_labels g_adj g_aadj]; auto. intros w lw Gw. destruct (Nat.eq_dec w v) as [->|N].
    + exists (if memb t ls then ls else t :: ls). split; [exact GE|]. unfold get in G. rewrite Gw in G. apply some_eq in G. subst lw. destruct (memb t ls); [apply incl_refl|now apply incl_tl, incl_refl].
    + exists lw. split; [|apply incl_refl]. rewrite <- Gw. exact (GN w N).
  - intros w. destruct e; cbn [In]; intuition congruence.
  - exists (if memb t ls then ls else t :: ls). split; [exact GE|]. destruct (memb t ls) eqn:M; [now apply memb_In|now left].
  - intros w lw u Gw Iu. destruct (Nat.eq_dec w v) as [->|N].
    + unfold get in GE. rewrite GE in Gw. apply some_eq in Gw. subst lw. destruct (memb t ls); [left; exists ls; auto|]. destruct Iu as [<-|Iu]; [auto|]. left. exists ls. auto.
    + left. exists lw. split; auto. rewrite <- Gw. symmetry. exact (GN w N).
Qed.

Lemma grow_ok g : ginv g -> ginv (po_grow g) /\ ext g (po_grow g).
Proof.
  intros GI. unfold po_grow. split.
  - constructor; cbn [g_n g_labels g_adj g_bdj g_aadj g_abdj g_eff]; try apply GI.
    + rewrite app_length. cbn. rewrite (gi_lab _ GI). lia.
    + intros x y Q. pose proof (gi_rng _ GI x y Q). lia.
    + intros x y Q. pose proof (gi_arng _ GI x y Q). lia.
    + intros v Q. pose proof (gi_eff _ GI v Q). lia.
  - constructor; cbn [g_n g_labels g_adj g_aadj]; auto. intros v ls G. exists ls. split; [|apply incl_refl]. rewrite nth_error_app1; auto. apply nth_error_Some. congruence.
Qed.

(** Vertices for effectless actions carry only those, the others none of them. *)
Definition homog (P : problem) (g : posog) : Prop := forall v ls t e, nth_error (g_labels g) v = Some ls -> In t ls -> effectless P t = Some e -> (e = true <-> In v (g_eff g)).

Lemma effectless_some P t : effects_known P -> exists e, effectless P t = Some e.
Proof.
  intros K. unfold effectless. destruct (nth t (p_prim P) false) eqn:E; [|eauto]. destruct (K t E) as [A B].
  destruct (get_some _ _ A) as (a & Ea). destruct (get_some _ _ B) as (b & Eb). rewrite Ea, Eb. cbn [obind]. eauto.
Qed.

(** where the edges and labels of the graph come from *)
Definition from_edge (mes : list (method * list nat)) (x y : nat) : Prop :=
  exists me mp i j, In (me, mp) mes /\ In (i, j) (m_ord me) /\ nth_error mp i = Some x /\ nth_error mp j = Some y.
Definition from_label (mes : list (method * list nat)) (v t : nat) : Prop :=
  exists me mp i, In (me, mp) mes /\ nth_error mp i = Some v /\ nth_error (m_subs me) i = Some t.

(** ** One subtask *)
Section Sub.
Context (P : problem) (sep : bool) (me : method) (EK : effects_known P) (AS : asym me).
Context (E : nat -> nat -> Prop) (L : nat -> nat -> Prop).

Record sinv (g : posog) (mp taken dn : list nat) : Prop := {
  si_g : ginv g;
  si_pl : placed g me mp dn;
  si_len : length mp = length (m_subs me);
  si_taken : forall v, In v taken <-> exists i, In i dn /\ nth_error mp i = Some v;
  si_hom : sep = true -> homog P g;
  si_edge : forall x y, g_adj g x y = true -> E x y \/ exists i j, In i dn /\ In j dn /\ before me i j = true /\ nth_error mp i = Some x /\ nth_error mp j = Some y;
  si_label : forall v ls t, nth_error (g_labels g) v = Some ls -> In t ls -> L v t \/ exists i, In i dn /\ nth_error mp i = Some v /\ nth_error (m_subs me) i = Some t;
  si_full : forall v, v < g_n g -> exists ls, nth_error (g_labels g) v = Some ls /\ ls <> [] }.

Lemma sub_ok g mp taken dn sub : sinv g mp taken dn -> NoDup dn -> ~ In sub dn -> sub < length (m_subs me) ->
  exists g' mp' v, po_sub P sep me dn sub (g, mp, taken) = Some (g', mp', v :: taken) /\ sinv g' mp' (v :: taken) (dn ++ [sub]) /\ ext g g' /\
    g_n g' <= S (g_n g).
Proof.
  intros [GI PL LN TK HM PE PLb FU] ND NI LT. unfold po_sub.
  destruct (get_some _ _ LT) as (t & Gt). rewrite Gt. cbn [obind]. destruct (effectless_some P t EK) as (e & Ee). rewrite Ee. cbn [obind].
  assert (DM : forall o, In o dn -> exists ov, nth_error mp o = Some ov). { intros o Ho. destruct (pl_some _ _ _ _ PL o Ho) as (v & _ & _ & Gv & _). eauto. }
  destruct (cands_ok sep g me mp taken dn sub e (seq 0 (g_n g)) GI DM) as (cs & Ec & Fc). rewrite Ec. cbn [obind].
  assert (Q : exists g1 cs1, (match cs with [] => (po_grow g, [g_n g]) | _ => (g, cs) end) = (g1, cs1) /\ cs1 <> [] /\ ginv g1 /\ ext g g1 /\ g_n g1 <= S (g_n g) /\
      g_adj g1 = g_adj g /\ g_aadj g1 = g_aadj g /\ g_eff g1 = g_eff g /\
      (forall w ls u, nth_error (g_labels g1) w = Some ls -> In u ls -> nth_error (g_labels g) w = Some ls) /\
      (forall v, v < g_n g1 -> cs1 = [v] \/ v < g_n g) /\
      (forall v, In v cs1 -> v < g_n g1 /\ ~ In v taken /\ (forall i w, In i dn -> nth_error mp i = Some w -> w <> v) /\
         (sep = true -> forall ls, nth_error (g_labels g1) v = Some ls -> ls <> [] -> (e = true <-> In v (g_eff g))) /\
         (sep = true -> e = false -> ~ In v (g_eff g)) /\
         forall o ov, In o dn -> nth_error mp o = Some ov -> fit1 g1 me sub v o ov)).
  { destruct cs as [|c r].
    - exists (po_grow g), [g_n g]. split; auto. split; [discriminate|]. destruct (grow_ok g GI) as [G1 X1]. split; auto. split; auto.
      assert (FR : forall w, g_adj g (g_n g) w = false /\ g_adj g w (g_n g) = false /\ g_aadj g (g_n g) w = false /\ g_aadj g w (g_n g) = false).
      { intros w. repeat split; match goal with |- ?t = false => destruct t eqn:Z; auto end; try (apply (gi_rng _ GI) in Z; lia); try (apply (gi_arng _ GI) in Z; lia). }
      cbn [po_grow g_n g_adj g_aadj g_eff g_labels]. split; [auto|]. split; [auto|]. split; [auto|]. split; [auto|]. split.
      + intros w ls u G I. destruct (Nat.ltb_spec w (length (g_labels g))) as [Hw|Hw].
        * rewrite nth_error_app1 in G; auto.
        * rewrite nth_error_app2 in G; auto. destruct (w - length (g_labels g)) as [|k]; cbn in G; [|destruct k; discriminate]. apply some_eq in G. subst ls. destruct I.
      + split; [intros v Hv; destruct (Nat.eq_dec v (g_n g)); [left; subst; auto|right; lia]|].
        intros v [<-|[]]. split; [lia|]. split; [|split; [|split; [|split]]].
        * rewrite TK. intros (i & Hi & Gi). destruct (pl_some _ _ _ _ PL i Hi) as (w' & _ & _ & Gw & Lw & _). rewrite Gi in Gw. apply some_eq in Gw. lia.
        * intros i w Hi Gi ->. destruct (pl_some _ _ _ _ PL i Hi) as (w' & _ & _ & Gw & Lw & _). rewrite Gi in Gw. apply some_eq in Gw. lia.
        * intros _ ls G NE. rewrite nth_error_app2 in G by (rewrite (gi_lab _ GI); lia). rewrite (gi_lab _ GI), Nat.sub_diag in G. cbn in G. apply some_eq in G. subst ls. contradiction.
        * intros _ _ Z. apply (gi_eff _ GI) in Z. lia.
        * intros o ov Ho Go. unfold fit1. cbn [po_grow g_adj g_aadj]. destruct (FR ov) as (F1 & F2 & F3 & F4). destruct (before me sub o); [auto|]. destruct (before me o sub); auto.
    - exists g, (c :: r). split; auto. split; [discriminate|]. split; auto. split; [apply ext_refl|]. split; [lia|]. split; auto. split; auto. split; auto. split; auto. split; [auto|].
      intros v Hv. destruct (Fc v Hv) as (A1 & A2 & A3 & A4). apply in_seq in A1. split; [lia|]. split; [auto|]. split; [|split; [|split]].
      + intros i w Hi Gi ->. apply A2. apply TK. eauto.
      + intros Hs ls _ _. now apply A3.
      + intros Hs He Q. apply A3 in Q; auto. congruence.
      + auto. }
  destruct Q as (g1 & cs1 & E1 & NE1 & GI1 & X1 & N1 & EA & EAA & EE & LB & CV & FC). rewrite E1.
  destruct (choose_ok (g_labels g1) t cs1 NE1) as (v & Ev & Iv). { intros x Hx. rewrite (gi_lab _ GI1). now apply FC. } rewrite Ev. cbn [obind].
  destruct (FC v Iv) as (Lv & NT & FR & HE & HE0 & FT).
  destruct (set_some mp sub v) as (mp' & Em). { lia. } rewrite Em. cbn [obind].
  pose proof (set_length _ _ _ _ Em) as LM. pose proof (get_set_eq _ _ _ _ Em) as GM.
  assert (GO : forall i, i <> sub -> nth_error mp' i = nth_error mp i). { intros i Hi. exact (get_set_neq _ _ _ _ _ Em (not_eq_sym Hi)). }
  assert (GD : forall i, In i dn -> nth_error mp' i = nth_error mp i). { intros i Hi. apply GO. intros ->. contradiction. }
  destruct (label_ok g1 v t e GI1 Lv) as (g2 & E2 & GI2 & X2 & N2 & EA2 & EAA2 & EF2 & LT2 & LF2). rewrite E2. cbn [obind].
  assert (PL2 : placed g2 me mp' dn).
  { apply (placed_ext g); [eapply ext_trans; eauto|]. destruct PL as [S I O]. constructor.
    - intros i Hi. rewrite GD; auto.
    - intros i j w Hi Hj. rewrite !GD by auto. apply I; auto.
    - intros i j u w Hi Hj. rewrite !GD by auto. apply (O i j u w Hi Hj). }
  destruct (edges_ok me mp' sub v AS GM dn g2 ND NI) as (g3 & E3 & GI3 & X3 & N3 & L3 & EF3 & O3 & PR3); auto.
  { intros o Ho. destruct (pl_some _ _ _ _ PL o Ho) as (ov & _ & _ & Go & Lo & _). exists ov. rewrite GD by auto. split; auto. split; [rewrite N2; pose proof (ex_n _ _ X1); lia|]. split; [|].
    - intros ->. eapply FR; eauto.
    - specialize (FT o ov Ho Go). unfold fit1 in *. rewrite EA2, EAA2. exact FT. }
  { intros i j w Hi Hj. apply (pl_inj _ _ _ _ PL2); auto. }
  { lia. }
  exists g3, mp', v. rewrite E3. cbn [obind]. split; auto. split; [|split; [eapply ext_trans; [|eauto]; eapply ext_trans; eauto|lia]].
  constructor; auto.
  - pose proof (placed_ext _ _ _ _ _ X3 PL2) as [S I O]. constructor.
    + intros i Hi. apply in_app_iff in Hi as [Hi|[<-|[]]]; [now apply S|]. destruct LT2 as (ls & Gl & It). exists v, t, ls. rewrite L3. split; [exact GM|]. split; [lia|]. auto.
    + intros i j w Hi Hj Gi Gj. apply in_app_iff in Hi as [Hi|[<-|[]]]; apply in_app_iff in Hj as [Hj|[<-|[]]]; auto.
      * eapply I; eauto.
      * exfalso. rewrite GD in Gi by auto. unfold get in GM. rewrite GM in Gj. apply some_eq in Gj. subst w. eapply FR; eauto.
      * exfalso. rewrite GD in Gj by auto. unfold get in GM. rewrite GM in Gi. apply some_eq in Gi. subst w. eapply FR; eauto.
    + intros i j u w Hi Hj Gi Gj NE. apply in_app_iff in Hi as [Hi|[<-|[]]]; apply in_app_iff in Hj as [Hj|[<-|[]]].
      * now apply (O i j u w).
      * unfold get in GM. rewrite GM in Gj. apply some_eq in Gj. subst w. destruct (O3 i u Hi Gi). auto.
      * unfold get in GM. rewrite GM in Gi. apply some_eq in Gi. subst u. destruct (O3 j w Hj Gj). auto.
      * contradiction.
  - lia.
  - intros w. cbn [In]. rewrite TK. split.
    + intros [<-|(i & Hi & Gi)]; [exists sub; split; [apply in_app_iff; right; now left|exact GM]|]. exists i. rewrite GD by auto. split; [apply in_app_iff; auto|auto].
    + intros (i & Hi & Gi). apply in_app_iff in Hi as [Hi|[<-|[]]]; [right; exists i; rewrite GD in Gi by auto; auto|]. unfold get in GM. rewrite GM in Gi. apply some_eq in Gi. auto.
  - intros Hs w ls u eu Gw Iu Eu. rewrite L3 in Gw. rewrite EF3, EF2, EE. specialize (HM Hs).
    destruct (LF2 w ls u Gw Iu) as [(ls0 & G0 & I0)|[-> ->]].
    + pose proof (HM w ls0 u eu (LB w ls0 u G0 I0) I0 Eu) as HW. rewrite HW. split; [auto|]. intros [Z|[Z ->]]; auto.
      apply (HE Hs ls0 G0); auto. intros ->. destruct I0.
    + rewrite Ee in Eu. apply some_eq in Eu. subst eu. split; [auto|]. intros [Z|[Z _]]; auto. destruct e; auto. elim (HE0 Hs eq_refl Z).
  - intros x y Q. destruct (PR3 x y Q) as [Q1|(i & j & Ii & Ij & B & Gi & Gj)].
    + rewrite EA2, EA in Q1. destruct (PE x y Q1) as [Z|(i & j & Hi & Hj & B & Gi & Gj)]; auto. right. exists i, j. rewrite !GD by auto. rewrite !in_app_iff. auto 8.
    + right. exists i, j. rewrite !in_app_iff. cbn [In] in *. intuition auto.
  - intros w ls u Gw Iu. rewrite L3 in Gw. destruct (LF2 w ls u Gw Iu) as [(ls0 & G0 & I0)|[-> ->]].
    + destruct (PLb w ls0 u (LB w ls0 u G0 I0) I0) as [Z|(i & Hi & Gi & Ti)]; auto. right. exists i. rewrite GD by auto. rewrite in_app_iff. auto.
    + right. exists sub. rewrite in_app_iff. split; [right; now left|]. split; [exact GM|exact Gt].
  - intros w Hw. rewrite L3. rewrite N3, N2 in Hw. destruct (Nat.eq_dec w v) as [->|NV].
    + destruct LT2 as (ls & G & I). exists ls. split; auto. intros ->. destruct I.
    + destruct (CV w Hw) as [->|Z]; [destruct Iv; [congruence|contradiction]|]. destruct (FU w Z) as (ls & G & NEl).
      destruct (ex_lab _ _ (ext_trans _ _ _ X1 X2) w ls G) as (ls' & G' & I'). exists ls'. split; auto. intros ->. destruct ls as [|a l]; [contradiction|]. elim (I' a). now left.
Qed.
End Sub.

(** ** A whole method *)
Lemma asym_closed me : closed_order me -> asym me.
Proof. intros [R I T] a b H1 H2. exact (I a (T a b a H1 H2)). Qed.

Lemma subs_ok P sep me (EK : effects_known P) (AS : asym me) E L : forall todo g mp taken dn, sinv P sep me E L g mp taken dn -> NoDup (dn ++ todo) ->
  (forall i, In i todo -> i < length (m_subs me)) ->
  exists g' mp' taken', po_subs P sep me dn todo (g, mp, taken) = Some (g', mp', taken') /\ sinv P sep me E L g' mp' taken' (dn ++ todo) /\ ext g g' /\
    g_n g' <= g_n g + length todo.
Proof.
  induction todo as [|s r IH]; intros g mp taken dn SI ND LT; cbn [po_subs].
  - exists g, mp, taken. rewrite app_nil_r. split; auto. split; auto. split; [apply ext_refl|]. cbn. lia.
  - apply nodup_app_iff in ND as (N1 & N2 & N3). inversion N2 as [|? ? N4 N5]; subst.
    destruct (sub_ok P sep me EK AS E L g mp taken dn s SI N1) as (g1 & mp1 & v & E1 & SI1 & X1 & L1).
    { intros Q. apply (N3 s Q). now left. } { apply LT. now left. }
    rewrite E1. cbn [obind]. destruct (IH g1 mp1 (v :: taken) (dn ++ [s]) SI1) as (g2 & mp2 & tk2 & E2 & SI2 & X2 & L2).
    { rewrite <- app_assoc. cbn. apply nodup_app_iff. repeat split; auto. }
    { intros i Hi. apply LT. now right. }
    exists g2, mp2, tk2. split; auto. rewrite <- app_assoc in SI2. split; auto. split; [eapply ext_trans; eauto|]. cbn. lia.
Qed.

(** The state between two methods. *)
Record minv (P : problem) (sep : bool) (g : posog) (mes : list (method * list nat)) : Prop := {
  mi_g : ginv g;
  mi_hom : sep = true -> homog P g;
  mi_edge : forall x y, g_adj g x y = true -> from_edge mes x y;
  mi_label : forall v ls t, nth_error (g_labels g) v = Some ls -> In t ls -> from_label mes v t;
  mi_full : forall v, v < g_n g -> exists ls, nth_error (g_labels g) v = Some ls /\ ls <> [];
  mi_emb : forall me mp, In (me, mp) mes -> closed_order me /\ length mp = length (m_subs me) /\ placed g me mp (seq 0 (length (m_subs me))) }.

Lemma omap_get_all {A} (o : list A) : omap (get o) (seq 0 (length o)) = Some o.
Proof.
  assert (G : forall (l pre : list A), omap (get (pre ++ l)) (seq (length pre) (length l)) = Some l).
  { induction l as [|a l IH]; intros pre; cbn [length seq omap]; auto. unfold get at 1. rewrite nth_error_app2, Nat.sub_diag by lia. cbn [nth_error obind].
    replace (pre ++ a :: l) with ((pre ++ [a]) ++ l) by (rewrite <- app_assoc; reflexivity). replace (S (length pre)) with (length (pre ++ [a])) by (rewrite app_length; cbn; lia).
    rewrite IH. reflexivity. }
  exact (G o []).
Qed.

Lemma method_ok P sep mto g mes m me o : effects_known P -> minv P sep g mes -> nth_error (p_methods P) m = Some me -> closed_order me ->
  nth_error mto m = Some o -> Permutation o (seq 0 (length (m_subs me))) ->
  exists g' mp, po_method P sep mto g m = Some (g', mp) /\ minv P sep g' (mes ++ [(me, mp)]) /\ g_n g <= g_n g' <= g_n g + length (m_subs me).
Proof.
  intros EK MI Gm CO Go PM. unfold po_method, get at 1. rewrite Gm. cbn [obind]. unfold get at 1. rewrite Go. cbn [obind].
  pose proof (Permutation_length PM) as LO. rewrite seq_length in LO. replace (omap (get o) (seq 0 (length (m_subs me)))) with (Some o) by (rewrite <- LO; symmetry; apply omap_get_all). cbn [obind].
  destruct (subs_ok P sep me EK (asym_closed me CO) (from_edge mes) (from_label mes) o g (repeat 0 (length (m_subs me))) [] []) as (g' & mp & tk & E & SI & X & LE).
  { constructor; [apply (mi_g _ _ _ _ MI)| | | |apply (mi_hom _ _ _ _ MI)| | |apply (mi_full _ _ _ _ MI)].
    - constructor; contradiction.
    - apply repeat_length.
    - intros v. split; [contradiction|]. intros (i & [] & _).
    - intros x y Q. left. now apply (mi_edge _ _ _ _ MI).
    - intros v ls t G I. left. eapply (mi_label _ _ _ _ MI); eauto. }
  { cbn. eapply Permutation_NoDup; [apply Permutation_sym; eauto|apply seq_NoDup]. }
  { intros i Hi. apply (Permutation_in _ PM) in Hi. apply in_seq in Hi. lia. }
  cbn [app] in SI. assert (IO : forall i, In i o <-> In i (seq 0 (length (m_subs me)))).
  { intros i. split; apply Permutation_in; auto. now apply Permutation_sym. }
  exists g', mp. rewrite E. cbn [obind]. split; auto. split; [|pose proof (ex_n _ _ X); lia].
  destruct SI as [GI PL LN TK HM PE PLb FU]. constructor; auto.
  - intros x y Q. destruct (PE x y Q) as [(me' & mp' & i & j & A & B)|(i & j & Hi & Hj & B & Gi & Gj)].
    + exists me', mp', i, j. split; auto. apply in_app_iff. auto.
    + exists me, mp, i, j. split; [apply in_app_iff; right; now left|]. split; auto. now apply before_In.
  - intros v ls t G I. destruct (PLb v ls t G I) as [(me' & mp' & i & A & B)|(i & Hi & Gi & Ti)].
    + exists me', mp', i. split; auto. apply in_app_iff. auto.
    + exists me, mp, i. split; [apply in_app_iff; right; now left|]. auto.
  - intros me' mp' I. apply in_app_iff in I as [I|[I|[]]].
    + destruct (mi_emb _ _ _ _ MI me' mp' I) as (A & B & C). split; auto. split; auto. eapply placed_ext; eauto.
    + apply pair_equal_spec in I as [<- <-]. split; auto. split; auto. destruct PL as [A B C]. constructor.
      * intros i Hi. apply A. now apply IO.
      * intros i j v Hi Hj. apply B; now apply IO.
      * intros i j u v Hi Hj. apply C; now apply IO.
Qed.

(** ** The first method *)
Lemma first_adj_ok n ord : (forall a b, In (a, b) ord -> a < n /\ b < n) ->
  exists A B, first_adj n ord = Some (A, B) /\ (forall x y, A x y = true <-> In (x, y) ord) /\ (forall x y, B y x = true <-> In (x, y) ord).
Proof.
  unfold first_adj. assert (G : forall ord A0 B0, (forall a b, In (a, b) ord -> a < n /\ b < n) ->
    exists A B, ofold (fun '(a, b) '(x, y) => if Nat.ltb x n && Nat.ltb y n then Some (mset a x y true, mset b y x true) else None) ord (A0, B0) = Some (A, B) /\
      (forall x y, A x y = true <-> In (x, y) ord \/ A0 x y = true) /\ (forall x y, B y x = true <-> In (x, y) ord \/ B0 y x = true)).
  { clear ord. induction ord as [|[a b] r IH]; intros A0 B0 R; cbn [ofold].
    - exists A0, B0. split; auto. cbn [In]. split; intros; tauto.
    - destruct (R a b (or_introl eq_refl)) as [L1 L2]. destruct (Nat.ltb_spec a n); [|lia]. destruct (Nat.ltb_spec b n); [|lia]. cbn [andb obind].
      destruct (IH (mset A0 a b true) (mset B0 b a true)) as (A & B & E & FA & FB). { intros x y Q. apply R. now right. }
      exists A, B. split; auto. split; intros x y; [rewrite FA|rewrite FB]; rewrite mset_true; cbn [In]; split.
      + intros [Q|[[-> ->]|Q]]; auto.
      + intros [[Q|Q]|Q]; auto. apply pair_equal_spec in Q as [-> ->]. auto.
      + intros [Q|[[-> ->]|Q]]; auto.
      + intros [[Q|Q]|Q]; auto. apply pair_equal_spec in Q as [-> ->]. auto. }
  intros R. destruct (G ord empty_matrix empty_matrix R) as (A & B & E & FA & FB). exists A, B. split; auto. unfold empty_matrix in *.
  split; intros x y; [rewrite FA|rewrite FB]; split; auto; intros [Q|Q]; auto; discriminate.
Qed.

Lemma first_anti_ok n (adj : matrix) : forall A B, first_anti n adj = (A, B) ->
  (forall x y, A x y = true <-> x < n /\ y < n /\ x <> y /\ adj x y = false) /\ (forall x y, B y x = true <-> x < n /\ y < n /\ x <> y /\ adj x y = false).
Proof.
  intros A B. unfold first_anti.
  assert (G : forall l A0 B0 A B, fold_left (fun '(a, b) '(i, j) => if Nat.eqb i j then (a, b) else if adj i j then (a, b) else (mset a i j true, mset b j i true)) l (A0, B0) = (A, B) ->
     (forall x y, A x y = true <-> (In (x, y) l /\ x <> y /\ adj x y = false) \/ A0 x y = true) /\ (forall x y, B y x = true <-> (In (x, y) l /\ x <> y /\ adj x y = false) \/ B0 y x = true)).
  { induction l as [|[i j] r IH]; intros A0 B0 A1 B1 E; cbn [fold_left] in E.
    - apply pair_equal_spec in E as [<- <-]. cbn [In]. split; intros; tauto.
    - destruct (Nat.eqb_spec i j) as [->|NE]; [|destruct (adj i j) eqn:AE]; destruct (IH _ _ _ _ E) as [FA FB]; (split; intros x y; [rewrite FA|rewrite FB]); cbn [In].
      + split; [intros [(Q & Z)|Q]; auto|]. intros [([Q|Q] & Z)|Q]; auto. apply pair_equal_spec in Q as [-> ->]. destruct Z as [Z1 Z2]; contradiction.
      + split; [intros [(Q & Z)|Q]; auto|]. intros [([Q|Q] & Z)|Q]; auto. apply pair_equal_spec in Q as [-> ->]. destruct Z as [Z1 Z2]; contradiction.
      + split; [intros [(Q & Z)|Q]; auto|]. intros [([Q|Q] & Z)|Q]; auto. apply pair_equal_spec in Q as [-> ->]. destruct Z as [Z1 Z2]; congruence.
      + split; [intros [(Q & Z)|Q]; auto|]. intros [([Q|Q] & Z)|Q]; auto. apply pair_equal_spec in Q as [-> ->]. destruct Z as [Z1 Z2]; congruence.
      + rewrite mset_true. split; [intros [(Q & Z)|[[-> ->]|Q]]; auto|]. intros [([Q|Q] & Z)|Q]; auto. apply pair_equal_spec in Q as [-> ->]. auto.
      + rewrite mset_true. split; [intros [(Q & Z)|[[-> ->]|Q]]; auto|]. intros [([Q|Q] & Z)|Q]; auto. apply pair_equal_spec in Q as [-> ->]. auto. }
  intros E. destruct (G _ _ _ _ _ E) as [FA FB]. unfold empty_matrix in *.
  assert (IG : forall x y, In (x, y) (grid n) <-> x < n /\ y < n). { intros x y. unfold Order_model.grid. rewrite in_prod_iff, !in_seq. lia. }
  split; intros x y; [rewrite FA|rewrite FB]; rewrite IG; intuition discriminate.
Qed.

Lemma first_eff_ok P subs : effects_known P -> exists e, first_eff P subs = Some e /\
  forall v, In v e <-> exists t, nth_error subs v = Some t /\ effectless P t = Some true.
Proof.
  intros EK. unfold first_eff.
  assert (G : forall l l0, (forall i, In i l -> i < length subs) -> exists e,
     ofold (fun l i => t <- get subs i ;; e <- effectless P t ;; Some (if (e : bool) then i :: l else l)) l l0 = Some e /\
     forall v, In v e <-> In v l0 \/ (In v l /\ exists t, nth_error subs v = Some t /\ effectless P t = Some true)).
  { induction l as [|i r IH]; intros l0 R; cbn [ofold].
    - exists l0. split; auto. cbn [In]. intros v. tauto.
    - destruct (get_some subs i) as (t & Gt). { apply R. now left. } rewrite Gt. cbn [obind]. destruct (effectless_some P t EK) as (e & Ee). rewrite Ee. cbn [obind].
      destruct (IH (if e then i :: l0 else l0)) as (e' & E & F). { intros j Hj. apply R. now right. } exists e'. split; auto.
      intros v. rewrite F. destruct e; cbn [In].
      + split; [intros [[->|Q]|[Q Z]]|intros [Q|[[->|Q] Z]]]; auto. right. split; [auto|]. exists t. auto.
      + split; [intros [Q|[Q Z]]|intros [Q|[[->|Q] Z]]]; auto. destruct Z as (t' & Gt' & Et'). unfold get in Gt. rewrite Gt in Gt'. apply some_eq in Gt'. subst. congruence. }
  destruct (G (seq 0 (length subs)) []) as (e & E & F). { intros i Hi. apply in_seq in Hi. lia. }
  exists e. split; auto. intros v. rewrite F. cbn [In]. split; [intros [[]|[_ Q]]; auto|]. intros (t & Gt & Z). right. split; [|eauto].
  apply in_seq. split; [lia|]. cbn. apply nth_error_Some. congruence.
Qed.

Lemma nth_error_seq n i v : nth_error (seq 0 n) i = Some v <-> v = i /\ i < n.
Proof.
  split.
  - intros G. assert (L : i < n). { rewrite <- (seq_length n 0). apply nth_error_Some. congruence. }
    split; auto. rewrite (nth_error_nth' _ 0) in G by now rewrite seq_length. rewrite seq_nth in G by auto. cbn in G. congruence.
  - intros [-> L]. rewrite (nth_error_nth' _ 0) by now rewrite seq_length. rewrite seq_nth; auto.
Qed.

Lemma first_ok P sep m me : effects_known P -> nth_error (p_methods P) m = Some me -> closed_order me ->
  exists g mp, po_first P m = Some (g, mp) /\ minv P sep g [(me, mp)] /\ g_n g = length (m_subs me).
Proof.
  intros EK Gm CO. unfold po_first, get. rewrite Gm. cbn [obind]. destruct (first_eff_ok P (m_subs me) EK) as (e & Ee & Fe). rewrite Ee. cbn [obind].
  destruct (first_adj_ok (length (m_subs me)) (m_ord me)) as (A & B & EA & FA & FB). { apply (co_rng _ CO). } rewrite EA. cbn [obind].
  destruct (first_anti (length (m_subs me)) A) as [AA AB] eqn:EN. destruct (first_anti_ok _ _ _ _ EN) as [FAA FAB].
  eexists _, _. split; [reflexivity|]. split; [|reflexivity].
  assert (GL : forall v ls, nth_error (map (fun t => [t]) (m_subs me)) v = Some ls -> exists t, nth_error (m_subs me) v = Some t /\ ls = [t]).
  { intros v ls G. rewrite nth_error_map in G. destruct (nth_error (m_subs me) v) as [t|]; [|discriminate]. exists t. split; auto. cbn in G. congruence. }
  constructor; cbn [g_n g_labels g_adj g_bdj g_aadj g_abdj g_eff].
  - constructor; cbn [g_n g_labels g_adj g_bdj g_aadj g_abdj g_eff].
    + apply map_length.
    + intros x y. rewrite FA, FB. tauto.
    + intros x y. rewrite FAA, FAB. tauto.
    + intros x y Q. apply FA in Q. destruct (co_rng _ CO x y Q). repeat split; auto. intros ->. exact (co_irr _ CO y Q).
    + intros x y Q. apply FAA in Q. tauto.
    + intros x y Q R. apply FAA in R. destruct R as (_ & _ & _ & R). congruence.
    + intros x y Q. apply FA in Q. destruct (co_rng _ CO x y Q). apply FAA. repeat split; auto.
      * intros ->. exact (co_irr _ CO x Q).
      * destruct (A y x) eqn:Z; auto. apply FA in Z. elim (asym_closed me CO x y Q Z).
    + intros v Q. apply Fe in Q as (t & Gt & _). apply nth_error_Some. congruence.
  - intros _ v ls t b G I E. destruct (GL v ls G) as (t' & Gt & ->). destruct I as [->|[]]. rewrite Fe. split.
    + intros ->. eauto.
    + intros (t' & Gt' & Et'). rewrite Gt in Gt'. apply some_eq in Gt'. subst t'. congruence.
  - intros x y Q. apply FA in Q. destruct (co_rng _ CO x y Q). exists me, (seq 0 (length (m_subs me))), x, y. split; [now left|]. split; auto. split; apply nth_error_seq; auto.
  - intros v ls t G I. destruct (GL v ls G) as (t' & Gt & ->). destruct I as [->|[]]. exists me, (seq 0 (length (m_subs me))), v. split; [now left|]. split; auto.
    apply nth_error_seq. split; auto. apply nth_error_Some. congruence.
  - intros v L. destruct (nth_error (m_subs me) v) as [t|] eqn:Gt; [|apply nth_error_None in Gt; lia]. exists [t]. rewrite nth_error_map, Gt. split; [reflexivity|discriminate].
  - intros me' mp' [I|[]]. apply pair_equal_spec in I as [<- <-]. split; auto. split; [apply seq_length|]. constructor; cbn [g_n g_labels g_adj g_aadj].
    + intros i Hi. apply in_seq in Hi. destruct (nth_error (m_subs me) i) as [t|] eqn:Gt; [|apply nth_error_None in Gt; lia].
      exists i, t, [t]. split; [apply nth_error_seq; lia|]. split; [lia|]. split; auto. rewrite nth_error_map, Gt. split; [reflexivity|now left].
    + intros i j v _ _ Gi Gj. apply nth_error_seq in Gi, Gj. lia.
    + intros i j u v _ _ Gi Gj NE. apply nth_error_seq in Gi, Gj. destruct Gi as [-> Li], Gj as [-> Lj].
      destruct (before me i j) eqn:Bf; [apply before_In in Bf; now apply FA|]. apply FAA. repeat split; auto.
      destruct (A i j) eqn:Z; auto. apply FA, before_In in Z. congruence.
Qed.

(** ** All methods *)
Lemma methods_ok P sep mto : effects_known P -> forall ms g mes, (forall m, In m ms -> meth_ok P mto m) -> minv P sep g mes ->
  exists g' mps mes', po_methods P sep mto g ms = Some (g', mps) /\ minv P sep g' (mes ++ mes') /\ g_n g <= g_n g' /\
    map snd mes' = mps /\ Forall2 (fun m x => nth_error (p_methods P) m = Some (fst x)) ms mes' /\
    g_n g' <= g_n g + list_sum (map (fun x => length (m_subs (fst x))) mes').
Proof.
  intros EK. induction ms as [|m r IH]; intros g mes H MI; cbn [po_methods].
  - exists g, [], []. rewrite app_nil_r. split; [auto|]. split; [auto|]. split; [lia|]. split; [auto|]. split; [constructor|]. cbn. lia.
  - destruct (H m (or_introl eq_refl)) as (me & o & Gm & CO & Go & PM).
    destruct (method_ok P sep mto g mes m me o EK MI Gm CO Go PM) as (g1 & mp & E1 & MI1 & L1). rewrite E1. cbn [obind].
    destruct (IH g1 (mes ++ [(me, mp)])) as (g2 & mps & mes' & E2 & MI2 & L2 & M2 & F2 & S2); auto. { intros m' Hm'. apply H. now right. }
    rewrite E2. cbn [obind]. exists g2, (mp :: mps), ((me, mp) :: mes'). split; auto. rewrite <- app_assoc in MI2. split; auto. split; [lia|].
    split; [cbn; congruence|]. split; [constructor; auto|]. cbn [map list_sum fold_right fst]. unfold list_sum in *. cbn [fold_right]. lia.
Qed.

Lemma sog_ok P sep mto m0 r : effects_known P -> (forall m, In m (m0 :: r) -> meth_ok P mto m) ->
  exists g mps mes, po_sog P sep mto (m0 :: r) = Some (g, mps) /\ minv P sep g mes /\ map snd mes = mps /\
    Forall2 (fun m x => nth_error (p_methods P) m = Some (fst x)) (m0 :: r) mes /\ g_n g <= list_sum (map (fun x => length (m_subs (fst x))) mes).
Proof.
  intros EK H. cbn [po_sog]. destruct (H m0 (or_introl eq_refl)) as (me & o & Gm & CO & Go & PM).
  destruct (first_ok P sep m0 me EK Gm CO) as (g & mp & E & MI & L). rewrite E. cbn [obind].
  destruct (methods_ok P sep mto EK r g [(me, mp)]) as (g' & mps & mes' & E2 & MI2 & L2 & M2 & F2 & S2); auto. { intros m' Hm'. apply H. now right. }
  rewrite E2. cbn [obind]. exists g', (mp :: mps), ((me, mp) :: mes'). split; auto. split; auto. split; [cbn; congruence|]. split; [constructor; auto|].
  cbn [map list_sum fold_right fst]. unfold list_sum in *. cbn [fold_right]. lia.
Qed.

(** From the invariant to the specification. *)
Lemma placed_embedded g me mp : ginv g -> closed_order me -> length mp = length (m_subs me) -> placed g me mp (seq 0 (length (m_subs me))) ->
  embedded (g_n g) (g_labels g) (fun x y => g_adj g x y = true) me mp.
Proof.
  intros GI CO LN [S I O]. assert (IS : forall i v, nth_error mp i = Some v -> In i (seq 0 (length (m_subs me)))).
  { intros i v G. apply in_seq. split; [lia|]. cbn. rewrite <- LN. apply nth_error_Some. congruence. }
  constructor; auto.
  - apply NoDup_nth_error. intros i j L E. destruct (nth_error mp i) as [v|] eqn:Gi; [|apply nth_error_None in Gi; lia]. eapply I; eauto.
  - intros v Iv. apply In_nth_error in Iv as (i & Gi). destruct (S i (IS _ _ Gi)) as (v' & _ & _ & Gv & Lv & _). rewrite Gi in Gv. apply some_eq in Gv. now subst.
  - intros i v t Gi Gt. destruct (S i (IS _ _ Gi)) as (v' & t' & ls & Gv & Lv & Gt' & Gl & Il). rewrite Gi in Gv. apply some_eq in Gv. rewrite Gt in Gt'. apply some_eq in Gt'. subst. eauto.
  - intros i j u v Gi Gj. destruct (Nat.eq_dec i j) as [->|NE].
    + rewrite Gi in Gj. apply some_eq in Gj. subst v. split; [intros Q; apply (gi_rng _ GI) in Q; tauto|]. intros Q. elim (co_irr _ CO j Q).
    + specialize (O i j u v (IS _ _ Gi) (IS _ _ Gj) Gi Gj NE). destruct (before me i j) eqn:B.
      * apply before_In in B. tauto.
      * split; [intros Q; elim (gi_dis _ GI u v Q O)|]. intros Q. apply before_In in Q. congruence.
Qed.

Lemma effectless_iff P t : effects_known P -> forall e, effectless P t = Some e -> (e = true <-> no_effect P t).
Proof.
  intros EK e. unfold effectless, no_effect. destruct (nth t (p_prim P) false) eqn:Q.
  - destruct (EK t Q) as [A B]. destruct (get_some _ _ A) as (a & Ea). destruct (get_some _ _ B) as (b & Eb). rewrite Ea, Eb. cbn [obind]. intros E. apply some_eq in E. subst e.
    unfold get in Ea, Eb. rewrite Ea, Eb. rewrite andb_true_iff, !Nat.eqb_eq, !length_zero_iff_nil. split; [intros [-> ->]; auto|]. intros (_ & E1 & E2). split; congruence.
  - intros E. apply some_eq in E. subst e. split; [discriminate|]. intros [Z _]. discriminate.
Qed.
