(** The search nodes of the model represent task networks of the specification, and the two modifications
    [decompose1] and [apply1] do on the representation what decomposition and execution do on networks. *)
From Coq Require Import Relations.
From Verif Require Import Base Rel Htn_model Htn_spec Htn_sem.

(** ** Graph of plan steps *)
Definition edge (h : list pstep) (i j : nat) : Prop := exists ps, get h i = Some ps /\ In j (ps_succ ps).
Notation tc h := (clos_trans nat (edge h)).
Notation rtc h := (clos_refl_trans nat (edge h)).

Definition heads (n : node) : list nat := n_abs n ++ n_prim n.
Definition live (h : list pstep) (n : node) (i : nat) : Prop := exists r, In r (heads n) /\ rtc h r i.

(** Heap: all pointers valid, all task names in range. *)
Record wf_heap (P : problem) (h : list pstep) : Prop := {
  wh_closed : forall i j, edge h i j -> j < length h;
  wh_task : forall i ps, get h i = Some ps -> ps_task ps < length (p_prim P) }.

Record Rep (P : problem) (h : list pstep) (n : node) (s : state) (tn : tnet) (pi : nat -> tid) : Prop := {
  r_len : length (n_state n) = p_nfacts P;
  r_state : forall f, s f <-> get (n_state n) f = Some true;
  r_lt : forall i, In i (heads n) -> i < length h;
  r_in : forall x, t_in tn x <-> exists i, live h n i /\ pi i = x;
  r_inj : forall i j, live h n i -> live h n j -> pi i = pi j -> i = j;
  r_lab : forall i ps, live h n i -> get h i = Some ps -> t_lab tn (pi i) = ps_task ps;
  r_ord : forall i j, live h n i -> live h n j -> (t_ord tn (pi i) (pi j) <-> tc h i j);
  r_nodup : NoDup (heads n);
  r_min : forall i, In i (heads n) -> minimal tn (pi i);
  r_abs : forall i ps, In i (n_abs n) -> get h i = Some ps -> nth_error (p_prim P) (ps_task ps) = Some false;
  r_prim : forall i ps, In i (n_prim n) -> get h i = Some ps -> nth_error (p_prim P) (ps_task ps) = Some true;
  r_wf : wf_tn tn }.

Lemma edge_lt h i j : edge h i j -> i < length h.
Proof. intros (ps & H & _). eapply get_lt; eauto. Qed.

Lemma rtc_lt P h i j : wf_heap P h -> i < length h -> rtc h i j -> j < length h.
Proof.
  intros W Hi H. eapply (rtc_inv_l nat (edge h) (fun k => k < length h)); [|exact Hi|exact H].
  intros a b _ E. eapply (wh_closed _ _ W); eauto.
Qed.

Lemma get_app_l {A} (h e : list A) i : i < length h -> get (h ++ e) i = get h i.
Proof. intros. unfold get. now apply nth_error_app1. Qed.
Lemma get_app_r {A} (h e : list A) j : get (h ++ e) (length h + j) = get e j.
Proof. unfold get. rewrite nth_error_app2 by lia. f_equal. lia. Qed.

Lemma edge_ext h e i j : i < length h -> edge (h ++ e) i j <-> edge h i j.
Proof. intros H. unfold edge. now rewrite get_app_l. Qed.

Lemma rtc_ext P h e i j : wf_heap P h -> i < length h -> rtc (h ++ e) i j <-> rtc h i j.
Proof.
  intros W Hi. split.
  - intros H. apply clos_rt_rtn1 in H. induction H as [|y z Eyz H IH].
    + apply rt_refl.
    + eapply rt_trans; [exact IH|]. apply rt_step. apply (proj1 (edge_ext h e y z (rtc_lt P h i y W Hi IH))). exact Eyz.
  - apply rtc_mono. intros a b E. apply edge_ext; auto. eapply edge_lt; eauto.
Qed.

Lemma tc_ext P h e i j : wf_heap P h -> i < length h -> tc (h ++ e) i j <-> tc h i j.
Proof.
  intros W Hi. rewrite !tc_first. split; intros (z & H1 & H2); exists z.
  - apply (proj1 (edge_ext h e i z Hi)) in H1. split; auto. eapply rtc_ext; eauto. eapply (wh_closed _ _ W); eauto.
  - split; [apply edge_ext; auto|]. eapply rtc_ext; eauto. eapply (wh_closed _ _ W); eauto.
Qed.

Lemma live_lt P h n i : wf_heap P h -> (forall i, In i (heads n) -> i < length h) -> live h n i -> i < length h.
Proof. intros W H (r & Hr & Hp). eapply rtc_lt; eauto. Qed.

Lemma live_ext P h e n i : wf_heap P h -> (forall i, In i (heads n) -> i < length h) ->
  live (h ++ e) n i <-> live h n i.
Proof.
  intros W H. unfold live. split; intros (r & Hr & Hp); exists r; split; auto; eapply rtc_ext; eauto.
Qed.

Lemma live_step h n i j : live h n i -> rtc h i j -> live h n j.
Proof. intros (r & Hr & Hp) H. exists r. split; auto. eapply rt_trans; eauto. Qed.
Lemma live_head h n i : In i (heads n) -> live h n i.
Proof. intros H. exists i. split; auto. apply rt_refl. Qed.

(** Growing the heap does not change what a node represents. *)
Lemma Rep_ext P h e n s tn pi : wf_heap P h -> Rep P h n s tn pi -> Rep P (h ++ e) n s tn pi.
Proof.
  intros W R. pose proof (r_lt _ _ _ _ _ _ R) as LT.
  assert (LE : forall i, live (h ++ e) n i <-> live h n i) by (intros; eapply live_ext; eauto).
  assert (LL : forall i, live h n i -> i < length h) by (intros; eapply live_lt; eauto).
  split; try apply R.
  - intros i Hi. rewrite app_length. specialize (LT i Hi). lia.
  - intros x. rewrite (r_in _ _ _ _ _ _ R). split; intros (i & Hi & E); exists i; split; auto; now apply LE.
  - intros i j Hi Hj. apply (r_inj _ _ _ _ _ _ R); now apply LE.
  - intros i ps Hi G. apply LE in Hi. rewrite get_app_l in G by auto. eapply (r_lab _ _ _ _ _ _ R); eauto.
  - intros i j Hi Hj. apply LE in Hi. apply LE in Hj. rewrite (r_ord _ _ _ _ _ _ R) by auto.
    symmetry. eapply tc_ext; eauto.
  - intros i ps Hi G. rewrite get_app_l in G.
    + eapply (r_abs _ _ _ _ _ _ R); eauto.
    + apply LT. apply in_or_app; auto.
  - intros i ps Hi G. rewrite get_app_l in G.
    + eapply (r_prim _ _ _ _ _ _ R); eauto.
    + apply LT. apply in_or_app; auto.
Qed.

Lemma Rep_state P h n s s' tn pi : (forall f, s f <-> s' f) -> Rep P h n s tn pi -> Rep P h n s' tn pi.
Proof. intros E R. split; try apply R. intros f. rewrite <- E. apply R. Qed.

(** No head lies behind a live step. *)
Lemma head_no_pred P h n s tn pi i r : Rep P h n s tn pi -> live h n i -> In r (heads n) -> ~ tc h i r.
Proof.
  intros R Hi Hr H. destruct (r_min _ _ _ _ _ _ R r Hr) as [_ M].
  apply (M (pi i)). apply (r_ord _ _ _ _ _ _ R); auto. now apply live_head.
Qed.

Lemma live_acyclic P h n s tn pi i : Rep P h n s tn pi -> live h n i -> ~ tc h i i.
Proof.
  intros R Hi H. apply (wt_irr _ (r_wf _ _ _ _ _ _ R) (pi i)). now apply (r_ord _ _ _ _ _ _ R).
Qed.

(** Minimal tasks are the heads. *)
Lemma minimal_head P h n s tn pi x : Rep P h n s tn pi -> minimal tn x -> exists i, In i (heads n) /\ pi i = x.
Proof.
  intros R [Hx M]. apply (r_in _ _ _ _ _ _ R) in Hx as (i & (r & Hr & Hp) & E).
  apply rtc_cases in Hp as [->|Hp]; [eauto|].
  exfalso. subst x. apply (M (pi r)). apply (r_ord _ _ _ _ _ _ R); auto.
  - now apply live_head.
  - exists r. split; auto. now apply tc_rtc.
Qed.

(** ** Lists *)
Lemma remove_at_in {A} i (l : list A) x y :
  NoDup l -> get l i = Some x -> (In y (remove_at i l) <-> In y l /\ y <> x).
Proof.
  unfold remove_at, get. intros N H.
  pose proof (nth_error_split _ _ H) as (l1 & l2 & -> & <-).
  rewrite firstn_app, firstn_all, Nat.sub_diag. simpl firstn. rewrite app_nil_r.
  replace (skipn (S (length l1)) (l1 ++ x :: l2)) with l2.
  2:{ rewrite skipn_app. replace (S (length l1) - length l1) with 1 by lia.
      rewrite skipn_all2 by lia. reflexivity. }
  assert (N2 := NoDup_remove_2 _ _ _ N).
  rewrite !in_app_iff. simpl. split.
  - intros H1. split; [tauto|]. intros ->. apply N2. apply in_or_app. exact H1.
  - intros [[HA | [HA | HA]] Hn]; auto. congruence.
Qed.

Lemma remove_at_split {A} i (l : list A) x : get l i = Some x ->
  exists l1 l2, l = l1 ++ x :: l2 /\ remove_at i l = l1 ++ l2.
Proof.
  unfold remove_at, get. intros H.
  pose proof (nth_error_split _ _ H) as (l1 & l2 & -> & <-).
  exists l1, l2. split; auto.
  rewrite firstn_app, firstn_all, Nat.sub_diag. simpl firstn. rewrite app_nil_r. f_equal.
  rewrite skipn_app. replace (S (length l1) - length l1) with 1 by lia.
  rewrite skipn_all2 by lia. reflexivity.
Qed.

Lemma set_insert_in l x y : In y (set_insert l x) <-> In y l \/ y = x.
Proof.
  unfold set_insert. destruct (memb x l) eqn:E.
  - apply memb_In in E. split; auto. intros [H|H]; subst; auto.
  - rewrite in_app_iff. simpl. intuition.
Qed.
Lemma set_insert_nodup l x : NoDup l -> NoDup (set_insert l x).
Proof.
  unfold set_insert. destruct (memb x l) eqn:E; auto. intros N. apply memb_false in E.
  apply (Permutation_NoDup (l := x :: l)); [apply Permutation_cons_append|now constructor].
Qed.
Lemma fold_set_insert l acc : NoDup acc ->
  NoDup (fold_left set_insert l acc) /\ forall y, In y (fold_left set_insert l acc) <-> In y acc \/ In y l.
Proof.
  revert acc; induction l as [|a l IH]; intros acc N; simpl.
  - split; auto. intros; tauto.
  - destruct (IH (set_insert acc a)) as [N' I']; [now apply set_insert_nodup|].
    split; auto. intros y. rewrite I', set_insert_in. intuition.
Qed.

(** ** The elimination loop *)
Lemma succ_of_edge h i ss : succ_of h i = Some ss -> forall j, In j ss <-> edge h i j.
Proof.
  unfold succ_of, edge. intros H j. inv_opt. subst. rewrite E. split.
  - eauto.
  - intros (ps & [= ->] & H). exact H.
Qed.

Lemma push_succs_in h l acc r : push_succs h l acc = Some r ->
  forall y, In y r <-> In y acc \/ exists i, In i l /\ edge h i y.
Proof.
  unfold push_succs. revert acc r; induction l as [|a l IH]; intros acc r H y; simpl in H.
  - inv_opt. subst. split; auto. intros [|(? & [] & _)]; auto.
  - inv_opt. subst. rewrite (IH _ _ H y). rewrite in_app_iff, <- in_rev, (succ_of_edge _ _ _ E0 y). split.
    + intros [[|]|(i & ? & ?)]; auto; right; eexists; split; eauto; simpl; auto.
    + intros [|(i & [->|] & ?)]; auto. right; eauto.
Qed.

Lemma elim_loop_spec h fuel pf pp dn r pf0 pp0 :
  (forall y, In y pf <-> In y pf0 /\ ~ In y dn) ->
  (forall y, In y dn \/ In y pp -> exists p, In p pp0 /\ rtc h p y) ->
  (forall y z, In y dn -> edge h y z -> In z dn \/ In z pp) ->
  (forall y, In y pp0 -> In y dn \/ In y pp) ->
  elim_loop fuel h pf pp dn = Some r ->
  forall y, (In y r -> In y pf0 /\ ~ exists p, In p pp0 /\ rtc h p y) /\
            (In y pf0 -> In y r \/ exists p, In p pp0 /\ rtc h p y).
Proof.
  revert pf pp dn. induction fuel as [|fuel IH]; intros pf pp dn Hpf Hre Hsu H0 H y.
  1: assert (C : (pf = [] /\ r = []) \/ (pp = [] /\ r = pf))
       by (destruct pf, pp; simpl in H; try discriminate; injection H as <-; auto).
  2: assert (C : ((pf = [] /\ r = []) \/ (pp = [] /\ r = pf)) \/
                 exists x pp' ss, pp = x :: pp' /\ succ_of h x = Some ss /\
                   elim_loop fuel h (filter (fun y => negb (Nat.eqb y x)) pf)
                    (rev (filter (fun y => negb (memb y (x :: dn))) ss) ++ pp') (x :: dn) = Some r)
       by (destruct pf, pp; simpl in H; try (injection H as <-; auto; fail); inv_opt; right; eauto 10).
  2: destruct C as [C|C].
  1, 2: destruct C as [(E1 & ->)|(E2 & ->)].
  1, 3: split; [intros []|]; intros H1; right; apply Hre; left;
      destruct (in_dec Nat.eq_dec y dn); auto; exfalso; assert (F : In y pf) by (apply Hpf; auto); rewrite E1 in F; destruct F.
  1, 2: subst pp; split; rewrite Hpf;
      [ intros [H1 H2]; split; auto; intros (p & Hp & Hr); apply H2;
        assert (Hd : In p dn) by (destruct (H0 p Hp) as [|[]]; auto);
        eapply (rtc_inv_l nat (edge h) (fun k => In k dn)); [|exact Hd|exact Hr];
        intros a b Ha Eab; destruct (Hsu a b Ha Eab) as [|[]]; auto
      | intros H1; destruct (in_dec Nat.eq_dec y dn) as [Hd|Hd]; [right; apply Hre; auto|left; auto] ].
  clear H. destruct C as (x & pp' & ss & -> & E & H).
  pose proof (succ_of_edge _ _ _ E) as SE.
  eapply IH; [| | | |exact H].
  - intros z. rewrite filter_In, Hpf, negb_true_iff, Nat.eqb_neq. simpl. intuition.
  - intros z Hz. assert (HX : exists p, In p pp0 /\ rtc h p x) by (apply Hre; simpl; auto).
    destruct Hz as [[->|Hz]|Hz]; auto.
    apply in_app_or in Hz as [Hz|Hz].
    + apply in_rev, filter_In in Hz as [Hz _]. destruct HX as (p & Hp & Hr). exists p. split; auto.
      eapply rt_trans; eauto. apply rt_step. now apply SE.
    + apply Hre. simpl. auto.
  - intros a b [->|Ha] Eab.
    + destruct (memb b (a :: dn)) eqn:Mb; [apply memb_In in Mb; auto|].
      right. apply in_or_app. left. apply -> in_rev. apply filter_In. split; [now apply SE|now rewrite Mb].
    + destruct (Hsu a b Ha Eab) as [|[->|]]; simpl; auto. right. apply in_or_app; auto.
  - intros z Hz. destruct (H0 z Hz) as [|[->|]]; simpl; auto. right. apply in_or_app; auto.
Qed.

Lemma elim_loop_nodup h fuel pf pp dn r : NoDup pf -> elim_loop fuel h pf pp dn = Some r -> NoDup r.
Proof.
  revert pf pp dn. induction fuel as [|fuel IH]; intros pf pp dn N H.
  - destruct pf, pp; simpl in H; try discriminate; injection H as <-; auto.
  - destruct pf as [|f0 pf1] eqn:Epf; [|destruct pp as [|x pp'] eqn:Epp].
    + simpl in H. injection H as <-. constructor.
    + simpl in H. injection H as <-. auto.
    + cbn [elim_loop] in H. inv_opt. eapply IH; [|exact H]. now apply NoDup_filter.
Qed.

(** The set of new first steps: successors of the removed step not reachable (in at least one step) from another
    head or from a sibling successor. *)
Lemma new_firsts_spec perm fuel h n taskNo x ps nf :
  (forall l, Permutation l (perm l)) ->
  NoDup (heads n) -> get (n_prim n) taskNo = Some x -> get h x = Some ps ->
  new_firsts perm fuel h n taskNo ps = Some nf ->
  NoDup nf /\
  forall y, (In y nf -> edge h x y /\
               ~ exists p, ((In p (heads n) /\ p <> x) \/ edge h x p) /\ tc h p y) /\
            (edge h x y -> In y nf \/ exists p, ((In p (heads n) /\ p <> x) \/ edge h x p) /\ tc h p y).
Proof.
  intros HP N G Gx H. unfold new_firsts in H. inv_opt. subst nf.
  destruct (fold_set_insert (ps_succ ps) []) as [N1 I1]; [constructor|].
  assert (Eps : forall y, In y (ps_succ ps) <-> edge h x y).
  { intros y. unfold edge. rewrite Gx. split; [eauto|]. intros (q & [= <-] & Hq). exact Hq. }
  assert (NP : NoDup (n_prim n)).
  { unfold heads in N. apply nodup_app_iff in N. apply N. }
  assert (Hh : forall p, (In p (n_abs n) \/ In p (remove_at taskNo (n_prim n))) <-> In p (heads n) /\ p <> x).
  { intros p. rewrite (remove_at_in taskNo (n_prim n) x p NP G). unfold heads. rewrite in_app_iff.
    split; [|tauto]. intros [Ha|[Hb Hc]]; [|tauto]. split; auto. intros ->.
    unfold heads in N. apply nth_error_In in G. clear -N Ha G.
    induction (n_abs n) as [|a l IH]; simpl in *; [destruct Ha|].
    inversion N; subst. destruct Ha as [->|Ha]; auto. apply H1. apply in_or_app; auto. }
  split.
  - eapply Permutation_NoDup; [apply HP|]. eapply elim_loop_nodup; [|exact E2]. exact N1.
  - intros y.
    assert (PE : In y (perm x3) <-> In y x3).
    { split; intros Hy; [eapply Permutation_in; [symmetry; apply HP|exact Hy]|eapply Permutation_in; [apply HP|exact Hy]]. }
    rewrite PE.
    destruct (elim_loop_spec h fuel (fold_left set_insert (ps_succ ps) []) x2 [] x3 (fold_left set_insert (ps_succ ps) []) x2) with (y := y) as [S1 S2].
    { intros z. simpl. tauto. }
    { intros z [[]|Hz]. exists z. split; auto. apply rt_refl. }
    { intros a b []. }
    { auto. }
    { exact E2. }
    assert (PP : forall p, In p x2 <-> exists q, ((In q (heads n) /\ q <> x) \/ edge h x q) /\ edge h q p).
    { intros p. rewrite (push_succs_in _ _ _ _ E1), (push_succs_in _ _ _ _ E0), (push_succs_in _ _ _ _ E).
      setoid_rewrite <- Hh. setoid_rewrite Eps. simpl. split.
      - intros [[[[]|(i & ? & ?)]|(i & ? & ?)]|(i & ? & ?)]; eauto.
      - intros (q & [[|]|] & ?); eauto 6. }
    split.
    + intros H. destruct (S1 H) as [H1 H2]. apply I1 in H1 as [[]|H1]. apply Eps in H1.
      split; auto. intros (p & Hp & Ht). apply H2.
      apply tc_first in Ht as (z & Hz & Hr). exists z. split; auto. apply PP. eauto.
    + intros H. destruct S2 as [|(p & Hp & Hr)]; auto.
      { apply I1. right. now apply Eps. }
      right. apply PP in Hp as (q & Hq & He). exists q. split; auto. apply tc_first. eauto.
Qed.

(** ** States *)
Lemma write_all_spec v fs s s' : write_all v fs s = Some s' ->
  length s' = length s /\
  forall f, get s' f = if memb f fs then Some v else get s f.
Proof.
  unfold write_all. revert s; induction fs as [|a fs IH]; intros s H; simpl in *.
  - injection H as ->. auto.
  - inv_opt. destruct (IH _ H) as [HL HG]. split; [rewrite HL; eapply set_length; eauto|].
    intros f. rewrite HG. destruct (memb f fs) eqn:M.
    + rewrite orb_true_r. reflexivity.
    + rewrite orb_false_r. destruct (Nat.eqb f a) eqn:Ef.
      * apply Nat.eqb_eq in Ef. subst. eapply get_set_eq; eauto.
      * apply Nat.eqb_neq in Ef. eapply get_set_neq; eauto.
Qed.

Lemma write_all_total v fs s : (forall f, In f fs -> f < length s) -> exists s', write_all v fs s = Some s'.
Proof.
  unfold write_all. revert s; induction fs as [|a fs IH]; intros s H; simpl; eauto.
  destruct (set_some s a v) as (s1 & E); [apply H; simpl; auto|]. rewrite E. simpl. apply IH.
  intros f Hf. rewrite (set_length _ _ _ _ E). apply H. simpl; auto.
Qed.

Lemma apply_effects_spec P a s s' (st : state) :
  apply_effects P a s = Some s' -> (forall f, st f <-> get s f = Some true) ->
  length s' = length s /\ forall f, result P st a f <-> get s' f = Some true.
Proof.
  unfold apply_effects. intros H HS. inv_opt.
  destruct (write_all_spec _ _ _ _ E0) as [L1 G1]. destruct (write_all_spec _ _ _ _ H) as [L2 G2].
  split; [congruence|]. intros f. rewrite G2, G1. unfold result, adds, dels. unfold get in E, E1.
  rewrite E, E1, HS. destruct (memb f x1) eqn:M1.
  - apply memb_In in M1. split; auto. intros _. left. eauto.
  - apply memb_false in M1. destruct (memb f x) eqn:M.
    + apply memb_In in M. split; [|discriminate]. intros [(l & [= <-] & Hl)|[_ Hl]]; [tauto|]. exfalso. apply Hl. eauto.
    + apply memb_false in M. split.
      * intros [(l & [= <-] & Hl)|[Hs _]]; tauto.
      * intros Hs. right. split; auto. intros (l & [= <-] & Hl). tauto.
Qed.

Lemma all_true_spec fs s b : all_true fs s = Some b ->
  (b = true <-> forall f, In f fs -> get s f = Some true).
Proof.
  induction fs as [|a fs IH]; simpl; intros H.
  - injection H as <-. split; auto. intros _ f [].
  - inv_opt. destruct x.
    + rewrite (IH H). split.
      * intros HA f [->|Hf]; auto.
      * intros HA f Hf. apply HA; auto.
    + injection H as <-. split; [discriminate|]. intros HA. specialize (HA a (or_introl eq_refl)). congruence.
Qed.

Lemma all_true_total fs s : (forall f, In f fs -> f < length s) -> exists b, all_true fs s = Some b.
Proof.
  induction fs as [|a fs IH]; intros H; simpl; eauto.
  destruct (get_some s a) as (b & E); [apply H; simpl; auto|]. rewrite E. simpl.
  destruct b; eauto. apply IH. intros f Hf. apply H. simpl; auto.
Qed.

Lemma isApplicable_spec P s a b (st : state) :
  isApplicable P s a = Some b -> (forall f, st f <-> get s f = Some true) ->
  (b = true <-> applicable P st a).
Proof.
  unfold isApplicable, applicable, precs. intros H HS. inv_opt. rewrite (all_true_spec _ _ _ H).
  unfold get in E. split.
  - intros HA f (l & Hl & Hf). rewrite E in Hl. injection Hl as <-. apply HS. auto.
  - intros HA f Hf. apply HS. apply HA. eauto.
Qed.

(** ** apply1 represents the execution of a task *)
Lemma split_prim_spec P h l ps abs : split_prim P h l = Some (ps, abs) ->
  Permutation l (ps ++ abs) /\
  (forall i, In i ps -> exists q, get h i = Some q /\ nth_error (p_prim P) (ps_task q) = Some true) /\
  (forall i, In i abs -> exists q, get h i = Some q /\ nth_error (p_prim P) (ps_task q) = Some false).
Proof.
  revert ps abs; induction l as [|x l IH]; intros ps abs H; simpl in H.
  - injection H as <- <-. repeat split; auto; intros i [].
  - inv_opt. destruct x2 as [ps' abs']. destruct (IH _ _ E1) as (HP & H1 & H2).
    unfold task_of in E. inv_opt. subst x0. unfold get in E0.
    destruct x1; injection H as <- <-; simpl; repeat split; auto.
    + intros i [->|Hi]; auto. eauto.
    + rewrite HP at 1. apply Permutation_middle.
    + intros i [->|Hi]; auto. eauto.
Qed.

Lemma NoDup_heads_app (a p fa fp : list nat) :
  NoDup (a ++ p) -> NoDup (fp ++ fa) -> (forall i, In i (a ++ p) -> In i (fp ++ fa) -> False) ->
  NoDup ((a ++ fa) ++ (p ++ fp)).
Proof.
  intros N1 N2 D. apply (Permutation_NoDup (l := (a ++ p) ++ (fp ++ fa))).
  - rewrite <- !app_assoc. apply Permutation_app_head.
    rewrite (Permutation_app_comm fp fa). rewrite !app_assoc. apply Permutation_app_tail.
    apply Permutation_app_comm.
  - clear -N1 N2 D. induction (a ++ p) as [|x l IH]; simpl; auto.
    inversion N1; subst. constructor.
    + intros H. apply in_app_or in H as [|]; auto. apply (D x); simpl; auto.
    + apply IH; auto. intros i Hi. apply D. simpl; auto.
Qed.

Lemma apply1_rep_full P C fuel w n taskNo w' n' s tn pi :
  (forall l, Permutation l (c_perm C l)) ->
  wf_heap P (w_heap w) -> Rep P (w_heap w) n s tn pi ->
  apply1 P (c_perm C) (c_eff C) fuel w n taskNo = Some (w', n') ->
  exists i ps, get (n_prim n) taskNo = Some i /\ get (w_heap w) i = Some ps /\
    t_lab tn (pi i) = ps_task ps /\ minimal tn (pi i) /\ primitive P (ps_task ps) /\
    w_heap w' = w_heap w /\
    (forall a, live (w_heap w) n' a <-> live (w_heap w) n a /\ a <> i) /\
    Rep P (w_heap w') n' (result P s (ps_task ps)) (minus tn (pi i)) pi.
Proof.
  intros HP W R H. unfold apply1 in H. inv_opt. rename x into i, x0 into ps.
  destruct x3 as [nfp nfa]. inv_opt.
  assert (NSOL : exists hd tl, n_sol n = hd :: tl) by (destruct (n_sol n); [discriminate|eauto]).
  destruct NSOL as (hd & tl & NS). rewrite NS in H. injection H as <- <-.
  set (h := w_heap w) in *.
  assert (Hip : In i (n_prim n)) by (eapply nth_error_In; exact E).
  assert (Hih : In i (heads n)) by (apply in_or_app; auto).
  exists i, ps. cbn [w_heap].
  assert (Lab : t_lab tn (pi i) = ps_task ps) by (eapply (r_lab _ _ _ _ _ _ R); eauto; now apply live_head).
  split; auto. split; auto. split; auto. split; [now apply (r_min _ _ _ _ _ _ R)|].
  split; [eapply (r_prim _ _ _ _ _ _ R); eauto|]. split; auto.
  destruct (new_firsts_spec _ _ _ _ _ _ _ _ HP (r_nodup _ _ _ _ _ _ R) E E0 E2) as [NN NF].
  destruct (split_prim_spec _ _ _ _ _ E3) as (SP & SP1 & SP2).
  match goal with |- context [Rep _ _ ?N _ _ _] => set (n' := N) end.
  assert (NDp : NoDup (n_prim n)) by (pose proof (r_nodup _ _ _ _ _ _ R) as N0; unfold heads in N0; apply nodup_app_iff in N0; apply N0).
  assert (Nia : ~ In i (n_abs n)).
  { intros Ha. pose proof (r_abs _ _ _ _ _ _ R _ _ Ha E0) as F.
    pose proof (r_prim _ _ _ _ _ _ R _ _ Hip E0) as T. congruence. }
  assert (HH : forall r, In r (heads n') <-> (In r (heads n) /\ r <> i) \/ In r x2).
  { intros r. unfold heads, n'; simpl. rewrite !in_app_iff, (remove_at_in _ _ _ r NDp E).
    rewrite <- (Permutation_in' eq_refl (Permutation_sym SP)), in_app_iff.
    split; [|tauto]. intros [[?|?]|[[? ?]|?]]; auto. left. split; auto. congruence. }
  assert (EL : forall y, In y x2 -> edge h i y) by (intros y Hy; now apply NF).
  assert (NEW : forall y, In y x2 -> ~ In y (heads n)).
  { intros y Hy Hh. eapply (head_no_pred _ _ _ _ _ _ i y R); auto; [now apply live_head|]. apply t_step. auto. }
  assert (LV1 : forall j, live h n' j -> live h n j /\ j <> i).
  { intros j (r & Hr & Hp). apply HH in Hr as [[Hr N]|Hr].
    - split; [exists r; auto|]. intros ->. apply rtc_cases in Hp as [->|Hp]; [congruence|].
      eapply (head_no_pred _ _ _ _ _ _ r i R); auto. now apply live_head.
    - assert (tc h i j) by (eapply tc_rtc_tc; [apply t_step; eauto|eauto]).
      split; [exists i; split; auto; now apply tc_rtc|]. intros ->.
      eapply (head_no_pred _ _ _ _ _ _ i i R); eauto. now apply live_head. }
  assert (WF : well_founded (fun a b => tc h a b /\ live h n b)).
  { apply (fin_wf _ (length h)).
    - intros a b [H _]. apply tc_first in H as (z & H & _). eapply edge_lt; eauto.
    - intros a b c [H1 _] [H2 ?]. split; auto. eapply t_trans; eauto.
    - intros a [H1 H2]. eapply live_acyclic; eauto. }
  assert (LV2 : forall j, live h n j -> j <> i -> live h n' j).
  { intros j. induction j as [j IH] using (well_founded_induction WF). intros Hj Nj.
    assert (KEY : forall z, edge h i z -> tc h z j -> live h n' j).
    { intros z Hz Ht. eapply live_step; [|apply tc_rtc; exact Ht].
      assert (Lz : live h n z) by (exists i; split; auto; now apply rt_step).
      apply IH; auto. intros ->. eapply (live_acyclic _ _ _ _ _ _ i R); [now apply live_head|now apply t_step]. }
    pose proof Hj as (r & Hr & Hp). destruct (Nat.eq_dec r i) as [->|Nr].
    - apply rtc_cases in Hp as [->|Hp]; [congruence|].
      apply tc_first in Hp as (z & Hz & Hp). apply rtc_cases in Hp as [->|Hp]; [|eauto].
      destruct (proj2 (NF j) Hz) as [Hin|(p & [[Hp1 Hp2]|Hp] & Ht)]; [| |eauto].
      + exists j. split; [apply HH; auto|apply rt_refl].
      + exists p. split; [apply HH; auto|now apply tc_rtc].
    - exists r. split; auto. apply HH. auto. }
  assert (PJ : forall j, live h n j -> j <> i -> pi j <> pi i).
  { intros j Hj Nj Eq. apply Nj. eapply (r_inj _ _ _ _ _ _ R); eauto. now apply live_head. }
  destruct (apply_effects_spec _ _ _ _ s E1 (r_state _ _ _ _ _ _ R)) as [SL SS].
  split; [intros a; split; [apply LV1|intros [? ?]; now apply LV2]|].
  split.
  - simpl. rewrite SL. apply R.
  - exact SS.
  - intros j Hj. apply HH in Hj as [[Hj _]|Hj]; [now apply (r_lt _ _ _ _ _ _ R)|].
    eapply (wh_closed _ _ W). apply EL. exact Hj.
  - intros y. simpl. rewrite (r_in _ _ _ _ _ _ R). split.
    + intros [(j & Hj & <-) N]. exists j. split; [apply LV2; auto; congruence|auto].
    + intros (j & Hj & <-). apply LV1 in Hj as [Hj N]. split; eauto.
  - intros a b Ha Hb. apply LV1 in Ha as [Ha _]. apply LV1 in Hb as [Hb _]. now apply (r_inj _ _ _ _ _ _ R).
  - intros a q Ha G. apply LV1 in Ha as [Ha _]. simpl. eapply (r_lab _ _ _ _ _ _ R); eauto.
  - intros a b Ha Hb. apply LV1 in Ha as [Ha Na]. apply LV1 in Hb as [Hb Nb]. simpl.
    rewrite (r_ord _ _ _ _ _ _ R) by auto. split; [tauto|]. intros Ht. split; auto.
  - pose proof (r_nodup _ _ _ _ _ _ R) as N0. unfold heads in N0 |- *. simpl.
    destruct (remove_at_split _ _ _ E) as (l1 & l2 & EP & ER). rewrite ER.
    apply NoDup_heads_app.
    + rewrite EP in N0. rewrite app_assoc in N0. apply NoDup_remove_1 in N0. now rewrite app_assoc.
    + eapply Permutation_NoDup; eauto.
    + intros r Hr Hr2. apply (NEW r).
      * eapply Permutation_in; [symmetry; exact SP|exact Hr2].
      * unfold heads. rewrite EP. rewrite !in_app_iff in *. simpl. tauto.
  - intros r Hr. assert (LR : live h n' r) by now apply live_head.
    apply LV1 in LR as [LR Nr]. apply HH in Hr as [[Hr _]|Hr].
    + destruct (r_min _ _ _ _ _ _ R r Hr) as [M1 M2]. split; [split; auto|].
      intros y (Ho & _). eapply M2; eauto.
    + split; [split; auto; apply (r_in _ _ _ _ _ _ R); eauto|].
      intros y (Ho & N1 & N2). destruct (wt_dom _ (r_wf _ _ _ _ _ _ R) _ _ Ho) as [Hy _].
      apply (r_in _ _ _ _ _ _ R) in Hy as (j & Hj & <-).
      apply (r_ord _ _ _ _ _ _ R) in Ho; auto.
      assert (Lj : live h n' j) by (apply LV2; auto; congruence).
      destruct (NF r) as [NF1 _]. destruct (NF1 Hr) as [_ NF2]. apply NF2.
      destruct Lj as (q & Hq & Hp). apply HH in Hq as [Hq|Hq]; exists q; (split; [|eapply rtc_tc; eauto]); auto.
  - intros a q Ha G. simpl in Ha. apply in_app_or in Ha as [Ha|Ha].
    + eapply (r_abs _ _ _ _ _ _ R); eauto.
    + destruct (SP2 a Ha) as (q' & G' & T). congruence.
  - intros a q Ha G. simpl in Ha. apply in_app_or in Ha as [Ha|Ha].
    + apply (remove_at_in _ _ _ a NDp E) in Ha as [Ha _]. eapply (r_prim _ _ _ _ _ _ R); eauto.
    + destruct (SP1 a Ha) as (q' & G' & T). congruence.
  - apply minus_wf. apply R.
Qed.

Lemma apply1_rep P C fuel w n taskNo w' n' s tn pi :
  (forall l, Permutation l (c_perm C l)) ->
  wf_heap P (w_heap w) -> Rep P (w_heap w) n s tn pi ->
  apply1 P (c_perm C) (c_eff C) fuel w n taskNo = Some (w', n') ->
  exists i ps, get (n_prim n) taskNo = Some i /\ get (w_heap w) i = Some ps /\
    t_lab tn (pi i) = ps_task ps /\ minimal tn (pi i) /\ primitive P (ps_task ps) /\
    w_heap w' = w_heap w /\
    Rep P (w_heap w') n' (result P s (ps_task ps)) (minus tn (pi i)) pi.
Proof.
  intros HP W R H. destruct (apply1_rep_full P C fuel w n taskNo w' n' s tn pi HP W R H) as (i & ps & H1 & H2 & H3 & H4 & H5 & H6 & _ & H7).
  exists i, ps. auto 10.
Qed.

(** ** decompose1 represents the decomposition of a task *)
Lemma method_steps_get m base inst os j t : nth_error (m_subs m) j = Some t ->
  get (method_steps m base inst os) j = Some (method_step m base inst os j t).
Proof.
  unfold method_steps, get.
  assert (H : forall ts k j, nth_error ts j = Some t ->
            nth_error (method_steps_from m base inst os k ts) j = Some (method_step m base inst os (k + j) t)).
  { induction ts as [|a ts IH]; intros k [|i] E; simpl in *; try discriminate.
    - injection E as ->. now rewrite Nat.add_0_r.
    - rewrite (IH (S k) i E). do 2 f_equal. lia. }
  intros E. now rewrite (H _ 0 j E).
Qed.
Lemma method_steps_length m base inst os : length (method_steps m base inst os) = length (m_subs m).
Proof.
  unfold method_steps. generalize 0. induction (m_subs m) as [|a l IH]; intros k; simpl; auto.
Qed.

Lemma is_last_spec m j : is_last m j = true <-> ~ exists k, m_before m j k.
Proof.
  unfold is_last, m_before. rewrite forallb_forall. split.
  - intros H (k & Hk). specialize (H _ Hk). simpl in H. rewrite Nat.eqb_refl in H. discriminate.
  - intros H [a b] Hab. simpl. apply negb_true_iff, Nat.eqb_neq. intros ->. apply H. eauto.
Qed.
Lemma is_first_spec m j : is_first m j = true <-> ~ exists k, m_before m k j.
Proof.
  unfold is_first, m_before. rewrite forallb_forall. split.
  - intros H (k & Hk). specialize (H _ Hk). simpl in H. rewrite Nat.eqb_refl in H. discriminate.
  - intros H [a b] Hab. simpl. apply negb_true_iff, Nat.eqb_neq. intros ->. apply H. eauto.
Qed.
Lemma first_tasks_spec m j : In j (first_tasks m) <-> j < length (m_subs m) /\ is_first m j = true.
Proof. unfold first_tasks. rewrite filter_In, in_seq. intuition lia. Qed.

Definition wf_orders (m : method) : Prop :=
  (forall j k, m_before m j k -> j < length (m_subs m) /\ k < length (m_subs m)) /\ (forall j, ~ m_lt m j j).

Lemma first_exists m j : wf_orders m -> exists i, clos_refl_trans nat (m_before m) i j /\ is_first m i = true.
Proof.
  intros [B A]. destruct (acyclic_min (m_before m)) with (N := length (m_subs m)) (b := j) as (i & H1 & H2).
  - intros b. destruct (is_first m b) eqn:E.
    + right. now apply is_first_spec.
    + left. unfold is_first in E. apply not_true_iff_false in E. rewrite forallb_forall in E.
      destruct (existsb (fun o => Nat.eqb (snd o) b) (m_ord m)) eqn:X.
      * apply existsb_exists in X as ((x & y) & Hx & Hy). simpl in Hy. apply Nat.eqb_eq in Hy. subst. exists x. exact Hx.
      * exfalso. apply E. intros o Ho. apply negb_true_iff. destruct (Nat.eqb (snd o) b) eqn:Z; auto.
        exfalso. apply not_true_iff_false in X. apply X. apply existsb_exists. eauto.
  - intros a b H. apply (B _ _ H).
  - exact A.
  - exists i. split; auto. now apply is_first_spec.
Qed.
Lemma last_exists m j : wf_orders m -> exists i, clos_refl_trans nat (m_before m) j i /\ is_last m i = true.
Proof.
  intros [B A]. destruct (acyclic_max (m_before m)) with (N := length (m_subs m)) (a := j) as (i & H1 & H2).
  - intros b. destruct (is_last m b) eqn:E.
    + right. now apply is_last_spec.
    + left. unfold is_last in E. apply not_true_iff_false in E. rewrite forallb_forall in E.
      destruct (existsb (fun o => Nat.eqb (fst o) b) (m_ord m)) eqn:X.
      * apply existsb_exists in X as ((x & y) & Hx & Hy). simpl in Hy. apply Nat.eqb_eq in Hy. subst. exists y. exact Hx.
      * exfalso. apply E. intros o Ho. apply negb_true_iff. destruct (Nat.eqb (fst o) b) eqn:Z; auto.
        exfalso. apply not_true_iff_false in X. apply X. apply existsb_exists. eauto.
  - intros a b H. apply (B _ _ H).
  - exact A.
  - exists i. split; auto. now apply is_last_spec.
Qed.

Section Dec.
  Variables (P : problem) (h : list pstep) (x inst : nat) (px : pstep) (m : method).
  Hypothesis W : wf_heap P h.
  Hypothesis Gx : get h x = Some px.
  Hypothesis WO : wf_orders m.
  Let base := length h.
  Let k := length (m_subs m).
  Let h' := h ++ method_steps m base inst (ps_succ px).

  Lemma dec_edge_new j y : j < k ->
    edge h' (base + j) y <-> (is_last m j = true /\ edge h x y) \/ exists j', m_before m j j' /\ y = base + j'.
  Proof.
    intros Hj. unfold edge, h', base. rewrite get_app_r.
    destruct (nth_error (m_subs m) j) as [t|] eqn:Et; [|apply nth_error_None in Et; unfold k in Hj; lia].
    rewrite (method_steps_get _ _ _ _ _ _ Et). unfold method_step.
    destruct (is_last m j) eqn:El.
    - split.
      + intros (ps & [= <-] & Hy). simpl in Hy. left. split; auto. eauto.
      + intros [(_ & ps & G & Hy)|(j' & Hj' & _)].
        * rewrite Gx in G. injection G as <-. eexists; split; [reflexivity|exact Hy].
        * exfalso. apply is_last_spec in El. eauto.
    - split.
      + intros (ps & [= <-] & Hy). simpl in Hy. right.
        apply in_map_iff in Hy as ((a & b) & <- & Hf). apply filter_In in Hf as [Hf Ea]. simpl in Ea.
        apply Nat.eqb_eq in Ea. subst. exists b. split; auto.
      + intros [[F _]|(j' & Hj' & ->)]; [discriminate|].
        eexists; split; [reflexivity|]. simpl. apply in_map_iff. exists (j, j'). split; auto.
        apply filter_In. split; auto. simpl. apply Nat.eqb_refl.
  Qed.

  Lemma dec_heap_length : length h' = base + k.
  Proof. unfold h'. rewrite app_length, method_steps_length. reflexivity. Qed.

  Lemma dec_wf_heap : (forall t, In t (m_subs m) -> t < length (p_prim P)) -> wf_heap P h'.
  Proof.
    intros HT. split.
    - intros i j E. rewrite dec_heap_length. destruct (Nat.lt_ge_cases i base) as [Hi|Hi].
      + apply (proj1 (edge_ext h _ i j Hi)) in E. apply (wh_closed _ _ W) in E. unfold base. lia.
      + assert (Hi2 : i < base + k) by (rewrite <- dec_heap_length; eapply edge_lt; eauto).
        replace i with (base + (i - base)) in E by lia.
        apply dec_edge_new in E; [|lia]. destruct E as [[_ E]|(j' & Hb & ->)].
        * apply (wh_closed _ _ W) in E. unfold base. lia.
        * apply (proj1 WO) in Hb. unfold k. lia.
    - intros i ps G. destruct (Nat.lt_ge_cases i base) as [Hi|Hi].
      + unfold h' in G. rewrite get_app_l in G by exact Hi. eapply (wh_task _ _ W); eauto.
      + assert (Hi2 : i < base + k) by (rewrite <- dec_heap_length; eapply get_lt; eauto).
        replace i with (base + (i - base)) in G by lia. unfold h', base in G. rewrite get_app_r in G.
        destruct (nth_error (m_subs m) (i - length h)) as [t|] eqn:Et.
        * rewrite (method_steps_get _ _ _ _ _ _ Et) in G. injection G as <-. simpl. apply HT.
          eapply nth_error_In; eauto.
        * apply nth_error_None in Et. unfold k, base in *. lia.
  Qed.

  Lemma dec_path_new j y : j < k -> rtc h' (base + j) y ->
    (exists j', j' < k /\ y = base + j' /\ clos_refl_trans nat (m_before m) j j') \/ tc h x y.
  Proof.
    intros Hj H.
    apply (rtc_inv_l nat (edge h') (fun y => (exists j', j' < k /\ y = base + j' /\ clos_refl_trans nat (m_before m) j j') \/ tc h x y)) with (x := base + j); auto.
    - intros a b [(j' & Hj' & -> & Hr)|Ht] E.
      + apply dec_edge_new in E; auto. destruct E as [[_ E]|(j2 & Hb & ->)].
        * right. now apply t_step.
        * left. exists j2. split; [apply (proj1 WO) in Hb; apply Hb|]. split; auto.
          eapply rt_trans; eauto. now apply rt_step.
      + right. eapply t_trans; eauto. apply t_step.
        assert (a < length h) by (eapply rtc_lt; [exact W|eapply get_lt; exact Gx|apply tc_rtc; exact Ht]).
        apply (proj1 (edge_ext h _ a b H0)) in E. exact E.
    - left. exists j. split; auto. split; auto. apply rt_refl.
  Qed.

  Lemma dec_old_lt y : tc h x y -> y < base.
  Proof. intros H. eapply rtc_lt; [exact W|eapply get_lt; exact Gx|apply tc_rtc; exact H]. Qed.

  Lemma dec_tc_new_new j j' : j < k -> j' < k -> tc h' (base + j) (base + j') <-> m_lt m j j'.
  Proof.
    intros Hj Hj'. split.
    - intros H. apply tc_first in H as (z & Hz & Hr). apply dec_edge_new in Hz; auto.
      destruct Hz as [[_ Hz]|(j1 & Hb & ->)].
      + exfalso. assert (base + j' < base); [|lia].
        assert (z < length h) by (apply (wh_closed _ _ W) in Hz; exact Hz).
        unfold h' in Hr. apply (rtc_ext P) in Hr; auto. apply dec_old_lt. eapply tc_rtc_tc; eauto. now apply t_step.
      + assert (j1 < k) by (apply (proj1 WO) in Hb; apply Hb).
        apply dec_path_new in Hr; auto. destruct Hr as [(j2 & _ & E & Hr)|Hr].
        * assert (j' = j2) by lia. subst j2. apply tc_first. exists j1. auto.
        * apply dec_old_lt in Hr. lia.
    - intros H. unfold m_lt in H. induction H as [a b Hab|a b c H1 IH1 H2 IH2].
      + apply t_step. apply dec_edge_new; auto. right. eauto.
      + assert (b < k).
        { apply tc_first in H2 as (z & Hz & _). apply (proj1 WO) in Hz. apply Hz. }
        eapply t_trans; eauto.
  Qed.

  Lemma dec_tc_new_old j y : j < k -> y < base -> tc h' (base + j) y <-> tc h x y.
  Proof.
    intros Hj Hy. split.
    - intros H. apply tc_rtc in H. apply dec_path_new in H; auto. destruct H as [(j' & _ & -> & _)|]; auto. lia.
    - intros H. destruct (last_exists m j WO) as (l & Hl & El).
      apply tc_first in H as (z & Hz & Hr).
      assert (Hlk : l < k).
      { apply rtc_cases in Hl as [->|Hl]; auto. apply tc_last in Hl as (u & _ & Hu).
        apply (proj1 WO) in Hu. apply Hu. }
      assert (R1 : rtc h' (base + j) (base + l)).
      { apply rtc_cases in Hl as [->|Hl]; [apply rt_refl|]. apply tc_rtc. apply dec_tc_new_new; auto. }
      eapply rtc_tc; [exact R1|]. apply tc_first. exists z. split.
      + apply dec_edge_new; auto.
      + unfold h'. apply (rtc_ext P); auto. apply (wh_closed _ _ W) in Hz. exact Hz.
  Qed.

  Lemma dec_tc_old_new i j : i < base -> j < k -> ~ tc h' i (base + j).
  Proof.
    intros Hi Hj H. unfold h' in H. apply (tc_ext P) in H; auto.
    assert (base + j < base); [|lia]. eapply rtc_lt; [exact W|exact Hi|apply tc_rtc; exact H].
  Qed.
End Dec.

Ltac noc CN CH :=
  match goal with
  | Q : _ ?a = _ ++ [?j] |- _ => exfalso; eapply (CN j a); [|exact Q]; assumption
  | Q : _ ++ [?j] = _ ?a |- _ => exfalso; eapply (CN j a); [|symmetry; exact Q]; assumption
  | Q : t_in _ (_ ++ [?j]) |- _ => exfalso; eapply (CH j); exact Q
  end.

Lemma decompose1_rep_full P C w n taskNo mi w' n' s tn pi :
  (forall m, In m (p_methods P) -> wf_method P m) ->
  wf_heap P (w_heap w) -> Rep P (w_heap w) n s tn pi ->
  decompose1 P (c_eff C) w n taskNo mi = Some (w', n') ->
  (forall i ps m, get (n_abs n) taskNo = Some i -> get (w_heap w) i = Some ps -> nth_error (p_methods P) mi = Some m ->
     ps_task ps = m_task m) ->
  exists i ps m pi', get (n_abs n) taskNo = Some i /\ get (w_heap w) i = Some ps /\
    nth_error (p_methods P) mi = Some m /\
    minimal tn (pi i) /\ w_heap w' = w_heap w ++ method_steps m (length (w_heap w)) (w_inst w) (ps_succ ps) /\ wf_heap P (w_heap w') /\
    decomposes P tn (pi i) m (decF tn (pi i) m) /\
    (forall a, a < length (w_heap w) -> pi' a = pi a) /\
    (forall j, pi' (length (w_heap w) + j) = pi i ++ [j]) /\
    (forall a, live (w_heap w') n' a <->
       (live (w_heap w) n a /\ a <> i) \/ exists j, j < length (m_subs m) /\ a = length (w_heap w) + j) /\
    Rep P (w_heap w') n' s (decF tn (pi i) m) pi'.
Proof.
  intros WM W R H HM. unfold decompose1 in H. inv_opt. rename x into i, x0 into ps, x1 into m.
  destruct (forallb _ (m_ord m)) eqn:EF; [|discriminate].
  inv_opt. destruct x as [fp fa]. inv_opt. subst w' n'.
  set (h := w_heap w) in *.
  assert (Em : nth_error (p_methods P) mi = Some m) by exact E1.
  assert (Him : In m (p_methods P)) by (eapply nth_error_In; exact Em).
  pose proof (WM m Him) as WMm.
  assert (WO : wf_orders m).
  { split; [|apply WMm]. intros j k Hjk. apply (wfm_ord _ _ WMm) in Hjk. exact Hjk. }
  set (base := length h) in *. set (k := length (m_subs m)) in *.
  set (h' := h ++ method_steps m base (w_inst w) (ps_succ ps)) in *.
  assert (Hia : In i (n_abs n)) by (eapply nth_error_In; exact E).
  assert (Hih : In i (heads n)) by (apply in_or_app; auto).
  assert (Lab : t_lab tn (pi i) = ps_task ps) by (eapply (r_lab _ _ _ _ _ _ R); eauto; now apply live_head).
  assert (LabM : t_lab tn (pi i) = m_task m) by (rewrite Lab; eapply HM; eauto).
  destruct (r_min _ _ _ _ _ _ R i Hih) as [Hin Hmin].
  assert (D : decomposes P tn (pi i) m (decF tn (pi i) m)) by (apply decF_decomposes; auto; apply R).
  assert (Hk : 0 < k).
  { unfold k. pose proof (wfm_nonempty _ _ WMm). destruct (m_subs m); [congruence|simpl; lia]. }
  set (pi' := fun a => if a <? base then pi a else pi i ++ [a - base]).
  assert (PO : forall a, a < base -> pi' a = pi a).
  { intros a Ha. unfold pi'. apply Nat.ltb_lt in Ha. now rewrite Ha. }
  assert (PN : forall j, pi' (base + j) = pi i ++ [j]).
  { intros j. unfold pi'. destruct (base + j <? base) eqn:Lt; [apply Nat.ltb_lt in Lt; lia|].
    do 2 f_equal. lia. }
  assert (Hib : i < base) by (now apply (r_lt _ _ _ _ _ _ R)).
  assert (LL : forall a, live h n a -> a < base) by (intros; eapply live_lt; eauto; apply (r_lt _ _ _ _ _ _ R)).
  exists i, ps, m, pi'.
  split; auto. split; auto. split; auto. split; [split; auto|].
  cbn [w_heap]. split; auto.
  split; [apply dec_wf_heap with (x := i); auto; apply WMm|]. split; auto.
  destruct (split_prim_spec _ _ _ _ _ E2) as (SP & SP1 & SP2).
  match goal with |- context [Rep _ _ ?N _ _ _] => set (n' := N) end.
  assert (NDa : NoDup (n_abs n)).
  { pose proof (r_nodup _ _ _ _ _ _ R) as N0. unfold heads in N0. apply nodup_app_iff in N0. apply N0. }
  assert (Nip : ~ In i (n_prim n)).
  { intros Ha. pose proof (r_prim _ _ _ _ _ _ R _ _ Ha E0) as F.
    pose proof (r_abs _ _ _ _ _ _ R _ _ Hia E0) as T. congruence. }
  assert (FF : forall r, (In r fp \/ In r fa) <-> exists j, j < k /\ is_first m j = true /\ r = base + j).
  { intros r. rewrite <- in_app_iff. rewrite <- (Permutation_in' eq_refl SP). rewrite in_map_iff.
    split; intros (j & Hj).
    - destruct Hj as [<- Hj]. apply first_tasks_spec in Hj. exists j. tauto.
    - exists j. rewrite first_tasks_spec. intuition. }
  assert (HH : forall r, In r (heads n') <-> (In r (heads n) /\ r <> i) \/ exists j, j < k /\ is_first m j = true /\ r = base + j).
  { intros r. rewrite <- FF. unfold heads, n'; simpl. rewrite !in_app_iff, (remove_at_in _ _ _ r NDa E).
    split; [|tauto]. intros [[[? ?]|?]|[?|?]]; auto. left. split; auto. congruence. }
  assert (LV : forall a, live h' n' a <-> (live h n a /\ a <> i) \/ exists j, j < k /\ a = base + j).
  { intros a. split.
    - intros (r & Hr & Hp). apply HH in Hr as [[Hr N]|(j & Hj & Hf & ->)].
      + assert (rtc h r a) by (eapply (rtc_ext P); [exact W|now apply (r_lt _ _ _ _ _ _ R)|exact Hp]).
        left. split; [exists r; auto|]. intros ->.
        apply rtc_cases in H as [->|H]; [congruence|]. eapply (head_no_pred _ _ _ _ _ _ r i R); auto. now apply live_head.
      + apply (dec_path_new P h i (w_inst w) ps m W E0 WO) in Hp; auto.
        destruct Hp as [(j' & Hj' & -> & _)|Ht]; [eauto|]. left. split.
        * exists i. split; auto. now apply tc_rtc.
        * intros ->. eapply (live_acyclic _ _ _ _ _ _ i R); eauto. now apply live_head.
    - assert (FR : forall j, j < k -> exists f, f < k /\ is_first m f = true /\ rtc h' (base + f) (base + j)).
      { intros j Hj. destruct (first_exists m j WO) as (f & Hf1 & Hf2).
        apply rtc_cases in Hf1 as [->|Hf1].
        - exists j. split; auto. split; auto. apply rt_refl.
        - assert (f < k) by (apply tc_first in Hf1 as (z & Hz & _); apply (proj1 WO) in Hz; apply Hz).
          exists f. split; auto. split; auto. apply tc_rtc.
          apply (dec_tc_new_new P h i (w_inst w) ps m W E0 WO); auto. }
      intros [[(r & Hr & Hp) N]|(j & Hj & ->)].
      + destruct (Nat.eq_dec r i) as [->|Nr].
        * apply rtc_cases in Hp as [->|Hp]; [congruence|].
          destruct (FR 0 Hk) as (f & Hf & Hff & _). exists (base + f). split; [apply HH; right; eauto|].
          apply tc_rtc. apply (dec_tc_new_old P h i (w_inst w) ps m W E0 WO); auto.
          eapply (dec_old_lt P h i ps W E0); eauto.
        * exists r. split; [apply HH; auto|]. eapply (rtc_ext P); [exact W|now apply (r_lt _ _ _ _ _ _ R)|exact Hp].
      + destruct (FR j Hj) as (f & Hf & Hff & Hp). exists (base + f). split; auto. apply HH. right. eauto. }
  assert (PJ : forall a, live h n a -> a <> i -> pi a <> pi i).
  { intros a Ha Na Eq. apply Na. eapply (r_inj _ _ _ _ _ _ R); eauto. now apply live_head. }
  assert (TIN : forall a, live h n a -> t_in tn (pi a)) by (intros a Ha; apply (r_in _ _ _ _ _ _ R); eauto).
  assert (CN : forall j a, live h n a -> pi a <> pi i ++ [j]).
  { intros j a Ha Eq. eapply (child_not_in tn (pi i) j); [apply R|auto|]. rewrite <- Eq. auto. }
  assert (CH : forall j, ~ t_in tn (pi i ++ [j])).
  { intros j. eapply child_not_in; [apply R|auto]. }
  split; [exact PO|]. split; [exact PN|]. split; [exact LV|].
  split.
  - apply (r_len _ _ _ _ _ _ R).
  - apply (r_state _ _ _ _ _ _ R).
  - intros a Ha. unfold h'. rewrite app_length, method_steps_length. fold base. fold k.
    apply HH in Ha as [[Ha _]|(j & Hj & _ & ->)]; [|lia]. apply (r_lt _ _ _ _ _ _ R) in Ha. fold base in Ha. lia.
  - intros y. rewrite (d_in' _ _ _ _ _ D). split.
    + intros [[Hy N]|(j & Hj & ->)].
      * apply (r_in _ _ _ _ _ _ R) in Hy as (a & Ha & <-). exists a. split; [apply LV; left; split; auto; congruence|].
        apply PO. auto.
      * exists (base + j). split; [apply LV; right; eauto|apply PN].
    + intros (a & Ha & <-). apply LV in Ha as [[Ha Na]|(j & Hj & ->)].
      * left. rewrite PO by auto. split; auto.
      * right. rewrite PN. eauto.
  - intros a b Ha Hb. apply LV in Ha as [[Ha Na]|(j & Hj & ->)]; apply LV in Hb as [[Hb Nb]|(j' & Hj' & ->)].
    + rewrite !PO by auto. now apply (r_inj _ _ _ _ _ _ R).
    + rewrite PO, PN by auto. intros Eq. exfalso. eapply CN; eauto.
    + rewrite PN, PO by auto. intros Eq. exfalso. eapply CN; eauto.
    + rewrite !PN. intros Eq. apply app_single_inj in Eq. now subst.
  - intros a q Ha G. apply LV in Ha as [[Ha Na]|(j & Hj & ->)].
    + rewrite PO by auto. rewrite (d_lab_old _ _ _ _ _ D); auto. unfold h' in G. rewrite get_app_l in G by auto.
      eapply (r_lab _ _ _ _ _ _ R); eauto.
    + rewrite PN. unfold h', base in G. rewrite get_app_r in G.
      destruct (nth_error (m_subs m) j) as [t|] eqn:Et; [|apply nth_error_None in Et; unfold k in Hj; lia].
      rewrite (method_steps_get _ _ _ _ _ _ Et) in G. injection G as <-. simpl ps_task.
      apply (d_lab_new _ _ _ _ _ D). exact Et.
  - intros a b Ha Hb. rewrite (d_ord _ _ _ _ _ D).
    apply LV in Ha as [[Ha Na]|(j & Hj & ->)]; apply LV in Hb as [[Hb Nb]|(j' & Hj' & ->)].
    + rewrite !PO by auto. unfold h'. rewrite (tc_ext P) by auto. rewrite <- (r_ord _ _ _ _ _ _ R) by auto. split.
      * intros [HH1|[HH1|[HH1|HH1]]]; tidy; auto; noc CN CH.
      * intros HH1. left. repeat split; auto.
    + rewrite PO, PN by auto. split.
      * intros [HH1|[HH1|[HH1|HH1]]]; tidy; try noc CN CH. exfalso; eapply Hmin; eauto.
      * intros HH1. exfalso. eapply (dec_tc_old_new P h (w_inst w) ps m W a j'); auto.
    + rewrite PN, PO by auto.
      assert (X : tc h' (base + j) b <-> tc h i b) by (apply (dec_tc_new_old P h i (w_inst w) ps m W E0 WO); auto).
      rewrite X.
      rewrite <- (r_ord _ _ _ _ _ _ R) by (auto; now apply live_head). split.
      * intros [HH1|[HH1|[HH1|HH1]]]; tidy; auto; noc CN CH.
      * intros HH1. right; right; left. exists j. repeat split; auto.
    + rewrite !PN.
      assert (X : tc h' (base + j) (base + j') <-> m_lt m j j') by (apply (dec_tc_new_new P h i (w_inst w) ps m W E0 WO); auto).
      rewrite X. split.
      * intros [HH1|[HH1|[HH1|HH1]]]; tidy; auto; noc CN CH.
      * intros HH1. right; left. exists j, j'. repeat split; auto.
  - pose proof (r_nodup _ _ _ _ _ _ R) as N0. unfold heads in N0 |- *. simpl.
    destruct (remove_at_split _ _ _ E) as (l1 & l2 & EP & ER). rewrite ER.
    apply NoDup_heads_app.
    + rewrite EP in N0. rewrite <- app_assoc in N0 |- *. simpl in N0. eapply NoDup_remove_1; eauto.
    + eapply Permutation_NoDup; [exact SP|]. apply FinFun.Injective_map_NoDup.
      * intros u v. lia.
      * apply NoDup_filter. apply seq_NoDup.
    + intros r Hr Hr2. apply in_app_or in Hr2. apply FF in Hr2 as (j & _ & _ & ->).
      assert (base + j < base); [|lia]. apply (r_lt _ _ _ _ _ _ R). unfold heads. rewrite EP.
      rewrite !in_app_iff in *. simpl. tauto.
  - intros r Hr. apply HH in Hr as [[Hr N]|(j & Hj & Hf & ->)].
    + rewrite PO by (now apply (r_lt _ _ _ _ _ _ R)).
      assert (LR : live h n r) by now apply live_head.
      destruct (r_min _ _ _ _ _ _ R r Hr) as [M1 M2]. split.
      * apply (d_in' _ _ _ _ _ D). left. split; auto.
      * intros y Ho. apply (d_ord _ _ _ _ _ D) in Ho as [HH1|[HH1|[HH1|HH1]]]; tidy; try noc CN CH.
        -- eapply M2; eauto.
        -- eapply M2; eauto.
    + rewrite PN. split.
      * apply (d_in' _ _ _ _ _ D). right. eauto.
      * intros y Ho. apply is_first_spec in Hf.
        apply (d_ord _ _ _ _ _ D) in Ho as [HH1|[HH1|[HH1|HH1]]]; tidy; try noc CN CH.
        -- match goal with Q : m_lt _ _ _ |- _ => apply tc_last in Q as (z & _ & Hz) end. apply Hf. eauto.
        -- eapply Hmin; eauto.
  - intros a q Ha G. simpl in Ha. apply in_app_or in Ha as [Ha|Ha].
    + apply (remove_at_in _ _ _ a NDa E) in Ha as [Ha _]. unfold h' in G. rewrite get_app_l in G.
      * eapply (r_abs _ _ _ _ _ _ R); eauto.
      * apply (r_lt _ _ _ _ _ _ R). apply in_or_app; auto.
    + destruct (SP2 a Ha) as (q' & G' & T). fold h' in G'. congruence.
  - intros a q Ha G. simpl in Ha. apply in_app_or in Ha as [Ha|Ha].
    + unfold h' in G. rewrite get_app_l in G.
      * eapply (r_prim _ _ _ _ _ _ R); eauto.
      * apply (r_lt _ _ _ _ _ _ R). apply in_or_app; auto.
    + destruct (SP1 a Ha) as (q' & G' & T). fold h' in G'. congruence.
  - eapply decomposes_wf; [apply R| |exact D]. apply WMm.
Qed.

Lemma decompose1_rep P C w n taskNo mi w' n' s tn pi :
  (forall m, In m (p_methods P) -> wf_method P m) ->
  wf_heap P (w_heap w) -> Rep P (w_heap w) n s tn pi ->
  decompose1 P (c_eff C) w n taskNo mi = Some (w', n') ->
  (forall i ps m, get (n_abs n) taskNo = Some i -> get (w_heap w) i = Some ps -> nth_error (p_methods P) mi = Some m ->
     ps_task ps = m_task m) ->
  exists i ps m pi' e, get (n_abs n) taskNo = Some i /\ get (w_heap w) i = Some ps /\
    nth_error (p_methods P) mi = Some m /\
    minimal tn (pi i) /\ w_heap w' = w_heap w ++ e /\ wf_heap P (w_heap w') /\
    decomposes P tn (pi i) m (decF tn (pi i) m) /\
    Rep P (w_heap w') n' s (decF tn (pi i) m) pi'.
Proof.
  intros WM W R H HM.
  destruct (decompose1_rep_full P C w n taskNo mi w' n' s tn pi WM W R H HM) as (i & ps & m & pi' & H1 & H2 & H3 & H4 & H5 & H6 & H7 & _ & _ & _ & H8).
  exists i, ps, m, pi', (method_steps m (length (w_heap w)) (w_inst w) (ps_succ ps)). auto 10.
Qed.
