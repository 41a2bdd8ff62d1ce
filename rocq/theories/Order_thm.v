(** C12-C14 and C53: preprocessing of method orderings. *)
From Verif Require Import Base Rel Order_model Order_proof.
From Coq Require Import Relations Operators_Properties.

(** ** Specification. An ordering array lists pairs at even positions. *)
Definition pair_in (o : list nat) (a b : nat) : Prop := exists l1 l2, o = l1 ++ a :: b :: l2 /\ Nat.even (length l1) = true.
Definition wf_ord (n : nat) (o : list nat) : Prop := Nat.even (length o) = true /\ forall x, In x o -> x < n.
(** Ordered by a chain of orderings. *)
Definition chain (o : list nat) : nat -> nat -> Prop := clos_trans nat (pair_in o).
Definition acyclic (o : list nat) : Prop := forall x, ~ chain o x x.
Definition total_order (n : nat) (o : list nat) : Prop := forall x y, x < n -> y < n -> x <> y -> chain o x y \/ chain o y x.

Lemma even_ind (P : list nat -> Prop) : P [] -> (forall a b l, P l -> P (a :: b :: l)) -> forall l, Nat.even (length l) = true -> P l.
Proof.
  intros H0 H2.
  assert (G : forall k l, length l <= k -> Nat.even (length l) = true -> P l).
  { induction k as [|k IH]; intros l L E; [destruct l; [auto|simpl in L; lia]|].
    destruct l as [|a [|b l]]; auto; [discriminate|]. apply H2. apply IH; auto. simpl in L. lia. }
  intros l. apply (G (length l)); auto.
Qed.

Lemma pair_in_cons a b l x y : pair_in (a :: b :: l) x y <-> (x = a /\ y = b) \/ pair_in l x y.
Proof.
  split.
  - intros (l1 & l2 & E & V). destruct l1 as [|c [|d l1]].
    + injection E as -> -> _. auto.
    + discriminate V.
    + injection E as -> -> E. right. exists l1, l2. auto.
  - intros [[-> ->]|(l1 & l2 & E & V)].
    + exists [], l. auto.
    + exists (a :: b :: l1), l2. rewrite E. auto.
Qed.

Lemma pairs_of_ok l : Nat.even (length l) = true -> exists ps, pairs_of l = Some ps /\ forall x y, In (x, y) ps <-> pair_in l x y.
Proof.
  revert l. apply even_ind.
  - exists []. split; [auto|]. intros x y. split; [intros []|]. intros (l1 & l2 & E & _). destruct l1; discriminate.
  - intros a b l (ps & E & D). exists ((a, b) :: ps). cbn [pairs_of]. rewrite E. cbn [obind]. split; [auto|].
    intros x y. rewrite pair_in_cons. simpl. rewrite D. split; (intros [Q|Q]; [|auto]).
    + injection Q as -> ->. auto.
    + destruct Q as [-> ->]. auto.
Qed.

Lemma flatten_even ps : Nat.even (length (flatten ps)) = true.
Proof. induction ps as [|[a b] ps IH]; auto. Qed.

Lemma flatten_pairs ps x y : pair_in (flatten ps) x y <-> In (x, y) ps.
Proof.
  induction ps as [|[a b] ps IH]; cbn [flatten].
  - split; [|intros []]. intros (l1 & l2 & E & _). destruct l1; discriminate.
  - rewrite pair_in_cons, IH. simpl. split; (intros [Q|Q]; [|auto]).
    + destruct Q as [-> ->]. auto.
    + injection Q as -> ->. auto.
Qed.

Lemma flatten_in ps z : In z (flatten ps) -> exists x y, In (x, y) ps /\ (z = x \/ z = y).
Proof.
  induction ps as [|[a b] ps IH]; simpl; [intros []|]. intros [<-|[<-|Q]]; [exists a, b; auto|exists a, b; auto|].
  destruct (IH Q) as (x & y & I & H). exists x, y. auto.
Qed.

Lemma ord_pairs_in n t x y : In (x, y) (ord_pairs n t) <-> x < n /\ y < n /\ t x y = true.
Proof. unfold ord_pairs. rewrite filter_In, grid_in. simpl. tauto. Qed.

Lemma pair_in_lt n o x y : wf_ord n o -> pair_in o x y -> x < n /\ y < n.
Proof.
  intros [_ W] (l1 & l2 & -> & _). split; apply W; apply in_or_app; right; [now left|right; now left].
Qed.

Lemma chain_lt n o x y : wf_ord n o -> chain o x y -> x < n /\ y < n.
Proof. intros W. induction 1 as [x y H|x y z _ IH1 _ IH2]; [eapply pair_in_lt; eauto|]. tauto. Qed.

(** The matrix after Warshall. *)
Lemma closure_matrix n o : wf_ord n o -> exists ps t, pairs_of o = Some ps /\ fill n ps = Some t /\
  forall x y, warshall n t x y = true <-> chain o x y.
Proof.
  intros W. destruct (pairs_of_ok o (proj1 W)) as (ps & E & D).
  destruct (fill_ok n ps) as (t & F & T). { intros x y Q. apply D in Q. eapply pair_in_lt; eauto. }
  exists ps, t. split; [auto|]. split; [auto|].
  apply warshall_ok.
  - intros x y. apply pair_in_lt. exact W.
  - intros x y. rewrite T. apply D.
Qed.

(** C12 a: the closure, for every ordering array (also a cyclic one). *)
Theorem closure_exact n isInit o f : wf_ord n o ->
  exists o', transChange true n isInit o f = Some (o', f) /\ wf_ord n o' /\
    forall a b, pair_in o' a b <-> chain o a b.
Proof.
  intros W. destruct (closure_matrix n o W) as (ps & t & E & F & D). unfold transChange. rewrite E. cbn [obind]. rewrite F. cbn [obind].
  eexists. split; [reflexivity|]. split.
  - split; [apply flatten_even|]. intros z Q. apply flatten_in in Q as (x & y & Q & Z). apply ord_pairs_in in Q. destruct Z; subst; tauto.
  - intros a b. rewrite flatten_pairs, ord_pairs_in, D. split; [tauto|]. intros C. pose proof (chain_lt _ _ _ _ W C). tauto.
Qed.

Lemma reduce_ord n o : wf_ord n o -> acyclic o -> exists t, 
  (forall isInit f, transChange false n isInit o f = Some (flatten (ord_pairs n (reduce n t)), update_flags n (reduce n t) isInit f)) /\
  (forall x y, t x y = true <-> chain o x y) /\ (forall x y, t x y = true -> x < n /\ y < n) /\
  (forall x y z, t x y = true -> t y z = true -> t x z = true) /\ (forall x, t x x = false).
Proof.
  intros W A. destruct (closure_matrix n o W) as (ps & t0 & E & F & D). exists (warshall n t0). split; [|split; [auto|split; [|split]]].
  - intros isInit f. unfold transChange. rewrite E. cbn [obind]. rewrite F. reflexivity.
  - intros x y. rewrite D. apply chain_lt. auto.
  - intros x y z. rewrite !D. apply t_trans.
  - intros x. destruct (warshall n t0 x x) eqn:Q; auto. apply D in Q. now elim (A x).
Qed.

Lemma red_pairs n t x y : (forall x y, t x y = true -> x < n /\ y < n) ->
  (pair_in (flatten (ord_pairs n (reduce n t))) x y <-> redr n t x y).
Proof.
  intros B. rewrite flatten_pairs, ord_pairs_in. unfold redr. split; [tauto|]. intros Q. split; [|split; [|auto]]; apply (B x y); now apply reduce_sub in Q.
Qed.

Lemma tc_iff (R S : nat -> nat -> Prop) : (forall x y, R x y <-> S x y) -> forall x y, tc R x y <-> tc S x y.
Proof. intros H x y. split; apply tc_mono; intros a b; apply H. Qed.

(** C12 b: the reduced form of acyclic orderings has the same closure, and no pair in it is implied by the others. *)
Theorem reduction_exact n isInit o f : wf_ord n o -> acyclic o ->
  exists o' f', transChange false n isInit o f = Some (o', f') /\ wf_ord n o' /\
    (forall a b, chain o' a b <-> chain o a b) /\
    (forall a b, pair_in o' a b -> ~ clos_trans nat (fun x y => pair_in o' x y /\ (x, y) <> (a, b)) a b).
Proof.
  intros W A. destruct (reduce_ord n o W A) as (t & E & D & B & T & I).
  exists (flatten (ord_pairs n (reduce n t))), (update_flags n (reduce n t) isInit f). split; [auto|]. split; [|split].
  - split; [apply flatten_even|]. intros z Q. apply flatten_in in Q as (x & y & Q & Z). apply ord_pairs_in in Q. destruct Z; subst; tauto.
  - intros a b. rewrite <- D, <- (red_closure n t B T I). unfold chain. apply tc_iff. intros x y. now apply red_pairs.
  - intros a b P C. apply red_pairs in P; auto. apply redr_spec in P as [_ N]; auto.
    apply tc_first in C as (z & [Q NE] & C). apply rtc_cases in C as [->|C]; [congruence|].
    apply N. exists z. apply red_pairs in Q; auto. split; [now apply reduce_sub in Q|].
    apply (red_closure n t B T I). revert C. apply tc_mono. intros x y [H _]. now apply red_pairs in H.
Qed.

(** Acyclicity is needed: two subtasks ordered both ways lose both orderings, and the method then counts as unordered. *)
Theorem reduction_cyclic_refuted : exists o o' f',
  wf_ord 2 o /\ transChange false 2 false o flags0 = Some (o', f') /\ chain o 0 1 /\ ~ chain o' 0 1.
Proof.
  exists [0; 1; 1; 0], [], {| fTO := false; fUP := false; fPS := false |}. split; [|split; [|split]].
  - split; [reflexivity|]. intros x Q. simpl in Q. lia.
  - vm_compute. reflexivity.
  - apply t_step. exists [], [1; 0]. auto.
  - intros C. apply tc_first in C as (z & (l1 & l2 & Q & _) & _). destruct l1; discriminate.
Qed.

(** ** Flags *)
Definition meth := (nat * bool * list nat)%type.
Definition m_n (m : meth) := fst (fst m).
Definition m_init (m : meth) := snd (fst m).
Definition m_ord (m : meth) := snd m.

Lemma total_iff n o t : (forall x y, t x y = true <-> chain o x y) -> (total n t <-> total_order n o).
Proof.
  intros D. unfold total, total_order. split; intros H x y Hx Hy NE; destruct (H x y Hx Hy NE) as [Q|Q]; apply D in Q; auto.
Qed.

Lemma ltb_le a b : Nat.ltb a b = false <-> b <= a.
Proof. apply Nat.ltb_ge. Qed.

Lemma flag_TO n o isInit f t : (forall x y, t x y = true <-> chain o x y) -> (forall x y, t x y = true -> x < n /\ y < n) ->
  (forall x y z, t x y = true -> t y z = true -> t x z = true) -> (forall x, t x x = false) ->
  (fTO (update_flags n (reduce n t) isInit f) = true <-> fTO f = true /\ total_order n o).
Proof.
  intros D B T I. rewrite <- (total_iff n o t D), <- (total_flag n t B T I). unfold update_flags.
  destruct (Nat.ltb_spec 1 (notOne (numSucc n (reduce n t)) n)); cbn [orb fTO]; [split; [discriminate|]; lia|].
  destruct (Nat.ltb_spec 1 (notOne (numPrec n (reduce n t)) n)); cbn [orb fTO]; [split; [discriminate|]; lia|].
  intuition lia.
Qed.

(** C13 a: reading all methods. *)
Theorem total_flag_exact ms : (forall m, In m ms -> wf_ord (m_n m) (m_ord m) /\ acyclic (m_ord m)) ->
  exists os f, readOrderings ms flags0 = Some (os, f) /\
    (fTO f = true <-> forall m, In m ms -> total_order (m_n m) (m_ord m)) /\
    Forall2 (fun m o' => forall a b, chain o' a b <-> chain (m_ord m) a b) ms os.
Proof.
  assert (G : forall ms f0, (forall m, In m ms -> wf_ord (m_n m) (m_ord m) /\ acyclic (m_ord m)) ->
     exists os f, readOrderings ms f0 = Some (os, f) /\
     (fTO f = true <-> fTO f0 = true /\ forall m, In m ms -> total_order (m_n m) (m_ord m)) /\
     Forall2 (fun m o' => forall a b, chain o' a b <-> chain (m_ord m) a b) ms os).
  { induction ms0 as [|[[n i] o] r IH]; intros f0 H; cbn [readOrderings].
    - exists [], f0. split; [auto|]. split; [|constructor]. split; [|tauto]. intros Q. split; auto. intros m [].
    - destruct (H (n, i, o) (or_introl eq_refl)) as [W A]. cbn [m_n m_ord m_init fst snd] in W, A.
      destruct (reduction_exact n i o f0 W A) as (o' & f1 & E & _ & EQ & _).
      destruct (reduce_ord n o W A) as (t & E' & D & B & T & I).
      assert (F1 : f1 = update_flags n (reduce n t) i f0) by (rewrite E' in E; congruence).
      rewrite E. cbn [obind].
      destruct (IH f1) as (os & f & E2 & F2 & FA). { intros m Hm. apply H. now right. }
      rewrite E2. cbn [obind]. exists (o' :: os), f. split; [auto|]. split; [|constructor; auto].
      rewrite F2. rewrite F1, (flag_TO n o i f0 t D B T I). split.
      + intros [[Q1 Q2] Q3]. split; auto. intros m [<-|Hm]; auto.
      + intros [Q1 Q2]. split; [split; auto|].
        * exact (Q2 (n, i, o) (or_introl eq_refl)).
        * intros m Hm. apply Q2. now right. }
  intros H. destruct (G ms flags0 H) as (os & f & E & F & FA). exists os, f. split; [auto|]. split; [|auto].
  rewrite F. simpl. tauto.
Qed.

(** C13 b: the second test, by depth first search. [adj] is the map of successor sets, listed in any order; the computed
    array is a permutation of the subtasks in which every ordering leads to a later position, whatever the verdict. *)
Theorem total_order_test_exact n o adj : wf_ord n o -> acyclic o -> (forall a b, In b (adj a) <-> pair_in o a b) ->
  exists l v, isMethodTotallyOrdered n adj = Some (l, v) /\
    NoDup l /\ (forall x, In x l <-> x < n) /\
    (forall l1 a l2 b, l = l1 ++ a :: l2 -> chain o a b -> In b l2) /\
    (v = true <-> total_order n o).
Proof.
  intros W A H.
  assert (TC : forall a b, tc (edge adj) a b <-> chain o a b) by (apply tc_iff; intros; apply H).
  destruct (isTO_ok n adj) as (l & v & E & N & D & T & V).
  - intros a b Q. apply H in Q. eapply pair_in_lt; eauto.
  - intros a Q. apply TC in Q. now apply (A a).
  - exists l, v. split; [auto|]. split; [auto|]. split; [auto|]. split.
    + intros l1 a l2 b Eq C. eapply (topo_tc adj); eauto. now apply TC.
    + rewrite V. unfold total_order. split; intros Q x y Hx Hy NE; destruct (Q x y Hx Hy NE) as [Z|Z]; apply TC in Z; auto.
Qed.

(** ** C14 and C53: the flag isParallelSequences *)

(** A set of mutually unordered chains: no subtask has two different direct successors or predecessors. *)
Definition direct (o : list nat) (a b : nat) : Prop := chain o a b /\ ~ exists c, chain o a c /\ chain o c b.
Definition no_fork (o : list nat) : Prop := forall a b c, direct o a b -> direct o a c -> b = c.
Definition no_join (o : list nat) : Prop := forall a b c, direct o a c -> direct o b c -> a = b.

(** What the code computes. *)
Theorem parallel_flag_characterised ms : (forall m, In m ms -> wf_ord (m_n m) (m_ord m) /\ acyclic (m_ord m)) ->
  exists os f, readOrderings ms flags0 = Some (os, f) /\
    (fPS f = true <-> forall m, In m ms -> total_order (m_n m) (m_ord m) \/
                                     (m_init m = true /\ (no_fork (m_ord m) \/ no_join (m_ord m)))) /\
    (fUP f = true <-> forall m, In m ms -> total_order (m_n m) (m_ord m) \/ (m_init m = true /\ no_fork (m_ord m))).
Proof.
  set (cP := fun m : meth => total_order (m_n m) (m_ord m) \/ (m_init m = true /\ (no_fork (m_ord m) \/ no_join (m_ord m)))).
  set (cU := fun m : meth => total_order (m_n m) (m_ord m) \/ (m_init m = true /\ no_fork (m_ord m))).
  assert (G : forall ms f0, (forall m, In m ms -> wf_ord (m_n m) (m_ord m) /\ acyclic (m_ord m)) ->
     exists os f, readOrderings ms f0 = Some (os, f) /\
     (fPS f = true <-> fPS f0 = true /\ forall m, In m ms -> cP m) /\
     (fUP f = true <-> fUP f0 = true /\ forall m, In m ms -> cU m)).
  { induction ms0 as [|[[n i] o] r IH]; intros f0 H; cbn [readOrderings].
    - exists [], f0. split; [auto|]. split; (split; [|tauto]); intros Q; (split; auto); intros m [].
    - destruct (H (n, i, o) (or_introl eq_refl)) as [W A]. cbn [m_n m_ord m_init fst snd] in W, A.
      destruct (reduce_ord n o W A) as (t & E' & D & B & T & I). rewrite E'. cbn [obind].
      set (f1 := update_flags n (reduce n t) i f0).
      assert (RD : forall x y, redr n t x y <-> direct o x y).
      { intros x y. rewrite (redr_spec n t B). unfold direct. rewrite D.
        split; intros [Q1 Q2]; (split; auto); intros (k & K1 & K2); apply Q2; exists k; rewrite ?D in *; auto. }
      assert (MS : moreThanOne (numSucc n (reduce n t)) n = false <-> no_fork o).
      { unfold moreThanOne, no_fork. rewrite <- not_true_iff_false, existsb_exists. split.
        - intros N a b c Q1 Q2. apply RD in Q1, Q2. destruct (Nat.ltb_spec 1 (numSucc n (reduce n t) a)) as [L|L].
          + elim N. exists a. split; [|now apply Nat.ltb_lt]. apply in_seq. pose proof (redr_lt n t B _ _ Q1). lia.
          + pose proof (proj1 (numSucc_le n t B a) L). eauto.
        - intros N (a & _ & L). apply Nat.ltb_lt in L.
          assert (numSucc n (reduce n t) a <= 1); [|lia]. apply (numSucc_le n t B). intros y z Q1 Q2. apply RD in Q1, Q2. eauto. }
      assert (MP : moreThanOne (numPrec n (reduce n t)) n = false <-> no_join o).
      { unfold moreThanOne, no_join. rewrite <- not_true_iff_false, existsb_exists. split.
        - intros N a b c Q1 Q2. apply RD in Q1, Q2. destruct (Nat.ltb_spec 1 (numPrec n (reduce n t) c)) as [L|L].
          + elim N. exists c. split; [|now apply Nat.ltb_lt]. apply in_seq. pose proof (redr_lt n t B _ _ Q1). lia.
          + pose proof (proj1 (numPrec_le n t B c) L). eauto.
        - intros N (a & _ & L). apply Nat.ltb_lt in L.
          assert (numPrec n (reduce n t) a <= 1); [|lia]. apply (numPrec_le n t B). intros y z Q1 Q2. apply RD in Q1, Q2. eauto. }
      pose proof (total_flag n t B T I) as TF. rewrite (total_iff n o t D) in TF.
      assert (S1 : (fPS f1 = true <-> fPS f0 = true /\ cP (n, i, o)) /\ (fUP f1 = true <-> fUP f0 = true /\ cU (n, i, o))).
      { unfold f1, update_flags, cP, cU. cbn [m_n m_ord m_init fst snd].
        destruct (Nat.ltb 1 (notOne (numSucc n (reduce n t)) n) || Nat.ltb 1 (notOne (numPrec n (reduce n t)) n)) eqn:L; cbn [fPS fUP].
        - assert (NT : ~ total_order n o).
          { rewrite <- TF. apply orb_true_iff in L as [L|L]; apply Nat.ltb_lt in L; lia. }
          destruct (moreThanOne (numSucc n (reduce n t)) n), (moreThanOne (numPrec n (reduce n t)) n), i; cbn;
            repeat match goal with H : true = false <-> _ |- _ => apply proj2 in H | H : false = false <-> _ |- _ => apply proj1 in H; specialize (H eq_refl) end; intuition congruence.
        - assert (TO : total_order n o).
          { rewrite <- TF. apply orb_false_iff in L as [L1 L2]. apply Nat.ltb_ge in L1, L2. auto. }
          tauto. }
      destruct (IH f1) as (os & f & E2 & F2 & F3). { intros m Hm. apply H. now right. }
      rewrite E2. cbn [obind]. eexists _, f. split; [reflexivity|]. rewrite F2, F3.
      destruct S1 as [-> ->]. split; (split;
        [intros [[Q1 Q2] Q3]; (split; [auto|]); intros m [<-|Hm]; auto
        |intros [Q1 Q2]; split; [split; [auto|exact (Q2 (n, i, o) (or_introl eq_refl))]|intros m Hm; apply Q2; now right]]). }
  intros H. destruct (G ms flags0 H) as (os & f & E & F & F'). exists os, f. split; [auto|]. 
  cbn [fPS fUP flags0] in F, F'. split; [rewrite F|rewrite F']; tauto.
Qed.

(** C14 fails: an initial method with a < c and b < c is not a set of unordered chains, yet the flag stays set; the same for
    a < b and a < c. *)
Lemma direct_intro o a b : acyclic o -> pair_in o a b -> (forall c, ~ (chain o a c /\ chain o c b)) -> direct o a b.
Proof. intros _ P N. split; [now apply t_step|]. intros (c & C). now apply (N c). Qed.

Theorem parallel_flag_refuted :
  exists o os f, wf_ord 3 o /\ acyclic o /\ readOrderings [(3, true, o)] flags0 = Some (os, f) /\
    fPS f = true /\ ~ total_order 3 o /\ ~ no_join o.
Proof.
  assert (P : forall x y, pair_in [0; 2; 1; 2] x y <-> (x = 0 \/ x = 1) /\ y = 2).
  { intros x y. rewrite !pair_in_cons. split; [|intuition].
    intros [Q|[Q|(l1 & l2 & E & _)]]; [tauto|tauto|destruct l1; discriminate]. }
  assert (C : forall x y, chain [0; 2; 1; 2] x y <-> (x = 0 \/ x = 1) /\ y = 2).
  { intros x y. split; [|intros Q; apply t_step; now apply P].
    induction 1 as [x y Q|x y z _ IH1 _ IH2]; [now apply P|]. lia. }
  assert (A : acyclic [0; 2; 1; 2]) by (intros x Q; apply C in Q; lia).
  exists [0; 2; 1; 2], [[0; 2; 1; 2]], {| fTO := false; fUP := true; fPS := true |}.
  split; [split; [reflexivity|]; intros x Q; simpl in Q; lia|]. split; [exact A|]. split; [vm_compute; reflexivity|]. split; [auto|]. split.
  - intros T. destruct (T 0 1) as [Q|Q]; try lia; apply C in Q; lia.
  - intros N. assert (0 = 1); [|discriminate].
    apply (N 0 1 2); (split; [apply C; lia|]); intros (c & Q1 & Q2); apply C in Q1, Q2; lia.
Qed.

Module Ex.
  (** A diamond with a redundant edge: hypotheses hold, the reduction drops 0 < 3. *)
  Definition dia := [0; 1; 0; 2; 1; 3; 2; 3; 0; 3].
  Example wf : wf_ord 4 dia.
  Proof. split; [reflexivity|]. intros x Q. simpl in Q. lia. Qed.
  Example ac : acyclic dia.
  Proof.
    assert (P : forall x y, chain dia x y -> x < y).
    { induction 1 as [x y Q|x y z _ IH1 _ IH2]; [|lia]. unfold dia in Q. rewrite !pair_in_cons in Q.
      destruct Q as [Q|[Q|[Q|[Q|[Q|(l1 & l2 & E & _)]]]]]; try lia. destruct l1; discriminate. }
    intros x Q. apply P in Q. lia.
  Qed.
  Example red : option_map fst (transChange false 4 false dia flags0) = Some [0; 1; 0; 2; 1; 3; 2; 3].
  Proof. vm_compute. reflexivity. Qed.
  Example clo : option_map fst (transChange true 4 false [0; 1; 1; 2; 2; 3] flags0) = Some [0; 1; 0; 2; 0; 3; 1; 2; 1; 3; 2; 3].
  Proof. vm_compute. reflexivity. Qed.
  (** Two methods, one of them not a total order. *)
  Example flag : option_map (fun r => fTO (snd r)) (readOrderings [(3, false, [0; 1; 1; 2; 0; 2]); (4, false, dia)] flags0) = Some false.
  Proof. vm_compute. reflexivity. Qed.
  Example flag2 : option_map (fun r => fTO (snd r)) (readOrderings [(3, false, [0; 1; 1; 2; 0; 2]); (2, true, [1; 0])] flags0) = Some true.
  Proof. vm_compute. reflexivity. Qed.
  (** The test by depth first search on a chain 2 < 0 < 1 (with the implied pair) and on the diamond. *)
  Example dfs1 : isMethodTotallyOrdered 3 (fun a => match a with 2 => [1; 0] | 0 => [1] | _ => [] end) = Some ([2; 0; 1], true).
  Proof. vm_compute. reflexivity. Qed.
  Example dfs2 : isMethodTotallyOrdered 4 (fun a => match a with 0 => [1; 2; 3] | 1 | 2 => [3] | _ => [] end) = Some ([0; 2; 1; 3], false).
  Proof. vm_compute. reflexivity. Qed.
End Ex.

Print Assumptions closure_exact.
Print Assumptions reduction_exact.
Print Assumptions reduction_cyclic_refuted.
Print Assumptions total_flag_exact.
Print Assumptions total_order_test_exact.
Print Assumptions parallel_flag_characterised.
Print Assumptions parallel_flag_refuted.
