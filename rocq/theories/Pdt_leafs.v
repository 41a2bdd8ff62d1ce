(** Leaves of the tree, the reachability filter and the complete pruning of one depth. *)
From Verif Require Import Base Htn_problem Htn_spec Sf_proof Tab_proof Pdt_model Pdt_tree Pdt_expand Pdt_prune.

Lemma in_go {A B} (f : A -> nat -> list B) (x : B) : forall l b,
  In x ((fix go (l : list A) (i : nat) {struct l} := match l with [] => [] | u :: r => f u i ++ go r (S i) end) l b) <-> exists k u, nth_error l k = Some u /\ In x (f u (b + k)).
Proof.
  induction l as [|u r IH]; intros b.
  - split; [intros []|]. intros (k & u & E & _). destruct k; discriminate.
  - rewrite in_app_iff, IH. split.
    + intros [H|(k & w & E & H)]; [exists 0, u|exists (S k), w]; cbn [nth_error]; (split; [auto|]); [now rewrite Nat.add_0_r|now rewrite <- Nat.add_succ_comm].
    + intros ([|k] & w & E & H); cbn [nth_error] in E; [injection E as ->; left; now rewrite Nat.add_0_r in H|]. right. exists k, w. split; auto. now rewrite Nat.add_succ_comm.
Qed.
Lemma leafs_in : forall t q0 q d, In (q, d) (leafs t q0) <-> exists path, subtree t path = Some (PNode d []) /\ q = rev path ++ q0.
Proof.
  induction t as [e ch IH] using pdt_rect'. intros q0 q d. destruct ch as [|u0 r0].
  - cbn [leafs]. split.
    + intros [H|[]]. injection H as <- <-. exists []. auto.
    + intros ([|c path] & E & ->); cbn [subtree] in E; [injection E as ->; now left|]. cbn [kids] in E. destruct c; discriminate.
  - set (ch := u0 :: r0) in *. change (leafs (PNode e ch) q0) with ((fix go (l : list pdt) (i : nat) {struct l} := match l with [] => [] | u :: r => leafs u (i :: q0) ++ go r (S i) end) ch 0).
    rewrite (in_go (fun u i => leafs u (i :: q0))). rewrite Forall_forall in IH. split.
    + intros (k & u & E & H). apply (IH u) in H as (path & E' & ->); [|eapply nth_error_In; eauto]. exists (k :: path). cbn [subtree kids]. unfold get. rewrite E. cbn [obind rev]. rewrite <- app_assoc. auto.
    + intros ([|c path] & E & ->); cbn [subtree] in E; [discriminate|]. apply obind_some in E as (u & E1 & E2). cbn [kids] in E1. exists c, u. split; auto. apply IH; [eapply nth_error_In; eauto|]. exists path. cbn [rev]. rewrite <- app_assoc. auto.
Qed.
Lemma leafs_at T q d : In (q, d) (leafs T []) <-> at_node T q (PNode d []).
Proof.
  rewrite leafs_in. unfold at_node. split.
  - intros (path & E & ->). now rewrite app_nil_r, rev_involutive.
  - intros E. exists (rev q). now rewrite rev_involutive, app_nil_r.
Qed.

(** ** The reachability filter *)
Section FF.
  Variable P : problem.
  Hypothesis WF : wf_problem P.
  Notation lfs := (list (list nat * pnode)).

  (** Actions taken at the leaves: [sel q] is the index of the action at leaf [q]. *)
  Definition sel_at (sel : list nat -> option nat) (x : list nat * pnode) : list nat :=
    match sel (fst x) with Some i => match nth_error (pn_prims (snd x)) i with Some p => [p] | None => [] end | None => [] end.
  Definition sel_plan (sel : list nat -> option nat) (ls : lfs) : list nat := flat_map (sel_at sel) ls.

  Definition prims_ok (ls : lfs) : Prop := forall q d p, In (q, d) ls -> In p (pn_prims d) -> primitive P p.
  Lemma ff_prims_ok reach q F prims : (forall p, In p prims -> primitive P p) -> exists its exe, ff_prims P reach q F prims = Some (its, exe) /\ (forall p, In p exe -> In p prims) /\
    (forall i, In i its <-> exists j p pr f, nth_error prims j = Some p /\ i = IP q j /\ ~ In i F /\ nth_error (p_prec P) p = Some pr /\ In f pr /\ ~ In f reach) /\
    (forall j p pr, nth_error prims j = Some p -> ~ In (IP q j) F -> nth_error (p_prec P) p = Some pr -> (forall f, In f pr -> In f reach) -> In p exe).
  Proof.
    intros PO. unfold ff_prims. assert (PR : forall p, In p prims -> exists pr, get (p_prec P) p = Some pr). { intros p Hp. apply PO, (wf_prim _ WF) in Hp. rewrite <- (wf_prec _ WF) in Hp. now apply get_some. }
    match goal with |- context [omap ?f ?l] => destruct (omap_ok f l) as (rs & E) end.
    { intros [i p] Hi. apply enum_in in Hi. destruct (marked F (IP q i)); [eauto|]. destruct (PR p) as (pr & ->); [eapply nth_error_In; eauto|]. cbn [obind]. destruct (forallb _ pr); eauto. }
    rewrite E. cbn [obind]. eexists _, _. split; [reflexivity|]. apply omap_some in E. split; [|split].
    - intros p Hp. apply in_concat in Hp as (l & Hl & Hp). apply in_map_iff in Hl as ([a b] & <- & Hr). destruct (forall2_in_r _ _ _ _ E Hr) as ([i x] & Hi & Ei). apply enum_in in Hi. destruct (marked F (IP q i)); [injection Ei as <- <-; destruct Hp|]. apply obind_some in Ei as (pr & _ & Ei). destruct (forallb _ pr); injection Ei as <- <-; [|destruct Hp]. destruct Hp as [<-|[]]. eapply nth_error_In; eauto.
    - intros i. rewrite in_concat. split.
      + intros (l & Hl & Hp). apply in_map_iff in Hl as ([a b] & <- & Hr). destruct (forall2_in_r _ _ _ _ E Hr) as ([j x] & Hi & Ei). apply enum_in in Hi. destruct (marked F (IP q j)) eqn:M; [injection Ei as <- <-; destruct Hp|]. apply marked_out in M. apply obind_some in Ei as (pr & Ep & Ei).
        destruct (forallb _ pr) eqn:B; injection Ei as <- <-; [destruct Hp|]. destruct Hp as [<-|[]]. assert (exists f, In f pr /\ ~ In f reach). { clear -B. induction pr as [|f pr IH]; [discriminate|]. cbn [forallb] in B. destruct (memb f reach) eqn:M; [destruct (IH B) as (g & G1 & G2); exists g; split; auto; now right|]. apply memb_false in M. exists f. split; auto. now left. }
        destruct H as (f & H1 & H2). exists j, x, pr, f. auto 10.
      + intros (j & p & pr & f & Hj & -> & NF & Ep & Hf & Nf). destruct (forall2_in_l _ _ _ (j, p) E) as ([a b] & Hr & Ei); [now apply enum_in|]. apply marked_out in NF. rewrite NF in Ei. unfold get in Ei. rewrite Ep in Ei. cbn [obind] in Ei.
        exists a. split; [apply in_map_iff; exists (a, b); auto|]. destruct (forallb _ pr) eqn:B; [|injection Ei as <- <-; now left]. rewrite forallb_forall in B. apply B, memb_In in Hf. contradiction.
    - intros j p pr Hj NF Ep Hr. destruct (forall2_in_l _ _ _ (j, p) E) as ([a b] & Hi & Ei); [now apply enum_in|]. apply marked_out in NF. rewrite NF in Ei. unfold get in Ei. rewrite Ep in Ei. cbn [obind] in Ei.
      apply in_concat. exists b. split; [apply in_map_iff; exists (a, b); auto|]. replace (forallb _ pr) with true in Ei; [injection Ei as <- <-; now left|]. symmetry. apply forallb_forall. intros f Hf. apply memb_In. auto.
  Qed.

  Lemma ff_leafs_ok F ls : prims_ok ls -> forall reach, exists its, ff_leafs P reach F ls = Some its /\ (forall i, In i its -> ~ In i F /\ exists q d j, In (q, d) ls /\ i = IP q j /\ j < length (pn_prims d)).
  Proof.
    induction ls as [|[q d] r IH]; intros PO reach; cbn [ff_leafs]; [exists []; split; auto; intros i []|].
    destruct (ff_prims_ok reach q F (pn_prims d)) as (its & exe & -> & HE & HI & _); [intros p Hp; apply (PO q d p); auto; now left|]. cbn [obind].
    destruct (omap_ok (get (p_add P)) exe) as (ads & ->). { intros p Hp. apply get_some. rewrite (wf_add _ WF). apply (wf_prim _ WF). apply (PO q d p); [now left|auto]. } cbn [obind].
    destruct (IH (fun q' d' p H => PO q' d' p (or_intror H)) (concat ads ++ reach)) as (rest & -> & HR). cbn [obind]. exists (its ++ rest). split; auto. intros i Hi. apply in_app_or in Hi as [Hi|Hi].
    - apply HI in Hi as (j & p & pr & f & Hj & -> & NF & _). split; auto. exists q, d, j. split; [now left|]. split; auto. apply nth_error_Some. congruence.
    - apply HR in Hi as (NF & q' & d' & j & H1 & H2). split; auto. exists q', d', j. split; [now right|auto].
  Qed.

  (** Selected actions that are executable one after the other are not pruned. *)
  Lemma ff_leafs_keep (sel : list nat -> option nat) F ls : prims_ok ls -> forall reach its (s : state), ff_leafs P reach F ls = Some its -> (forall f, s f -> In f reach) -> executable P s (sel_plan sel ls) ->
    (forall q d i, In (q, d) ls -> sel q = Some i -> ~ In (IP q i) F) -> forall q i, In (IP q i) its -> sel q <> Some i.
  Proof.
    induction ls as [|[q d] r IH]; intros PO reach its s E Hs EX NM q0 i0 Hi; cbn [ff_leafs] in E; [injection E as <-; destruct Hi|].
    destruct (ff_prims_ok reach q F (pn_prims d)) as (it1 & exe & E1 & HE & HI & HX); [intros p Hp; apply (PO q d p); auto; now left|]. rewrite E1 in E. cbn [obind] in E.
    apply obind_some in E as (ads & Ea & E). apply obind_some in E as (rest & Er & E). apply some_eq in E. subst its. cbn [sel_plan flat_map] in EX. fold (sel_plan sel r) in EX.
    assert (PO' : prims_ok r) by (intros q' d' p H; apply (PO q' d' p); now right). assert (NM' : forall q d i, In (q, d) r -> sel q = Some i -> ~ In (IP q i) F) by (intros q' d' i H; apply (NM q' d' i); now right).
    unfold sel_at in EX. cbn [fst snd] in EX.
    assert (G : (In (IP q0 i0) it1 -> sel q0 <> Some i0) /\ exists s' : state, (forall f, s' f -> In f (concat ads ++ reach)) /\ executable P s' (sel_plan sel r)).
    { destruct (sel q) as [i|] eqn:Es.
      - destruct (nth_error (pn_prims d) i) as [p|] eqn:Ep.
        + cbn [app executable] in EX. destruct EX as [AP EX]. split.
          * intros H E. apply HI in H as (j & p' & pr & f & Hj & Ei & NF & Epr & Hf & Nf). injection Ei as -> ->. assert (p' = p) by congruence. subst p'. apply Nf, Hs, AP. exists pr. auto.
          * exists (result P s p). split; auto. intros f [(l & El & Hf)|[Hf _]]; apply in_or_app; [left|right; auto]. assert (Hp : In p exe).
            { assert (PP : primitive P p) by (apply (PO q d p); [now left|eapply nth_error_In; eauto]). apply (wf_prim _ WF) in PP. rewrite <- (wf_prec _ WF) in PP. apply get_some in PP as (pr & Epr). apply (HX i p pr); auto; [apply (NM q d i); auto; now left|]. intros g Hg. apply Hs, AP. exists pr. auto. }
            apply omap_some in Ea. destruct (forall2_in_l _ _ _ p Ea Hp) as (l' & Hl' & E'). unfold get in E'. apply in_concat. exists l'. split; auto. congruence.
        + split; [|exists s; split; auto; intros f Hf; apply in_or_app; right; auto]. intros H E. apply HI in H as (j & p' & pr & f & Hj & Ei & _). injection Ei as -> ->. congruence.
      - split; [|exists s; split; auto; intros f Hf; apply in_or_app; right; auto]. intros H E. apply HI in H as (j & p' & pr & f & Hj & Ei & _). injection Ei as -> ->. congruence. }
    destruct G as [G1 (s' & G2 & G3)]. apply in_app_or in Hi as [Hi|Hi]; [auto|]. exact (IH PO' _ rest s' Er G2 G3 NM' q0 i0 Hi).
  Qed.

  Definition left_prims (ls : lfs) (F : flags) : nat := length (filter (fun i => negb (marked F i)) (flat_map (fun '(q, d) => map (IP q) (seq 0 (length (pn_prims d)))) ls)).
  Lemma filter_less {A} (f g : A -> bool) l x : (forall y, g y = true -> f y = true) -> In x l -> f x = true -> g x = false -> length (filter g l) < length (filter f l).
  Proof.
    intros H. assert (M : forall l, length (filter g l) <= length (filter f l)). { induction l0 as [|y r IH]; cbn [filter]; auto. destruct (g y) eqn:E; [rewrite (H y E); cbn [length]; lia|]. destruct (f y); cbn [length]; lia. }
    induction l as [|y r IH]; intros Hx Hf Hg; [destruct Hx|]. cbn [filter]. destruct Hx as [->|Hx].
    - rewrite Hf, Hg. cbn [length]. specialize (M r). lia.
    - specialize (IH Hx Hf Hg). destruct (g y) eqn:E; [rewrite (H y E); cbn [length]; lia|]. destruct (f y); cbn [length]; lia.
  Qed.
  Lemma ff_loop_ok ls : prims_ok ls -> forall fuel F, left_prims ls F < fuel -> exists F', ff_loop P fuel ls F = Some F' /\ incl F F' /\ (forall i, In i F' -> In i F \/ exists q d j, In (q, d) ls /\ i = IP q j).
  Proof.
    intros PO. induction fuel as [|fuel IH]; intros F L; [lia|]. cbn [ff_loop]. unfold filter_leafs_ff. destruct (ff_leafs_ok F ls PO (p_s0 P)) as (its & -> & HI). cbn [obind]. destruct its as [|i its].
    - exists F. cbn. split; auto. split; [apply incl_refl|auto].
    - destruct (IH (mark F (i :: its))) as (F' & E & I1 & I2).
      + assert (LL : left_prims ls (mark F (i :: its)) < left_prims ls F); [|lia]. destruct (HI i (or_introl eq_refl)) as (NF & q & d & j & Hq & Hij & Hj). unfold left_prims. apply (filter_less _ _ _ i).
        * intros y Hy. apply negb_true_iff in Hy. apply negb_true_iff. apply marked_out. apply marked_out in Hy. intros X. apply Hy. apply mark_in. auto.
        * apply in_flat_map. exists (q, d). split; auto. rewrite Hij. apply in_map, in_seq. lia.
        * apply negb_true_iff. now apply marked_out.
        * apply negb_false_iff. apply marked_in, mark_in. right. now left.
      + exists F'. split; [exact E|]. split; [intros x Hx; apply I1, mark_in; auto|]. intros x Hx. destruct (I2 x Hx) as [X|X]; auto. apply mark_in in X as [X|X]; auto. destruct (HI x X) as (_ & q & d & j & Hq & Hx' & _). right. exists q, d, j. auto.
  Qed.
  Lemma ff_loop_keep ls sel : prims_ok ls -> executable P (initial_state P) (sel_plan sel ls) -> forall fuel F F', ff_loop P fuel ls F = Some F' ->
    (forall q d i, In (q, d) ls -> sel q = Some i -> ~ In (IP q i) F) -> (forall q d i, In (q, d) ls -> sel q = Some i -> ~ In (IP q i) F').
  Proof.
    intros PO EX. induction fuel as [|fuel IH]; intros F F' E NM; [discriminate|]. cbn [ff_loop] in E. unfold filter_leafs_ff in E. apply obind_some in E as ([F1 more] & E1 & E). apply obind_some in E1 as (its & Ei & E1). apply some_eq, pair_equal_spec in E1 as [-> ->].
    assert (NM1 : forall q d i, In (q, d) ls -> sel q = Some i -> ~ In (IP q i) (mark F its)).
    { intros q d i Hq Hs X. apply mark_in in X as [X|X]; [exact (NM q d i Hq Hs X)|]. exact (ff_leafs_keep sel F ls PO _ its (initial_state P) Ei (fun f H => H) EX NM q i X Hs). }
    destruct its; [injection E as <-; exact NM1|exact (IH _ _ E NM1)].
  Qed.
  Lemma left_prims_le ls F : left_prims ls F <= length (flat_map (fun '(_, d) => pn_prims d) ls).
  Proof.
    unfold left_prims. assert (L : forall {A} (f : A -> bool) l, length (filter f l) <= length l). { intros A f. induction l as [|x l IH]; cbn [filter]; auto. destruct (f x); cbn [length]; lia. }
    eapply Nat.le_trans; [apply L|]. clear L. induction ls as [|[q d] r IH]; cbn [flat_map]; auto. rewrite !app_length, map_length, seq_length. lia.
  Qed.
End FF.

(** ** All pruning of one depth *)
Section All.
  Context {KI : kind}.
  Variables (P : problem) (T : pdt).
  Hypothesis WF : wf_problem P.
  Hypothesis TO : tree_ok P T.
  Notation ls := (leafs T []).
  Notation at_node := (at_node T).

  Lemma left_fuel F : left_items P T F < prune_fuel P T.
  Proof.
    unfold left_items, prune_fuel. assert (L : forall {A} (f : A -> bool) l, length (filter f l) <= length l). { intros A f. induction l as [|x l IH]; cbn [filter]; auto. destruct (f x); cbn [length]; lia. } specialize (L _ (fun i => negb (marked F i)) (tree_items P T [])). lia.
  Qed.
  Lemma all_ok F : (forall q t, at_node q t -> kids t <> [] -> closed P F q t) -> exists F', propagate_all P T F = Some F' /\ incl F F' /\ forall q t, at_node q t -> closed P F' q t.
  Proof.
    intros H. unfold propagate_all. assert (G : forall L, incl L ls -> forall F, (forall q t, at_node q t -> ~ (exists d, In (q, d) L) -> closed P F q t) ->
      exists F', ofold (fun G '(q, _) => propagate P T (prune_fuel P T) q G) L F = Some F' /\ incl F F' /\ forall q t, at_node q t -> closed P F' q t).
    { clear F H. induction L as [|[q d] r IH]; intros HL F H; cbn [ofold].
      - exists F. split; auto. split; [apply incl_refl|]. intros q t A. apply H; auto. intros (d & []).
      - assert (A : at_node q (PNode d [])) by (apply leafs_at, HL; now left). destruct (prop_defined P T TO (prune_fuel P T) q F) as (F1 & E1); [eauto|apply left_fuel|]. rewrite E1. cbn [obind].
        destruct (prop_closed P T (prune_fuel P T) q F F1 (fun x => exists d, In (x, d) r) E1) as [I1 C1].
        { intros q' t' A' N ND. apply H; auto. intros (d' & [X|X]); [congruence|eauto]. }
        destruct (IH (fun x Hx => HL x (or_intror Hx)) F1) as (F' & E' & I' & C').
        { intros q' t' A' N. apply C1; auto. }
        exists F'. split; auto. split; [exact (incl_tran I1 I')|exact C']. }
    apply (G ls (incl_refl _)). intros q t A N. apply H; auto. intros K. apply N. destruct t as [d ch]. cbn in K. subst ch. exists d. now apply leafs_at.
  Qed.
  Lemma all_avoids U F F' : supports P T U -> propagate_all P T F = Some F' -> avoids U F -> avoids U F'.
  Proof.
    intros SU. unfold propagate_all. generalize ls. intros L. revert F. induction L as [|[q d] r IH]; intros F E A; cbn [ofold] in E; [injection E as <-; auto|]. apply obind_some in E as (F1 & E1 & E2). apply (IH F1 E2). eapply prop_avoids; eauto.
  Qed.
  Lemma causes_ne q t pr i cs : q <> [] -> at_node q t -> nth_error (ccauses pr (dat t)) i = Some cs -> 0 < length cs.
  Proof.
    intros Q A E. destruct q as [|c q]; [congruence|]. destruct (at_mother T c q t A) as ([d ch] & A' & G). destruct (at_child_data P T TO q d ch c t A' G) as (_ & NO & E'). assert (Z := no_ne _ _ _ NO (dat t) pr cs (nth_error_In _ _ E') (nth_error_In _ _ E)). destruct cs; [congruence|]. cbn. lia.
  Qed.
  Lemma closed_nil q t : at_node q t -> closed P [] q t.
  Proof.
    intros A. constructor; try (intros; contradiction).
    intros Q pr i cs E H. destruct (H 0). eapply causes_ne; eauto.
  Qed.
  Lemma leaf_prims_ok : prims_ok P ls.
  Proof. intros q d p Hq Hp. apply leafs_at in Hq. apply (at_ok P T TO) in Hq. apply tree_ok_node in Hq as (H & _). now apply (to_prims _ _ H). Qed.

  Definition first_marks : flags := mark [] (flat_map (fun '(q, d) => map (IA q) (seq 0 (length (pn_abs d)))) ls).
  Lemma first_in i : In i first_marks <-> exists q d a, at_node q (PNode d []) /\ a < length (pn_abs d) /\ i = IA q a.
  Proof.
    unfold first_marks. rewrite mark_in, in_flat_map. split.
    - intros [[]|([q d] & Hq & Hi)]. apply leafs_at in Hq. apply in_map_iff in Hi as (a & <- & Ha). apply in_seq in Ha. exists q, d, a. repeat split; auto. lia.
    - intros (q & d & a & A & L & ->). right. exists (q, d). split; [now apply leafs_at|]. apply in_map, in_seq. lia.
  Qed.

  Theorem prune_ok ff : exists F, prune P ff T = Some F /\ (forall q t, at_node q t -> closed P F q t) /\ (forall q d a, at_node q (PNode d []) -> a < length (pn_abs d) -> In (IA q a) F).
  Proof.
    unfold prune. fold first_marks. destruct (all_ok first_marks) as (F1 & E1 & I1 & C1).
    { intros q t A K. apply (closed_stable P [] first_marks); [intros i []| |now apply closed_nil]. intros i Hi X. exfalso. apply first_in in X as (q' & d & a & A' & _ & ->). cbn in Hi. subst q'. assert (Z := at_fun T q _ _ A A'). subst t. now apply K. }
    rewrite E1. cbn [obind].
    assert (S2 : exists F2, (if ff then ff_loop P (S (length (flat_map (fun '(_, d) => pn_prims d) ls))) ls F1 else Some F1) = Some F2 /\ incl F1 F2 /\ (forall i, In i F2 -> In i F1 \/ exists q d j, In (q, d) ls /\ i = IP q j)).
    { destruct ff; [|exists F1; split; auto; split; [apply incl_refl|auto]]. apply ff_loop_ok; auto using leaf_prims_ok. assert (Z := left_prims_le ls F1). lia. }
    destruct S2 as (F2 & E2 & I2 & N2). rewrite E2. cbn [obind]. destruct (all_ok F2) as (F & E & I & Cl).
    { intros q t A K. apply (closed_stable P F1 F2); auto. intros i Hi X. destruct (N2 i X) as [Y|(q' & d & j & Hq & ->)]; auto. exfalso. cbn in Hi. subst q'. apply leafs_at in Hq. assert (Z := at_fun T q _ _ A Hq). subst t. now apply K. }
    exists F. split; auto. split; auto. intros q d a A L. apply I, I2, I1, first_in. exists q, d, a. auto.
  Qed.

  (** What is needed for an executable plan is not pruned. *)
  Theorem prune_avoids ff U sel F : supports P T U -> (forall q d a, at_node q (PNode d []) -> ~ U (IA q a)) -> (forall q d i, at_node q (PNode d []) -> (U (IP q i) <-> sel q = Some i)) ->
    (ff = true -> executable P (initial_state P) (sel_plan sel ls)) -> prune P ff T = Some F -> avoids U F.
  Proof.
    intros SU NA SE EX. unfold prune. fold first_marks. intros E. apply obind_some in E as (F1 & E1 & E). apply obind_some in E as (F2 & E2 & E).
    assert (A1 : avoids U F1). { eapply all_avoids; eauto. intros i Hi. apply first_in in Hi as (q & d & a & A & _ & ->). eapply NA; eauto. }
    assert (A2 : avoids U F2).
    { destruct ff; [|injection E2 as <-; auto]. destruct (ff_loop_ok P WF ls leaf_prims_ok (S (length (flat_map (fun '(_, d) => pn_prims d) ls))) F1) as (F2' & E2' & _ & N2); [assert (Z := left_prims_le ls F1); lia|]. assert (F2' = F2) by congruence. subst F2'.
      assert (K := ff_loop_keep P WF ls sel leaf_prims_ok (EX eq_refl) _ F1 F2 E2). intros i Hi HU. destruct (N2 i Hi) as [X|(q & d & j & Hq & ->)]; [exact (A1 i X HU)|].
      apply (K ltac:(intros q' d' i Hq' Hs X; apply (A1 _ X); apply (SE q' d' i); [now apply leafs_at|exact Hs]) q d j Hq); auto. apply (SE q d j); [now apply leafs_at|exact HU]. }
    eapply all_avoids; eauto.
  Qed.
End All.
