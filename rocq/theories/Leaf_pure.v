(** The nodes of the tree do not mix actions without effects and other tasks. *)
From Coq Require Import ZArith.
From Verif Require Import Base Htn_problem Htn_spec To_spec Sog_model Sog_spec Sog_proof Posog_model Posog_spec Posog_merge Posog_thm Pdt_model Pdt_tree Pdt_expand Pp_model Leaf_model Leaf_spec Leaf_proof.

Lemma omap_concat {A B} (f : A -> option (list B)) : forall l os y, omap f l = Some os -> In y (concat os) -> exists x o, In x l /\ f x = Some o /\ In y o.
Proof.
  induction l as [|x l IH]; intros os y E I; [apply some_eq in E; subst os; destruct I|]. cbn [omap] in E. apply obind_some in E as (o & E1 & E). apply obind_some in E as (r & E2 & E). apply some_eq in E. subst os. cbn [concat] in I.
  apply in_app_or in I as [I|I]; [exists x, o; split; auto; now left|]. destruct (IH r y E2 I) as (x' & o' & H1 & H2 & H3). exists x', o'. split; auto. now right.
Qed.
Lemma omap_in {A B} (f : A -> option B) : forall l r y, omap f l = Some r -> In y r -> exists x, In x l /\ f x = Some y.
Proof.
  induction l as [|x l IH]; intros r y E I; [apply some_eq in E; subst r; destruct I|]. cbn [omap] in E. apply obind_some in E as (o & E1 & E). apply obind_some in E as (r' & E2 & E). apply some_eq in E. subst r. destruct I as [<-|I]; [exists x; split; auto; now left|].
  destruct (IH r' y E2 I) as (x' & H1 & H2). exists x'. split; auto. now right.
Qed.
Lemma enum_nth {A} (l : list A) i x : In (i, x) (enum l) -> nth_error l i = Some x.
Proof.
  unfold enum. assert (G : forall (l : list A) s, In (i, x) (combine (seq s (length l)) l) -> s <= i /\ nth_error l (i - s) = Some x).
  { induction l0 as [|y r IH]; intros s H; [destruct H|]. cbn [length seq combine] in H. destruct H as [H|H]; [injection H as -> ->; split; auto; now rewrite Nat.sub_diag|]. apply IH in H as [L E]. split; [lia|]. replace (i - s) with (S (i - S s)) by lia. exact E. }
  intros H. apply G in H as [_ H]. now rewrite Nat.sub_0_r in H.
Qed.
Lemma combine_nth' {A B} : forall (l : list A) (l' : list B) x y, In (x, y) (combine l l') -> exists i, nth_error l i = Some x /\ nth_error l' i = Some y.
Proof.
  induction l as [|a l IH]; intros [|b l'] x y H; try destruct H; [injection H as <- <-; now exists 0|]. destruct (IH l' x y H) as (i & E1 & E2). now exists (S i).
Qed.

Section Pure.
  Variable P : problem.
  Hypothesis EK : effects_known P.

  Lemma effectless_no_eff t e : nth t (p_prim P) false = true -> no_eff P t = Some e -> (e = true <-> no_effect P t).
  Proof. intros Q E. apply effectless_iff; auto. unfold effectless. rewrite Q. exact E. Qed.
  Lemma no_eff_false t : no_eff P t = Some false -> ~ no_effect P t.
  Proof. unfold no_eff, get. intros E (_ & E1 & E2). rewrite E1, E2 in E. cbn in E. discriminate. Qed.

  (** The tasks of a child are labels of its vertex. *)
  Lemma occ_label labels n ms asgs occ : Forall2 (labelled P labels) (map (fun '(m, _, _) => m) ms) asgs -> occurrences P n ms asgs = Some occ -> forall c t k, In (c, t, k) occ -> c < n /\ exists ls, nth_error labels c = Some ls /\ In t ls.
  Proof.
    intros F E c t k I. unfold occurrences in E. apply obind_some in E as (os & Eo & E). apply some_eq in E. subst occ. destruct (omap_concat _ _ _ _ Eo I) as ([[[m a] mi] asg] & o & H1 & H2 & H3). cbn [occ_of] in H2. apply obind_some in H2 as (me & Em & H2).
    destruct (omap_in _ _ _ _ H2 H3) as ([sub task] & H4 & H5). apply obind_some in H5 as (v & Ev & H5). destruct (Nat.ltb_spec v n) as [Ln|]; [|discriminate]. apply some_eq in H5. injection H5 as <- <- _. split; auto.
    apply combine_nth' in H1 as (i & I1 & I2). assert (I1' : nth_error (map (fun '(m, _, _) => m) ms) i = Some m) by (rewrite nth_error_map, I1; reflexivity). assert (LB := forall2_nth _ _ _ _ _ _ F I1' I2). apply enum_nth in H4. eapply LB; eauto.
  Qed.

  Lemma pick_child_ok e occ : forall cs c, pick_child P e occ cs = Some (Some c) -> In c cs /\ (child_tasks occ c = [] \/ exists t r, child_tasks occ c = t :: r /\ no_eff P t = Some e).
  Proof.
    induction cs as [|c0 cs IH]; intros c E; [discriminate|]. cbn [pick_child] in E. destruct (child_tasks occ c0) as [|t r] eqn:Ec; [apply some_eq, some_eq in E; subst c0; split; [now left|auto]|].
    apply obind_some in E as (e' & E1 & E). destruct (Bool.eqb e' e) eqn:B.
    - apply some_eq, some_eq in E. subst c0. apply Bool.eqb_prop in B. subst e'. split; [now left|]. right. eauto.
    - apply IH in E as [I H]. split; auto. now right.
  Qed.
  Lemma leaf_picker_lt n occ p c : leaf_picker P n occ p = Some c -> c < n.
  Proof. unfold leaf_picker. intros E. apply obind_some in E as (e & _ & E). apply obind_some in E as (o & E & ->). apply pick_child_ok in E as [I _]. apply in_seq in I. lia. Qed.

  Definition same_kind (occ : list (nat * nat * (nat * nat))) : Prop := forall c t t' k k', In (c, t, k) occ -> In (c, t', k') occ -> (no_effect P t <-> no_effect P t').
  Lemma child_task_occ occ c t : In t (child_tasks occ c) <-> exists k, In (c, t, k) occ.
  Proof.
    destruct (is_prim P t) eqn:Q.
    - assert (H := tasks_of_in P occ c true t). unfold tasks_of, child_prims in H. rewrite filter_In in H. rewrite Q in H. tauto.
    - assert (H := tasks_of_in P occ c false t). unfold tasks_of, child_abs in H. rewrite filter_In in H. rewrite Q in H. cbn in H. tauto.
  Qed.

  Section Children.
    Variables (d : pnode) (n : nat) (occ : list (nat * nat * (nat * nat))).
    Hypothesis PU : pure P d.
    Hypothesis NA : pn_abs d <> [].
    Hypothesis SK : same_kind occ.

    Definition child_pure (c : nat) (u : pnode) : Prop := pn_abs u = child_abs P occ c /\ pn_exp u = false /\
      forall p, In p (pn_prims u) -> is_prim P p = true /\ ((exists k, In (c, p, k) occ) \/ (~ no_effect P p /\ forall t k, In (c, t, k) occ -> ~ no_effect P t)).
    Lemma inherit_pure x st st' : In (snd x) (pn_prims d) -> (forall c u, nth_error (fst st) c = Some u -> child_pure c u) -> inherit_pick (leaf_picker P) n occ st x = Some st' -> forall c u, nth_error (fst st') c = Some u -> child_pure c u.
    Proof.
      destruct st as [chs pos], x as [pi p]. cbn [fst snd]. intros IP H E c u Hu. unfold inherit_pick in E. apply obind_some in E as ([c0 chs1] & E1 & E).
      assert (H1 : forall c u, nth_error chs1 c = Some u -> child_pure c u).
      { destruct (find _ _) as [cf|] eqn:Ef; [apply some_eq in E1; injection E1 as _ <-; exact H|]. apply obind_some in E1 as (cp & Ep & E1). apply obind_some in E1 as (d0 & G0 & E1). apply obind_some in E1 as (chs' & S0 & E1). apply some_eq in E1. injection E1 as X1 X2. subst c0 chs1.
        intros c1 u1 Hu1. destruct (Nat.eq_dec c1 cp) as [->|N]; [|assert (Q := get_set_neq _ _ _ _ _ S0 (fun e => N (eq_sym e))); unfold get in Q; rewrite Q in Hu1; auto].
        assert (Q := get_set_eq _ _ _ _ S0). unfold get in Q. rewrite Q in Hu1. apply some_eq in Hu1. subst u1. destruct (H cp d0 G0) as (A1 & A2 & A3). split; [exact A1|]. split; [exact A2|]. intros q Hq. cbn [add_prim pn_prims] in Hq. apply in_app_or in Hq as [Hq|[<-|[]]]; [auto|].
        assert (PP : nth p (p_prim P) false = true) by (apply PU; auto). split; [exact PP|]. right. assert (NP : ~ no_effect P p) by (apply PU; auto). split; auto.
        unfold leaf_picker in Ep. apply obind_some in Ep as (e & Ee & Ep). apply obind_some in Ep as (o & Eo & ->). apply pick_child_ok in Eo as [_ D]. intros t k It. destruct D as [D|(t0 & r & D1 & D2)].
        - assert (Z : In t (child_tasks occ cp)) by (apply child_task_occ; eauto). rewrite D in Z. destruct Z.
        - assert (e = false). { destruct e; auto. exfalso. apply NP. now apply (effectless_no_eff p true PP Ee). } subst e. apply no_eff_false in D2. assert (Z : In t0 (child_tasks occ cp)) by (rewrite D1; now left). apply child_task_occ in Z as (k0 & I0). rewrite (SK cp t t0 k k0 It I0). exact D2. }
      apply obind_some in E as (d1 & G1 & E). apply obind_some in E as (i & _ & E). apply obind_some in E as (cs & _ & E). apply obind_some in E as (cp & _ & E). apply obind_some in E as (chs2 & S2 & E). apply some_eq in E. subst st'. cbn [fst] in Hu.
      destruct (Nat.eq_dec c c0) as [->|N]; [|assert (Q := get_set_neq _ _ _ _ _ S2 (fun e => N (eq_sym e))); unfold get in Q; rewrite Q in Hu; auto].
      assert (Q := get_set_eq _ _ _ _ S2). unfold get in Q. rewrite Q in Hu. apply some_eq in Hu. subst u. exact (H1 c0 d1 G1).
    Qed.
    Lemma child_pure_pure c u : child_pure c u -> pure P u.
    Proof.
      intros (A1 & _ & A3). split; [intros p Hp; now apply A3|]. assert (KD : forall p, In p (pn_prims u) -> forall t k, In (c, t, k) occ -> (no_effect P p <-> no_effect P t)).
      { intros p Hp t k It. destruct (A3 p Hp) as [_ [(k' & I')|[N1 N2]]]; [exact (SK c p t k' k I' It)|]. specialize (N2 t k It). tauto. }
      split.
      - intros p q Hp Hq. destruct (A3 q Hq) as [_ [(k' & I')|[N1 N2]]]; [now apply (KD p Hp q k')|]. destruct (A3 p Hp) as [_ [(k & I)|[N3 N4]]]; [specialize (N2 p k I); tauto|tauto].
      - intros NE p Hp X. rewrite A1 in NE. destruct (child_abs P occ c) as [|t r] eqn:Ea; [congruence|]. assert (It : In t (tasks_of P occ c false)) by (cbn [tasks_of]; unfold tasks_of; rewrite Ea; now left). apply tasks_of_in in It as (NPt & k & It).
        apply (KD p Hp t k It) in X as (X & _). unfold is_prim in NPt. congruence.
    Qed.
  End Children.

  Lemma expand_pure d ms labels n asgs d' ch : pure P d -> pn_abs d <> [] -> separated P labels -> Forall2 (labelled P labels) (map (fun '(m, _, _) => m) ms) asgs ->
    expand_pick P (leaf_picker P) d ms n asgs = Some (d', ch) -> pure P d' /\ Forall (fun t => pure P (dat t) /\ kids t = [] /\ pn_exp (dat t) = false) ch.
  Proof.
    intros PU NA SP F E. unfold expand_pick in E. apply obind_some in E as (occ & Eo & E). apply obind_some in E as ([chs pos] & Ec & E). apply some_eq in E. injection E as X1 X2. subst d' ch.
    assert (SK : same_kind occ). { intros c t t' k k' I I'. destruct (occ_label labels n ms asgs occ F Eo c t k I) as (_ & ls & G & It). destruct (occ_label labels n ms asgs occ F Eo c t' k' I') as (_ & ls' & G' & It'). assert (ls' = ls) by congruence. subst ls'. exact (SP c ls t t' G It It'). }
    split; [exact PU|]. apply Forall_forall. intros t Ht. apply in_map_iff in Ht as (u & <- & Hu). cbn [dat kids].
    enough (Z : exists c, child_pure occ c u) by (destruct Z as (c & Z); split; [exact (child_pure_pure occ SK c u Z)|split; [reflexivity|apply Z]]).
    destruct (Nat.eqb n 0); [apply some_eq in Ec; injection Ec as X1 X2; subst chs; destruct Hu|]. apply In_nth_error in Hu as (c & Hu). exists c.
    assert (G : forall xs st st', (forall x, In x xs -> In (snd x) (pn_prims d)) -> (forall c u, nth_error (fst st) c = Some u -> child_pure occ c u) -> ofold (inherit_pick (leaf_picker P) n occ) xs st = Some st' -> forall c u, nth_error (fst st') c = Some u -> child_pure occ c u).
    { induction xs as [|x xs IH]; intros st st' HX H E; [apply some_eq in E; now subst st'|]. cbn [ofold] in E. apply obind_some in E as (st1 & E1 & E2). apply (IH st1 st'); auto; [intros y Hy; apply HX; now right|]. apply (inherit_pure d n occ PU NA SK x st st1); auto. apply HX. now left. }
    refine (G _ _ _ _ _ Ec c u Hu); [intros [i x] Hx; apply enum_nth, nth_error_In in Hx; exact Hx|].
    cbn [fst]. intros c1 u1 H1. rewrite nth_error_map in H1. destruct (nth_error (seq 0 n) c1) as [c2|] eqn:Es; [|discriminate]. apply some_eq in H1. subst u1. assert (c2 = c1). { apply Posog_merge.nth_error_seq in Es. lia. } subst c2.
    split; [reflexivity|]. split; [reflexivity|]. intros p Hp. cbn [new_child fresh_node pn_prims] in Hp. assert (Ip : In p (tasks_of P occ c1 true)) by exact Hp. apply tasks_of_in in Ip as (Q & k & Ip). split; auto. left. eauto.
  Qed.

  Lemma upto_pure (xp : pnode -> option (pnode * list pdt)) :
    (forall d d' ch, pure P d -> pn_abs d <> [] -> xp d = Some (d', ch) -> pure P d' /\ Forall (fun t => pure P (dat t) /\ kids t = [] /\ pn_exp (dat t) = false) ch) ->
    forall K t t', tall (fun d _ => pure P d) t -> expand_upto xp K t = Some t' -> tall (fun d _ => pure P d) t'.
  Proof.
    intros XP. induction K as [|K IH]; intros [d ch] t' TA E; [apply some_eq in E; now subst t'|]. cbn [expand_upto] in E. apply obind_some in E as ([d1 ch1] & E1 & E). apply obind_some in E as (ch2 & E2 & E). apply some_eq in E. subst t'.
    apply tall_node in TA as [TD TC]. assert (S1 : pure P d1 /\ Forall (tall (fun d _ => pure P d)) ch1).
    { destruct (pn_exp d); [apply some_eq in E1; injection E1 as <- <-; auto|]. destruct (pn_abs d) as [|a r] eqn:Ea; [apply some_eq in E1; injection E1 as <- <-; auto|]. destruct (XP d d1 ch1 TD) as [X1 X2]; auto; [congruence|]. split; auto.
      eapply Forall_impl; [|exact X2]. intros [du cu] (Y1 & Y2 & _). cbn in Y1, Y2. subst cu. apply tall_node. auto. }
    destruct S1 as [S1 S2]. apply tall_node. split; auto. apply Forall_forall. intros t Ht. destruct (omap_in _ _ _ _ E2 Ht) as (u & Iu & Eu). rewrite Forall_forall in S2. exact (IH u t (S2 u Iu) Eu).
  Qed.
  Lemma root_pure : tall (fun d _ => pure P d) (pdt_root P).
  Proof. apply tall_node. split; [|constructor]. split; [intros p []|]. split; [intros p q []|intros _ p []]. Qed.

  Lemma pure_not_mixed d : pure P d -> mixed_leaf P d = Some false.
  Proof.
    intros (P1 & P2 & _). unfold mixed_leaf. assert (ED : exists es, omap (no_eff P) (pn_prims d) = Some es).
    { clear P2. induction (pn_prims d) as [|p r IH]; [now exists []|]. destruct IH as (es & E); [intros q Hq; apply P1; now right|]. destruct (EK p (P1 p (or_introl eq_refl))) as [A B]. destruct (get_some _ _ A) as (a & Ea). destruct (get_some _ _ B) as (b & Eb).
      cbn [omap]. unfold no_eff at 1. rewrite Ea, Eb. cbn [obind]. rewrite E. cbn [obind]. eauto. }
    destruct ED as (es & E). rewrite E. cbn [obind]. f_equal. destruct (existsb (fun e => e) es) eqn:X; [|reflexivity]. destruct (existsb negb es) eqn:Y; [|reflexivity]. exfalso. apply existsb_exists in X as (e & Ie & He). subst e. apply existsb_exists in Y as (e & Ie' & He). destruct e; [discriminate|].
    destruct (omap_in _ _ _ _ E Ie) as (p & Ip & Ep). destruct (omap_in _ _ _ _ E Ie') as (q & Iq & Eq). apply (no_eff_false q Eq). rewrite (P2 q p Iq Ip). now apply (effectless_no_eff p true (P1 p Ip) Ep).
  Qed.

  (** ** Some child is selected for an action with effects, if the first vertex has no action without effects. *)
  Lemma cinv_separated k labels eff : cinv P k labels eff -> separated P labels /\ (forall v ls t, v < k -> nth_error labels v = Some ls -> In t ls -> ~ no_effect P t).
  Proof.
    intros (K & EB & HM). split.
    - intros v ls t t' G I I'. rewrite <- (effectless_iff P t EK _ (HM v ls t G I)), <- (effectless_iff P t' EK _ (HM v ls t' G I')). tauto.
    - intros v ls t L G I X. apply (effectless_iff P t EK _ (HM v ls t G I)) in X. apply memb_In in X. apply EB in X. lia.
  Qed.
  Lemma picked labels n ms asgs occ : actions_first P -> (forall ls t, nth_error labels 0 = Some ls -> In t ls -> ~ no_effect P t) -> 0 < n -> Forall2 (labelled P labels) (map (fun '(m, _, _) => m) ms) asgs -> occurrences P n ms asgs = Some occ ->
    pick_child P false occ (seq 0 n) <> Some None.
  Proof.
    intros AF NE NP F Eo. destruct n as [|n]; [lia|]. cbn [seq pick_child]. destruct (child_tasks occ 0) as [|t r] eqn:Ec; [discriminate|]. assert (It : In t (child_tasks occ 0)) by (rewrite Ec; now left). apply child_task_occ in It as (k & It).
    destruct (occ_label labels (S n) ms asgs occ F Eo 0 t k It) as (_ & ls & G & I). specialize (NE ls t G I). destruct (no_eff P t) as [e|] eqn:Ee; cbn [obind]; [|discriminate]. destruct e; [|cbn; discriminate]. exfalso.
    destruct (nth t (p_prim P) false) eqn:Q; [apply NE; now apply (effectless_no_eff t true Q Ee)|]. apply AF in Q. unfold no_eff, get in Ee. apply nth_error_None in Q. rewrite Q in Ee. discriminate.
  Qed.
End Pure.
