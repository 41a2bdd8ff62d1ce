(** One depth of the partially ordered SAT encoding: the tree and the graph of its leafs. *)
From Coq Require Import Relation_Operators.
From Verif Require Import Base Htn_problem Htn_spec Sat_model Sat_spec Sat_proof Sf_model Sf_spec Sf_proof Posog_model Posog_spec Posog_merge Posog_thm.
From Verif Require Import Pdt_model Pdt_spec Pdt_tree Pdt_expand Pdt_prune Pdt_leafs Pdt_vars Pdt_clause Pdt_dec Pdt_sound Pdt_round Pp_model Pp_spec Pp_kind Pp_build.

(** Nodes with children have abstract tasks, without repetition. *)
Definition has_abs (d : pnode) (ch : list pdt) : Prop := NoDup (pn_abs d) /\ (ch <> [] -> pn_abs d <> []).
Lemma ofold_inv {A B} (f : A -> B -> option A) (I : A -> Prop) : (forall a b a', f a b = Some a' -> I a -> I a') -> forall l a a', ofold f l a = Some a' -> I a -> I a'.
Proof. intros H. induction l as [|b l IH]; intros a a' E Ia; cbn [ofold] in E; [congruence|]. apply obind_some in E as (a1 & E1 & E). eauto. Qed.
Lemma set_each {A} (Q : A -> Prop) : forall l i x l', set l i x = Some l' -> Q x -> (forall y, In y l -> Q y) -> forall y, In y l' -> Q y.
Proof.
  induction l as [|a l IH]; intros i x l' E Hx Hl y Hy; [destruct i; discriminate|]. destruct i as [|i]; cbn [set] in E.
  - injection E as <-. destruct Hy as [<-|Hy]; auto. apply Hl. now right.
  - apply obind_some in E as (r & E & E'). injection E' as <-. destruct Hy as [<-|Hy]; [apply Hl; now left|]. apply (IH i x r E Hx); auto. intros z Hz. apply Hl. now right.
Qed.
Lemma expand_with_abs P d ms n asgs d' us : expand_with P d ms n asgs = Some (d', us) -> pn_abs d' = pn_abs d /\ forall u, In u us -> kids u = [] /\ NoDup (pn_abs (dat u)).
Proof.
  unfold expand_with, expand_pick. intros E. apply obind_some in E as (occ & _ & E). apply obind_some in E as ([chs pos] & E & E'). injection E' as <- <-. split; auto. intros u Hu. apply in_map_iff in Hu as (c & <- & Hc). split; auto. cbn [dat].
  destruct (Nat.eqb n 0); [injection E as <- _; destruct Hc|].
  set (I := fun st : list pnode * list (nat * nat * nat) => forall x, In x (fst st) -> NoDup (pn_abs x)).
  cut (I (chs, pos)); [intros H; exact (H c Hc)|]. refine (ofold_inv _ I _ _ _ _ E _); unfold I; clear.
  - intros [l p] [k a] [l' p'] E1 H. cbn [fst] in *. unfold inherit_pick in E1. apply obind_some in E1 as ([c1 chs1] & E1 & E2). apply obind_some in E2 as (d1 & G1 & E2). apply obind_some in E2 as (i1 & _ & E2). apply obind_some in E2 as (cs & _ & E2). apply obind_some in E2 as (cp & _ & E2). apply obind_some in E2 as (chs2 & S2 & E2). injection E2 as <- _.
    assert (H1 : forall x, In x chs1 -> NoDup (pn_abs x)).
    { destruct (find _ _); [injection E1 as _ <-; auto|]. apply obind_some in E1 as (x0 & _ & E1). apply obind_some in E1 as (d0 & G0 & E1). apply obind_some in E1 as (l1 & S1 & E1). injection E1 as _ <-. eapply set_each; eauto. cbn. apply H. eapply nth_error_In; eauto. }
    eapply set_each; eauto. cbn. apply H1. eapply nth_error_In; eauto.
  - cbn [fst]. intros x Hx. apply in_map_iff in Hx as (k & <- & _). cbn. unfold child_abs. apply NoDup_filter. apply (child_tasks_spec occ k).
Qed.
Lemma upto_abs xp : (forall d d' us, xp d = Some (d', us) -> pn_abs d' = pn_abs d /\ forall u, In u us -> kids u = [] /\ NoDup (pn_abs (dat u))) ->
  forall K t t', tall has_abs t -> expand_upto xp K t = Some t' -> tall has_abs t'.
Proof.
  intros XP. induction K as [|K IH]; intros [d ch] t' H E; [cbn in E; congruence|]. cbn [expand_upto] in E. apply obind_some in E as ([d1 ch1] & E1 & E). apply obind_some in E as (ch2 & E2 & E). injection E as <-.
  assert (G : tall has_abs (PNode d1 ch1)).
  { destruct (pn_exp d); [injection E1 as <- <-; auto|]. destruct (pn_abs d) as [|a r] eqn:Ea; [injection E1 as <- <-; auto|]. destruct (XP d d1 ch1 E1) as [X1 X2]. apply tall_node in H as [[H1 _] _]. apply tall_node. split; [split; [congruence|intros _; congruence]|].
    apply Forall_forall. intros [du cu] Hu. destruct (X2 _ Hu) as [X3 X4]. cbn in X3, X4. subst cu. apply tall_node. split; [split; [auto|intros Q; congruence]|constructor]. }
  apply tall_node in G as [[G0 G1] G2]. apply tall_node. split.
  - split; auto. intros N. apply G1. intros ->. cbn in E2. congruence.
  - clear G1 E1 H. revert ch2 E2. induction ch1 as [|u r IHr]; intros ch2 E2; cbn [omap] in E2; [injection E2 as <-; constructor|]. apply obind_some in E2 as (u' & U & E2). apply obind_some in E2 as (r' & R & E2). injection E2 as <-. inversion G2; subst. constructor; eauto.
Qed.
Lemma asg_abs P F : forall t q t', asg P F q t t' -> tall has_abs t -> tall has_abs t'.
Proof.
  induction t as [d ch IH] using pdt_rect'. intros q t' A H. inversion A as [q0 d0 ch0 d' ch' N L K]; subst. apply tall_node in H as [[H0 H1] H2]. rewrite Forall_forall in IH, H2. destruct (core_eq _ _ (na_core _ _ _ _ _ N)) as (_ & C2 & _).
  apply tall_node. split; [split; [congruence|intros Q; rewrite C2; apply H1; intros ->; destruct ch'; [congruence|discriminate]]|]. apply Forall_forall. intros u' Hu. apply In_nth_error in Hu as (c & Hc). assert (Lc := get_lt _ _ _ Hc). rewrite L in Lc. apply get_some in Lc as (u & Hu). unfold get in Hu.
  apply (IH u (nth_error_In _ _ Hu) (c :: q)); eauto. apply H2. now apply nth_error_In in Hu.
Qed.

Lemma leafs_nodup : forall t q, NoDup (map fst (leafs t q)).
Proof.
  induction t as [d ch IH] using pdt_rect'. intros q. destruct ch as [|u0 r0]; [cbn; constructor; [intros []|constructor]|]. set (ch := u0 :: r0) in *.
  change (leafs (PNode d ch) q) with ((fix go (l : list pdt) (i : nat) {struct l} := match l with [] => [] | u :: r => leafs u (i :: q) ++ go r (S i) end) ch 0).
  set (go := fix go (l : list pdt) (i : nat) {struct l} := match l with [] => [] | u :: r => leafs u (i :: q) ++ go r (S i) end).
  assert (HD : forall l b x, In x (map fst (go l b)) -> exists i p, b <= i /\ x = p ++ i :: q).
  { clear. induction l as [|u r IHr]; intros b x Hx; [destruct Hx|]. cbn [go] in Hx. rewrite map_app in Hx. apply in_app_or in Hx as [Hx|Hx].
    - apply in_map_iff in Hx as ([x' d] & E & Hx). cbn in E. subst x'. apply leafs_in in Hx as (path & _ & ->). exists b, (rev path). auto.
    - destruct (IHr (S b) x Hx) as (i & p & L & E). exists i, p. split; auto. lia. }
  assert (TL : forall (p p' : list nat) i j, p ++ i :: q = p' ++ j :: q -> i = j).
  { clear. intros p p' i j E. assert (p ++ [i] = p' ++ [j]). { apply app_inv_tail with q. rewrite <- !app_assoc. exact E. } now apply app_inj_tail in H as [_ H]. }
  generalize 0 as b. induction IH as [|u r Hu IH IHr]; intros b; [constructor|]. cbn [go]. rewrite map_app. apply nodup_app_iff. split; auto. split; [apply IHr|].
  intros x Hx Hy. apply HD in Hy as (i & p & L & ->). apply in_map_iff in Hx as ([x' d'] & E & Hx). cbn in E. subst x'. apply leafs_in in Hx as (path & _ & E). apply TL in E. lia.
Qed.
Lemma path_index_nth ls : NoDup (map fst ls) -> forall u q d, nth_error ls u = Some (q, d) -> path_index q ls = u.
Proof.
  induction ls as [|[q' d'] r IH]; intros ND u q d E; [destruct u; discriminate|]. cbn [map fst] in ND. inversion ND as [|? ? N1 N2]; subst. cbn [path_index]. destruct u as [|u]; cbn in E.
  - injection E as <- <-. destruct (list_eq_dec Nat.eq_dec q' q'); congruence.
  - destruct (list_eq_dec Nat.eq_dec q q') as [->|N]; [elim N1; apply in_map_iff; exists (q', d); split; auto; now apply nth_error_In in E|]. f_equal. eauto.
Qed.

Section Tree.
  Variables (P : problem) (C : sconf) (uord : list nat -> list nat).
  Instance KI : kind := po_kind P C.
  Hypothesis WF : wf_problem P.
  Hypothesis CO : po_conf P C uord.

  Lemma node_graph d ch : tree_ok P (PNode d ch) -> has_abs d ch -> ch <> [] -> exists adj bdj asgs, node_sog P C (pn_abs d) = Some (adj, bdj, asgs) /\ graph_ok adj bdj /\ length adj = length ch.
  Proof.
    intros TO [_ HA] NE. specialize (HA NE). apply tree_ok_node in TO as (T1 & T2 & _). destruct (pn_exp d); [|congruence]. destruct T2 as [_ NO]. destruct (pn_abs d) as [|t r] eqn:Ea; [congruence|].
    destruct (pc_covered _ _ _ CO t) as (me & Im & Et); [apply (to_abs _ _ T1); rewrite Ea; now left|]. apply In_nth_error in Im as (mi & Em). assert (I : In mi (methods_of P t)) by (apply methods_in; eauto). apply In_nth_error in I as (m & Hm).
    destruct (no_meth _ _ _ NO 0 t m mi) as (me' & o & vs & _ & _ & (adj & bdj & asgs & E & G & L & _) & _); [now rewrite Ea|exact Hm|]. rewrite Ea in E. rewrite map_length in L. exists adj, bdj, asgs. auto.
  Qed.

  (** The graphs of all nodes are acyclic. *)
  Definition acyclic_nodes (t : pdt) : Prop := tall (fun d ch => ch <> [] -> forall adj bdj asgs, node_sog P C (pn_abs d) = Some (adj, bdj, asgs) -> dag adj) t.

  Lemma otree_ok idx : forall t q, tree_ok P t -> tall has_abs t -> exists o, otree_of P C idx t q = Some o /\ (acyclic_nodes t -> wf_otree o) /\
    map (fun p => rev p ++ q) (leaf_paths o) = map fst (leafs t q) /\
    (forall p id prims abs, Posog_spec.subtree o p = Some (OLeaf id prims abs) -> id = idx (rev p ++ q)) /\
    (forall r d ch adj bdj asgs, subtree t r = Some (PNode d ch) -> ch <> [] -> node_sog P C (pn_abs d) = Some (adj, bdj, asgs) -> exists cs, Posog_spec.subtree o r = Some (ONode adj bdj cs)) /\
    (forall r adj bdj cs, Posog_spec.subtree o r = Some (ONode adj bdj cs) -> exists d ch asgs, subtree t r = Some (PNode d ch) /\ ch <> [] /\ node_sog P C (pn_abs d) = Some (adj, bdj, asgs)).
  Proof.
    induction t as [d ch IH] using pdt_rect'. intros q TO HA. destruct ch as [|u0 r0] eqn:Ech.
    - exists (OLeaf (idx q) (pn_prims d) (pn_abs d)). split; auto. split; [constructor|]. split; auto. split; [|split].
      + intros [|i p] id prims abs E; [|discriminate]. cbn in E. injection E as <- _ _. reflexivity.
      + intros [|c r] d' ch' adj bdj asgs E N; [cbn in E; injection E as _ <-; congruence|]. cbn in E. destruct c; discriminate.
      + intros [|c r] adj bdj cs E; discriminate.
    - rewrite <- Ech in *. assert (NE : ch <> []) by (rewrite Ech; discriminate).
      destruct (node_graph d ch TO) as (adj & bdj & asgs & ES & [G1 G2 G3 G4 G5] & LN); [apply tall_node in HA; apply HA|auto|].
      apply tree_ok_node in TO as (_ & _ & TC). apply tall_node in HA as [_ HC]. rewrite Forall_forall in TC, HC.
      set (go := fix go (l : list pdt) (i : nat) {struct l} : option (list otree) := match l with [] => Some [] | u :: r => x <- otree_of P C idx u (i :: q) ;; xs <- go r (S i) ;; Some (x :: xs) end).
      set (lg := fix go (l : list pdt) (i : nat) {struct l} := match l with [] => [] | u :: r => leafs u (i :: q) ++ go r (S i) end).
      assert (X : forall l b, (forall u, In u l -> In u ch) -> exists cs, go l b = Some cs /\ length cs = length l /\ (Forall acyclic_nodes l -> Forall wf_otree cs) /\
        map (fun p => rev p ++ q) (number b (map leaf_paths cs) cons) = map fst (lg l b) /\
        (forall i c p id prims abs, nth_error cs i = Some c -> Posog_spec.subtree c p = Some (OLeaf id prims abs) -> id = idx (rev p ++ (b + i) :: q)) /\
        (forall i u r d ch adj bdj asgs, nth_error l i = Some u -> subtree u r = Some (PNode d ch) -> ch <> [] -> node_sog P C (pn_abs d) = Some (adj, bdj, asgs) ->
           exists c cs', nth_error cs i = Some c /\ Posog_spec.subtree c r = Some (ONode adj bdj cs')) /\
        (forall i c r adj bdj cs', nth_error cs i = Some c -> Posog_spec.subtree c r = Some (ONode adj bdj cs') ->
           exists u d ch asgs, nth_error l i = Some u /\ subtree u r = Some (PNode d ch) /\ ch <> [] /\ node_sog P C (pn_abs d) = Some (adj, bdj, asgs))).
      { clear ES G1 G2 G3 G4 G5 LN NE adj bdj asgs. rewrite Forall_forall in IH. induction l as [|u r IHl]; intros b SUB.
        - exists []. split; auto. split; auto. split; auto. split; auto. split; [|split]; intros [|i]; intros; discriminate.
        - destruct (IH u (SUB u (or_introl eq_refl)) (b :: q)) as (x & E1 & E2 & E3 & E4 & E5 & E6); [apply TC, SUB; now left|apply HC, SUB; now left|].
          destruct (IHl (S b)) as (xs & F1 & F2 & F3 & F4 & F5 & F6 & F7); [intros z Hz; apply SUB; now right|]. exists (x :: xs). cbn [go]. rewrite E1. cbn [obind]. rewrite F1. cbn [obind]. split; auto. split; [cbn; lia|]. split; [intros Q; inversion Q; subst; constructor; auto|]. split; [|split; [|split]].
          + cbn [map number lg]. rewrite !map_app, F4, <- E3. f_equal. rewrite map_map. apply map_ext. intros p. cbn [rev]. now rewrite <- app_assoc.
          + intros [|i] c p id prims abs Hc Hs; cbn in Hc.
            * injection Hc as <-. rewrite Nat.add_0_r. eauto.
            * replace (b + S i) with (S b + i) by lia. eauto.
          + intros [|i] w p d' ch' adj bdj asgs Hw Hs N' ES; cbn in Hw; cbn [nth_error]; [injection Hw as <-|eauto].
            destruct (E5 p d' ch' adj bdj asgs Hs N' ES) as (cs & Hcs). eauto.
          + intros [|i] c p adj bdj cs' Hc Hs; cbn in Hc; cbn [nth_error]; [injection Hc as <-|eauto]. destruct (E6 p adj bdj cs' Hs) as (d' & ch' & asgs & H). exists u, d', ch', asgs. auto. }
      destruct (X ch 0) as (cs & E1 & E2 & E3 & E4 & E5 & E6 & E7); [auto|]. exists (ONode adj bdj cs).
      assert (EO : otree_of P C idx (PNode d ch) q = Some (ONode adj bdj cs)). { rewrite Ech. change (otree_of P C idx (PNode d (u0 :: r0)) q) with ('(adj, bdj, _) <- node_sog P C (pn_abs d) ;; cs <- go (u0 :: r0) 0 ;; Some (ONode adj bdj cs)). rewrite ES. cbn [obind]. rewrite <- Ech. rewrite E1. reflexivity. }
      split; auto. split; [|split; [|split; [|split]]].
      + intros AC. apply tall_node in AC as [AC AS]. constructor; auto; try lia.
        * intros ->. destruct ch; [congruence|discriminate].
        * eapply AC; eauto.
      + cbn [leaf_paths]. rewrite E4. rewrite Ech. reflexivity.
      + intros [|i p] id prims abs Hs; [discriminate|]. cbn [Posog_spec.subtree] in Hs. destruct (nth_error cs i) as [c|] eqn:Hc; [|discriminate]. rewrite (E5 i c p id prims abs Hc Hs). cbn [rev]. rewrite <- app_assoc. reflexivity.
      + intros [|i r] d' ch' adj' bdj' asgs' Hs N' ES'.
        * cbn in Hs. injection Hs as <- <-. rewrite ES in ES'. injection ES' as <- <- <-. cbn. eauto.
        * cbn [subtree Pdt_model.kids] in Hs. unfold get in Hs. destruct (nth_error ch i) as [u|] eqn:Hu; [|discriminate]. cbn [obind] in Hs. destruct (E6 i u r d' ch' adj' bdj' asgs' Hu Hs N' ES') as (c & cs' & Hc & Hs'). cbn [Posog_spec.subtree]. rewrite Hc. eauto.
      + intros [|i r] adj' bdj' cs' Hs; cbn [Posog_spec.subtree] in Hs.
        * injection Hs as <- <- <-. exists d, ch, asgs. auto.
        * destruct (nth_error cs i) as [c|] eqn:Hc; [|discriminate]. destruct (E7 i c r adj' bdj' cs' Hc Hs) as (u & d' & ch' & asgs' & Hu & H). exists d', ch', asgs'. cbn [subtree Pdt_model.kids]. unfold get. rewrite Hu. exact H.
  Qed.

  (** The order of the leafs. *)
  Lemma leaf_graph T : tree_ok P T -> tall has_abs T -> acyclic_nodes T -> let ls := leafs T [] in
    exists o s, otree_of P C (fun q => path_index q ls) T [] = Some o /\ leaf_sogs o = Some s /\ l_leaf s = seq 0 (length ls) /\ length (l_adj s) = length ls /\ wf_graph (l_adj s) /\ dag (l_adj s) /\
      forall u w q q' d d', nth_error ls u = Some (q, d) -> nth_error ls w = Some (q', d') -> (pbefore P C T (rev q) (rev q') <-> precedes (l_adj s) u w).
  Proof.
    intros TO HA AC ls. destruct (otree_ok (fun q => path_index q ls) T [] TO HA) as (o & EO & WO & LP & ID & SB & BS). specialize (WO AC). destruct (leaf_order_exact o WO) as (s & ES & LN & LA & WG & DG & _ & _ & _ & LF & OR).
    assert (LL : length (leaf_paths o) = length ls) by (rewrite <- (map_length (fun p => rev p ++ []) (leaf_paths o)), LP, map_length; reflexivity).
    assert (LQ : forall u q d, nth_error ls u = Some (q, d) -> nth_error (leaf_paths o) u = Some (rev q)).
    { intros u q d H. assert (Q : nth_error (map fst (leafs T [])) u = Some q) by (rewrite nth_error_map; fold ls; rewrite H; reflexivity). rewrite <- LP, nth_error_map in Q. destruct (nth_error (leaf_paths o) u) as [p|]; [|discriminate]. injection Q as <-. now rewrite app_nil_r, rev_involutive. }
    exists o, s. split; auto. split; auto. split; [|split; [congruence|split; [auto|split; [auto|]]]].
    - apply nth_error_ext'. intros u. destruct (nth_error ls u) as [[q d]|] eqn:Hu.
      + destruct (LF u (rev q) (LQ u q d Hu)) as (id & prims & abs & l & Hs & Hid & _). rewrite Hid. apply ID in Hs. rewrite rev_involutive, app_nil_r in Hs. rewrite (path_index_nth ls (leafs_nodup T []) u q d Hu) in Hs. subst id.
        symmetry. apply Posog_merge.nth_error_seq. split; auto. now apply get_lt in Hu.
      + apply nth_error_None in Hu. unfold l_n in LN. transitivity (@None nat); [apply nth_error_None; lia|symmetry; apply nth_error_None; rewrite seq_length; auto].
    - intros u w q q' d d' Hu Hw. split.
      + intros (r & i & j & p1 & p2 & dd & ch & adj & bdj & asgs & E1 & E2 & E3 & NE & ES' & PR). apply (OR u w (rev q) (rev q') (LQ u q d Hu) (LQ w q' d' Hw)). destruct (SB r dd ch adj bdj asgs E3 NE ES') as (cs & Hcs). exists r, i, j, p1, p2, adj, bdj, cs. auto.
      + intros PR. apply (OR u w (rev q) (rev q') (LQ u q d Hu) (LQ w q' d' Hw)) in PR as (r & i & j & p1 & p2 & adj & bdj & cs & E1 & E2 & E3 & PR). destruct (BS r adj bdj cs E3) as (dd & ch & asgs & H1 & H2 & H3). exists r, i, j, p1, p2, dd, ch, adj, bdj, asgs. auto 12.
  Qed.
End Tree.
