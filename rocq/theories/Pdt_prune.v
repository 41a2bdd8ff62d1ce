(** Propagation of pruning reaches a closed set of pruned items and never prunes what is needed. *)
From Verif Require Import Base Htn_problem Htn_spec Sf_proof Tab_proof Pdt_model Pdt_tree Pdt_expand.

Definition node_of (i : item) : list nat := match i with IP q _ => q | IA q _ => q | IM q _ _ => q | ICP q _ _ => q | ICA q _ _ => q end.

Lemma marked_in F i : marked F i = true <-> In i F.
Proof. unfold marked. destruct (in_dec item_eq_dec i F); split; auto; discriminate. Qed.
Lemma marked_out F i : marked F i = false <-> ~ In i F.
Proof. rewrite <- marked_in. destruct (marked F i); split; congruence. Qed.
Lemma mark_in l : forall F i, In i (mark F l) <-> In i F \/ In i l.
Proof.
  induction l as [|x l IH]; intros F i; cbn [mark fold_left]; [cbn; tauto|]. change (fold_left _ l ?G) with (mark G l). rewrite IH. cbn [In]. destruct (marked F x) eqn:M; [|cbn [In]; tauto].
  apply marked_in in M. split; [tauto|]. intros [H|[<-|H]]; auto.
Qed.
Lemma mark_incl F l : incl F (mark F l).
Proof. intros i Hi. apply mark_in. auto. Qed.
Lemma news_false F l : news F l = false <-> incl l F.
Proof.
  unfold news. split.
  - intros H i Hi. apply marked_in. destruct (marked F i) eqn:M; auto. exfalso. assert (Q : existsb (fun i => negb (marked F i)) l = true); [|congruence]. apply existsb_exists. exists i. rewrite M. auto.
  - intros H. destruct (existsb _ l) eqn:E; auto. apply existsb_exists in E as (i & Hi & M). apply H in Hi. apply marked_in in Hi. rewrite Hi in M. discriminate.
Qed.
Lemma news_true F l : news F l = true -> exists i, In i l /\ ~ In i F.
Proof. intros H. apply existsb_exists in H as (i & Hi & M). exists i. split; auto. apply marked_out. now apply negb_true_iff. Qed.

Lemma subtree_app t p p' : subtree t (p ++ p') = (u <- subtree t p ;; subtree u p').
Proof. revert t. induction p as [|c p IH]; intros t; cbn [app subtree obind]; auto. destruct (get (kids t) c); cbn [obind]; auto. Qed.
Lemma subtree_child T q c : subtree T (rev (c :: q)) = (t <- subtree T (rev q) ;; get (kids t) c).
Proof. cbn [rev]. rewrite subtree_app. destruct (subtree T (rev q)); cbn [obind subtree]; auto. destruct (get (kids p) c); auto. Qed.

Section Prune.
  Context {KI : kind}.
  Variables (P : problem) (T : pdt).
  Hypothesis TO : tree_ok P T.
  Definition at_node (q : list nat) (t : pdt) : Prop := subtree T (rev q) = Some t.

  Lemma at_child q t c u : at_node q t -> get (kids t) c = Some u -> at_node (c :: q) u.
  Proof. unfold at_node. intros H1 H2. now rewrite subtree_child, H1. Qed.
  Lemma at_mother c q u : at_node (c :: q) u -> exists t, at_node q t /\ get (kids t) c = Some u.
  Proof. unfold at_node. rewrite subtree_child. intros H. apply obind_some in H as (t & H1 & H2). eauto. Qed.
  Lemma at_fun q t t' : at_node q t -> at_node q t' -> t = t'.
  Proof. unfold at_node. congruence. Qed.
  Lemma subtree_ok p : forall t u, tree_ok P t -> subtree t p = Some u -> tree_ok P u.
  Proof.
    induction p as [|c p IH]; intros [d ch] u H E; cbn [subtree] in E; [congruence|]. apply obind_some in E as (w & E1 & E2). apply (IH w u); auto. apply tree_ok_node in H as (_ & _ & H). rewrite Forall_forall in H. apply H. eapply nth_error_In; exact E1.
  Qed.
  Lemma at_ok q t : at_node q t -> tree_ok P t.
  Proof. apply subtree_ok. exact TO. Qed.
  Lemma at_kids q d ch : at_node q (PNode d ch) -> ch <> [] -> pn_exp d = true /\ node_ok P d (map dat ch).
  Proof. intros H N. apply at_ok in H. apply tree_ok_node in H as (_ & H & _). destruct (pn_exp d); [split; auto; apply H|congruence]. Qed.
  Lemma at_child_data q d ch c u : at_node q (PNode d ch) -> get ch c = Some u -> pn_exp d = true /\ node_ok P d (map dat ch) /\ nth_error (map dat ch) c = Some (dat u).
  Proof. intros H E. destruct (at_kids q d ch H) as [H1 H2]; [intros ->; destruct c; discriminate|]. split; auto. split; auto. unfold get in E. now rewrite nth_error_map, E. Qed.

  (** ** Closed nodes *)
  Definition icause (pr : bool) (q : list nat) (i c : nat) : item := if pr then ICP q i c else ICA q i c.
  Definition itask (pr : bool) (q : list nat) (i : nat) : item := if pr then IP q i else IA q i.
  Record closed (F : flags) (q : list nat) (t : pdt) : Prop := {
    cl_own : q <> [] -> forall pr i cs, nth_error (ccauses pr (dat t)) i = Some cs -> (forall c, c < length cs -> In (icause pr q i c) F) -> In (itask pr q i) F;
    cl_meth : forall a x m, pn_exp (dat t) = true -> nth_error (pn_abs (dat t)) a = Some x -> In (IA q a) F -> m < nmeth P x -> In (IM q a m) F;
    cl_up : forall c0 q' pr i cs c k, q = c0 :: q' -> nth_error (ccauses pr (dat t)) i = Some cs -> nth_error cs c = Some k -> In (itask pr q i) F -> In (icause pr q i c) F /\ In (cause_item q' k) F;
    cl_down_p : forall p x c i k, c < length (kids t) -> nth_error (pn_prims (dat t)) p = Some x -> In (IP q p) F -> nth_error (pn_pos (dat t)) p = Some (c, i, k) -> In (ICP (c :: q) i k) F;
    cl_down_m : forall a x m c k, c < length (kids t) -> nth_error (pn_abs (dat t)) a = Some x -> m < nmeth P x -> In (IM q a m) F -> find_ptr (dat t) a m c = Some k -> In (ptr_item (c :: q) k) F }.

  Lemma closed_stable F F' q t : incl F F' -> (forall i, node_of i = q -> In i F' -> In i F) -> closed F q t -> closed F' q t.
  Proof.
    intros I N [H1 H2 H3 H4 H5]. assert (NT : forall pr i, In (itask pr q i) F' -> In (itask pr q i) F) by (intros [] i; apply N; reflexivity). constructor.
    - intros Q pr i cs E H. apply I. apply (H1 Q pr i cs E). intros c Hc. apply N; auto. now destruct pr.
    - intros a x m E1 E2 H L. apply I. apply (H2 a x m); auto.
    - intros c0 q' pr i cs c k E1 E2 E3 H. destruct (H3 c0 q' pr i cs c k E1 E2 E3) as [X Y]; auto.
    - intros p x c i k L E1 H E2. apply I. apply (H4 p x c i k); auto.
    - intros a x m c k L E1 L2 H E2. apply I. apply (H5 a x m c k); auto.
  Qed.

  (** ** What one call marks *)
  Lemma own_items q d F i : In i (own_step P q d F) -> In i F \/ node_of i = q.
  Proof.
    unfold own_step. set (F1 := mark F _). set (F2 := match q with [] => F1 | _ => _ end).
    assert (M1 : forall i, In i F1 -> In i F \/ node_of i = q).
    { intros j H. apply mark_in in H as [H|H]; auto. right. apply in_flat_map in H as ([a t] & _ & H). destruct (marked F (IA q a)); [destruct H|]. destruct (_ || _); [|destruct H]. destruct H as [<-|[]]. reflexivity. }
    assert (M2 : forall i, In i F2 -> In i F \/ node_of i = q).
    { intros j H. unfold F2 in H. destruct q as [|c0 q'] eqn:Q; auto. rewrite <- Q in *. apply mark_in in H as [H|H]; auto. right. apply in_app_or in H as [H|H]; apply in_flat_map in H as ([a t] & _ & H); destruct (forallb _ _); try (now destruct H); destruct H as [<-|[]]; reflexivity. }
    intros H. destruct (pn_exp d); auto. apply mark_in in H as [H|H]; auto. right. apply in_flat_map in H as ([a t] & _ & H). destruct (marked F2 (IA q a)); [|destruct H]. apply in_map_iff in H as (m & <- & _). reflexivity.
  Qed.
  Lemma own_incl q d F : incl F (own_step P q d F).
  Proof.
    unfold own_step. set (F1 := mark F _). set (F2 := match q with [] => F1 | _ => _ end). assert (I1 : incl F F1) by apply mark_incl. assert (I2 : incl F1 F2). { unfold F2. destruct q; [apply incl_refl|apply mark_incl]. }
    destruct (pn_exp d); [apply (incl_tran (incl_tran I1 I2)), mark_incl|apply (incl_tran I1 I2)].
  Qed.
  (** After the first step the rules about the node itself hold. *)
  Lemma own_rules q d F : let F1 := own_step P q d F in
    (q <> [] -> forall pr i cs, nth_error (ccauses pr d) i = Some cs -> (forall c, c < length cs -> In (icause pr q i c) F1) -> In (itask pr q i) F1) /\
    (forall a x m, pn_exp d = true -> nth_error (pn_abs d) a = Some x -> In (IA q a) F1 -> m < nmeth P x -> In (IM q a m) F1).
  Proof.
    intros F1. unfold F1, own_step. set (G1 := mark F _). set (G2 := match q with [] => G1 | _ => _ end).
    set (G3 := mark G2 (flat_map (fun '(a, t) => if marked G2 (IA q a) then map (IM q a) (seq 0 (nmeth P t)) else []) (enum (pn_abs d)))).
    assert (M3 : forall i, In i G3 -> In i G2 \/ exists a m, i = IM q a m).
    { intros i H. apply mark_in in H as [H|H]; auto. right. apply in_flat_map in H as ([a t] & _ & H). destruct (marked G2 (IA q a)); [|destruct H]. apply in_map_iff in H as (m & <- & _). eauto. }
    assert (M2 : q <> [] -> forall i, In i G2 -> In i G1 \/ exists pr x, i = itask pr q x).
    { intros Q i H. unfold G2 in H. destruct q as [|c0 q']; [congruence|]. apply mark_in in H as [H|H]; auto. right. apply in_app_or in H as [H|H]; apply in_flat_map in H as ([a t] & _ & H); destruct (forallb _ _); try (now destruct H); destruct H as [<-|[]]; [exists true, a|exists false, a]; reflexivity. }
    assert (R2 : q <> [] -> forall pr i cs, nth_error (ccauses pr d) i = Some cs -> (forall c, c < length cs -> In (icause pr q i c) G2) -> In (itask pr q i) G2).
    { intros Q pr i cs E H. assert (H' : forallb (fun c => marked G1 (icause pr q i c)) (seq 0 (length cs)) = true).
      { apply forallb_forall. intros c Hc. apply in_seq in Hc. apply marked_in. destruct (M2 Q (icause pr q i c)) as [X|(pr' & x & X)]; [apply H; lia|auto|]. destruct pr, pr'; discriminate. }
      unfold G2. destruct q as [|c0 q'] eqn:Eq; [congruence|]. rewrite <- Eq in *. apply mark_in. right. apply in_or_app. destruct pr; [left|right]; apply in_flat_map; exists (i, cs); (split; [now apply enum_in|]); cbn [icause] in H'; rewrite H'; now left. }
    split.
    - intros Q pr i cs E H. destruct (pn_exp d); [|exact (R2 Q pr i cs E H)]. assert (X : In (itask pr q i) G2); [|apply mark_incl; exact X]. apply (R2 Q pr i cs E). intros c Hc. destruct (M3 _ (H c Hc)) as [X|(a & m & X)]; auto. destruct pr; discriminate.
    - intros a x m Ee Ea H Lm. rewrite Ee in *. apply mark_in. right. apply in_flat_map. exists (a, x). split; [now apply enum_in|]. destruct (M3 _ H) as [X|(a' & m' & X)]; [|discriminate]. apply marked_in in X. rewrite X. apply in_map_iff. exists m. split; auto. apply in_seq. lia.
  Qed.
  Lemma up_in q q' d F its ups : up_items q q' d F = (its, ups) ->
    (forall i, In i its -> node_of i = q /\ exists pr x c, i = icause pr q x c /\ In (itask pr q x) F) /\ (forall i, In i ups -> node_of i = q') /\
    (forall i, In i ups -> exists pr x cs c k, nth_error (ccauses pr d) x = Some cs /\ nth_error cs c = Some k /\ i = cause_item q' k /\ In (itask pr q x) F) /\
    (forall pr x cs c k, nth_error (ccauses pr d) x = Some cs -> nth_error cs c = Some k -> In (itask pr q x) F -> In (icause pr q x c) its /\ In (cause_item q' k) ups).
  Proof.
    unfold up_items. set (pr := flat_map _ (enum (pn_cp d))). set (ab := flat_map _ (enum (pn_ca d))). intros E. apply pair_equal_spec in E as [<- <-].
    assert (G : forall i j, In (i, j) (pr ++ ab) <-> exists b x cs c k, nth_error (ccauses b d) x = Some cs /\ nth_error cs c = Some k /\ In (itask b q x) F /\ i = icause b q x c /\ j = cause_item q' k).
    { intros i j. rewrite in_app_iff. unfold pr, ab. rewrite !in_flat_map. split.
      - intros [([x cs] & H1 & H2)|([x cs] & H1 & H2)]; apply enum_in in H1.
        + destruct (marked F (IP q x)) eqn:M; [|destruct H2]. apply marked_in in M. apply in_map_iff in H2 as ([c k] & E & H2). apply enum_in in H2. apply pair_equal_spec in E as [<- <-]. exists true, x, cs, c, k. auto.
        + destruct (marked F (IA q x)) eqn:M; [|destruct H2]. apply marked_in in M. apply in_map_iff in H2 as ([c k] & E & H2). apply enum_in in H2. apply pair_equal_spec in E as [<- <-]. exists false, x, cs, c, k. auto.
      - intros ([|] & x & cs & c & k & H1 & H2 & H3 & -> & ->); [left|right]; exists (x, cs); (split; [now apply enum_in|]); cbn [itask] in H3; apply marked_in in H3; rewrite H3; apply in_map_iff; exists (c, k); (split; [reflexivity|now apply enum_in]). }
    split; [|split; [|split]].
    - intros i H. apply in_map_iff in H as ([i' j] & E & H). cbn in E. subst i'. apply G in H as (b & x & cs & c & k & _ & _ & H & -> & _). split; [now destruct b|eauto].
    - intros j H. apply in_map_iff in H as ([i j'] & E & H). cbn in E. subst j'. apply G in H as (b & x & cs & c & [[a|] m] & _ & _ & _ & _ & ->); reflexivity.
    - intros j H. apply in_map_iff in H as ([i j'] & E & H). cbn in E. subst j'. apply G in H as (b & x & cs & c & k & H1 & H2 & H3 & _ & ->). exists b, x, cs, c, k. auto.
    - intros b x cs c k H1 H2 H3. assert (I : In (icause b q x c, cause_item q' k) (pr ++ ab)) by (apply G; exists b, x, cs, c, k; auto). split; [apply (in_map fst) in I|apply (in_map snd) in I]; exact I.
  Qed.
  Lemma down_in q d F c l : down_items P q d F c = Some l ->
    (forall i, In i l -> node_of i = c :: q) /\
    (forall i, In i l -> (exists p x y k, nth_error (pn_prims d) p = Some x /\ In (IP q p) F /\ nth_error (pn_pos d) p = Some (c, y, k) /\ i = ICP (c :: q) y k) \/
       (exists a x m k, nth_error (pn_abs d) a = Some x /\ m < nmeth P x /\ In (IM q a m) F /\ find_ptr d a m c = Some k /\ i = ptr_item (c :: q) k)) /\
    (forall p x y k, nth_error (pn_prims d) p = Some x -> In (IP q p) F -> nth_error (pn_pos d) p = Some (c, y, k) -> In (ICP (c :: q) y k) l) /\
    (forall a x m k, nth_error (pn_abs d) a = Some x -> m < nmeth P x -> In (IM q a m) F -> find_ptr d a m c = Some k -> In (ptr_item (c :: q) k) l).
  Proof.
    unfold down_items. intros E. apply obind_some in E as (pr & Ep & E). apply some_eq in E. apply omap_some in Ep. set (ab := flat_map _ (enum (pn_abs d))) in E. subst l.
    assert (GA : forall i, In i ab <-> exists a x m k, nth_error (pn_abs d) a = Some x /\ m < nmeth P x /\ In (IM q a m) F /\ find_ptr d a m c = Some k /\ i = ptr_item (c :: q) k).
    { intros i. unfold ab. rewrite in_flat_map. split.
      - intros ([a x] & H1 & H2). apply enum_in in H1. apply in_flat_map in H2 as (m & H2 & H3). apply in_seq in H2. destruct (marked F (IM q a m)) eqn:M; [|destruct H3]. apply marked_in in M. destruct (find_ptr d a m c) as [k|] eqn:Ef; [|destruct H3]. destruct H3 as [<-|[]]. exists a, x, m, k. repeat split; auto. lia.
      - intros (a & x & m & k & H1 & H2 & H3 & H4 & ->). exists (a, x). split; [now apply enum_in|]. apply in_flat_map. exists m. split; [apply in_seq; lia|]. apply marked_in in H3. rewrite H3, H4. now left. }
    assert (GP : forall i, In i (concat pr) <-> exists p x y k, nth_error (pn_prims d) p = Some x /\ In (IP q p) F /\ nth_error (pn_pos d) p = Some (c, y, k) /\ i = ICP (c :: q) y k).
    { intros i. rewrite in_concat. split.
      - intros (l & Hl & Hi). destruct (forall2_in_r _ _ _ _ Ep Hl) as ([p x] & Hp & E). apply enum_in in Hp. destruct (marked F (IP q p)) eqn:M; [|injection E as <-; destruct Hi]. apply marked_in in M. apply obind_some in E as ([[c' y] k] & E1 & E2).
        destruct (Nat.eqb_spec c' c) as [->|]; injection E2 as <-; [|destruct Hi]. destruct Hi as [<-|[]]. exists p, x, y, k. auto.
      - intros (p & x & y & k & H1 & H2 & H3 & ->). destruct (forall2_in_l _ _ _ (p, x) Ep) as (l & Hl & E); [now apply enum_in|]. exists l. split; auto. apply marked_in in H2. rewrite H2 in E. unfold get in E. rewrite H3 in E. cbn [obind] in E. rewrite Nat.eqb_refl in E. injection E as <-. now left. }
    split; [|split; [|split]].
    - intros i H. apply in_app_or in H as [H|H]; [apply GP in H as (p & x & y & k & _ & _ & _ & ->); reflexivity|apply GA in H as (a & x & m & k & _ & _ & _ & _ & ->)]. unfold ptr_item. destruct (cp_prim k); reflexivity.
    - intros i H. apply in_app_or in H as [H|H]; [apply GP in H; auto|apply GA in H; auto].
    - intros p x y k H1 H2 H3. apply in_or_app. left. apply GP. exists p, x, y, k. auto.
    - intros a x m k H1 H2 H3 H4. apply in_or_app. right. apply GA. exists a, x, m, k. auto.
  Qed.

  (** ** One call of propagatePruning *)
  Lemma tl_neq {A} (c : A) q : q <> c :: q.
  Proof. intros H. assert (Z := f_equal (@length A) H). cbn in Z. lia. Qed.
  Lemma prop_step fuel q F F' : propagate P T (S fuel) q F = Some F' -> exists t its ups downs F4, at_node q t /\
    (match q with [] => ([], []) | _ :: q' => up_items q q' (dat t) (own_step P q (dat t) F) end) = (its, ups) /\
    let F1 := own_step P q (dat t) F in let F2 := mark F1 (its ++ ups) in let F3 := mark F2 (concat downs) in
    omap (down_items P q (dat t) F2) (seq 0 (length (kids t))) = Some downs /\
    ofold (fun G '(c, l) => if news F2 l then propagate P T fuel (c :: q) G else Some G) (enum downs) F3 = Some F4 /\
    (if news F1 ups then propagate P T fuel (tl q) F4 else Some F4) = Some F'.
  Proof.
    cbn [propagate]. intros E. apply obind_some in E as (t & Et & E). cbv zeta in E. destruct (match q with [] => _ | _ :: q' => _ end) as [its ups] eqn:EU. apply obind_some in E as (downs & Ed & E). apply obind_some in E as (F4 & E4 & E).
    exists t, its, ups, downs, F4. auto 10.
  Qed.
  Lemma ups_spec q t F its ups : (match q with [] => ([], []) | _ :: q' => up_items q q' (dat t) F end) = (its, ups) ->
    (forall i, In i its -> node_of i = q /\ exists pr x c, i = icause pr q x c /\ In (itask pr q x) F) /\ (forall i, In i ups -> q <> [] /\ node_of i = tl q) /\
    (forall i, In i ups -> exists pr x cs c k, nth_error (ccauses pr (dat t)) x = Some cs /\ nth_error cs c = Some k /\ i = cause_item (tl q) k /\ In (itask pr q x) F) /\
    (q <> [] -> forall pr x cs c k, nth_error (ccauses pr (dat t)) x = Some cs -> nth_error cs c = Some k -> In (itask pr q x) F -> In (icause pr q x c) its /\ In (cause_item (tl q) k) ups).
  Proof.
    destruct q as [|c0 q'].
    - intros E. apply pair_equal_spec in E as [<- <-]. split; [intros i []|split; [intros i []|split; [intros i []|congruence]]].
    - intros E. destruct (up_in _ _ _ _ _ _ E) as (U1 & U2 & U3 & U4). cbn [tl]. split; [exact U1|split; [|split; [exact U3|intros _; exact U4]]]. intros i Hi. split; [discriminate|exact (U2 i Hi)].
  Qed.
  Lemma downs_nth q t F downs c l : omap (down_items P q (dat t) F) (seq 0 (length (kids t))) = Some downs -> In (c, l) (enum downs) <-> c < length (kids t) /\ down_items P q (dat t) F c = Some l /\ nth_error downs c = Some l.
  Proof.
    intros E. apply omap_some in E. rewrite enum_in. split.
    - intros H. destruct (forall2_nth_r _ _ _ _ _ E H) as (x & Hx & Hd). assert (Lc : c < length (kids t)) by (rewrite <- (seq_length (length (kids t)) 0); apply nth_error_Some; congruence).
      rewrite (nth_error_nth' _ 0) in Hx by (now rewrite seq_length). rewrite seq_nth in Hx by auto. injection Hx as <-. auto.
    - tauto.
  Qed.
  Lemma downs_at q t F downs c : omap (down_items P q (dat t) F) (seq 0 (length (kids t))) = Some downs -> c < length (kids t) -> exists l, In (c, l) (enum downs) /\ down_items P q (dat t) F c = Some l.
  Proof.
    intros E Lc. assert (L : length downs = length (kids t)). { apply omap_some in E. apply forall2_len in E. now rewrite seq_length in E. } assert (Lc' : c < length downs) by lia. apply get_some in Lc' as (l & Hl). assert (I : In (c, l) (enum downs)) by (now apply enum_in).
    exists l. split; auto. now apply (downs_nth q t F downs c l E) in I.
  Qed.

  Lemma prop_closed fuel : forall q F F' (D : list nat -> Prop), propagate P T fuel q F = Some F' ->
    (forall q' t', at_node q' t' -> q' <> q -> ~ D q' -> closed F q' t') ->
    incl F F' /\ forall q' t', at_node q' t' -> (q' = q \/ ~ D q') -> closed F' q' t'.
  Proof.
    induction fuel as [|fuel IH]; intros q F F' D E H; [discriminate|].
    destruct (prop_step fuel q F F' E) as (t & its & ups & downs & F4 & At & EU & X). clear E. cbv zeta in X. set (F1 := own_step P q (dat t) F) in *. set (F2 := mark F1 (its ++ ups)) in *. set (F3 := mark F2 (concat downs)) in *. destruct X as (Ed & E4 & E').
    destruct (ups_spec q t F1 its ups EU) as (U1 & U2 & U3 & U4).
    assert (I1 : incl F F1) by apply own_incl. assert (I2 : incl F1 F2) by apply mark_incl. assert (I3 : incl F2 F3) by apply mark_incl.
    assert (DI : forall i, In i (concat downs) -> exists c l, In (c, l) (enum downs) /\ In i l /\ node_of i = c :: q).
    { intros i Hi. apply in_concat in Hi as (l & Hl & Hi). apply In_nth_error in Hl as (c & Hl). assert (I : In (c, l) (enum downs)) by (now apply enum_in). exists c, l. split; auto. split; auto. apply (downs_nth q t F2 downs c l Ed) in I as (_ & I & _). apply (down_in q (dat t) F2 c l I). exact Hi. }
    assert (QI2 : forall i, node_of i = q -> In i F3 -> In i F2). { intros i Ni Hi. apply mark_in in Hi as [Hi|Hi]; auto. destruct (DI i Hi) as (c & l & _ & _ & N). exfalso. apply (tl_neq c q). congruence. }
    assert (QI1 : forall i, node_of i = q -> In i F2 -> In i F1 \/ In i its). { intros i Ni Hi. apply mark_in in Hi as [Hi|Hi]; auto. apply in_app_or in Hi as [Hi|Hi]; auto. destruct (U2 i Hi) as [Nq N]. exfalso. destruct q as [|c0 q']; [congruence|]. cbn in N. apply (tl_neq c0 q'). congruence. }
    assert (QT : forall pr i, In (itask pr q i) F3 -> In (itask pr q i) F1). { intros pr i Hi. assert (N : node_of (itask pr q i) = q) by (now destruct pr). destruct (QI1 _ N (QI2 _ N Hi)) as [X|X]; auto. destruct (U1 _ X) as (_ & pr' & x & c & Z & _). destruct pr, pr'; discriminate. }
    assert (QM : forall a m, In (IM q a m) F3 -> In (IM q a m) F1). { intros a m Hi. destruct (QI1 (IM q a m) eq_refl (QI2 (IM q a m) eq_refl Hi)) as [X|X]; auto. destruct (U1 _ X) as (_ & pr' & x & c & Z & _). destruct pr'; discriminate. }
    destruct (own_rules q (dat t) F) as [R1 R2]. fold F1 in R1, R2.
    assert (CQ : closed F3 q t).
    { constructor.
      - intros Q pr i cs Ec Hc. destruct (marked F1 (itask pr q i)) eqn:M; [apply marked_in in M; auto|]. apply marked_out in M. apply I3, I2. apply (R1 Q pr i cs Ec). intros c Lc. specialize (Hc c Lc). assert (N : node_of (icause pr q i c) = q) by (now destruct pr).
        destruct (QI1 _ N (QI2 _ N Hc)) as [X|X]; auto. destruct (U1 _ X) as (_ & pr' & x & c' & Z & Z'). assert (pr' = pr /\ x = i) by (destruct pr, pr'; try discriminate; injection Z; auto). destruct H0 as [-> ->]. contradiction.
      - intros a x m Ee Ea Ha Lm. apply I3, I2. apply (R2 a x m); auto. apply (QT false). exact Ha.
      - intros c0 q' pr i cs c k -> Ec Ek Hi. apply QT in Hi. destruct (U4 ltac:(discriminate) pr i cs c k Ec Ek Hi) as [X Y]. split; apply I3; apply mark_in; right; apply in_or_app; auto.
      - intros p x c i k Lc Ep Hp Epos. apply (QT true) in Hp. destruct (downs_at q t F2 downs c Ed Lc) as (l & Il & Dl). apply mark_in. right. apply in_concat. exists l. split; [apply enum_in in Il; eapply nth_error_In; eauto|].
        destruct (down_in q (dat t) F2 c l Dl) as (_ & _ & D3 & _). apply (D3 p x i k); auto.
      - intros a x m c k Lc Ea Lm Hm Ek. apply QM in Hm. destruct (downs_at q t F2 downs c Ed Lc) as (l & Il & Dl). apply mark_in. right. apply in_concat. exists l. split; [apply enum_in in Il; eapply nth_error_In; eauto|].
        destruct (down_in q (dat t) F2 c l Dl) as (_ & _ & _ & D4). apply (D4 a x m k); auto. }
    set (EE := fun x => (D x /\ x <> q) \/ (news F1 ups = true /\ q <> [] /\ x = tl q)).
    assert (S3 : forall q' t', at_node q' t' -> ~ EE q' -> ~ (exists c l, In (c, l) (enum downs) /\ news F2 l = true /\ q' = c :: q) -> closed F3 q' t').
    { intros q' t' A' NE NP. destruct (list_eq_dec Nat.eq_dec q' q) as [->|Nq]; [rewrite (at_fun q t' t A' At); exact CQ|].
      apply (closed_stable F F3); [exact (incl_tran I1 (incl_tran I2 I3))| |apply H; auto; intros HD; apply NE; left; auto].
      intros i Ni Hi. assert (X1 : In i F2). { apply mark_in in Hi as [Hi|Hi]; auto. destruct (DI i Hi) as (c & l & Il & Hl & N). destruct (news F2 l) eqn:NW; [exfalso; apply NP; exists c, l; repeat split; auto; congruence|]. apply news_false in NW. auto. }
      assert (X2 : In i F1). { apply mark_in in X1 as [X1|X1]; auto. apply in_app_or in X1 as [X1|X1]; [destruct (U1 i X1) as [N _]; congruence|]. destruct (U2 i X1) as [Nn N]. destruct (news F1 ups) eqn:NW; [exfalso; apply NE; right; repeat split; auto; congruence|]. apply news_false in NW. auto. }
      destruct (own_items q (dat t) F i X2) as [X3|X3]; auto. congruence. }
    assert (FO : forall L G G', ofold (fun G '(c, l) => if news F2 l then propagate P T fuel (c :: q) G else Some G) L G = Some G' ->
       (forall q' t', at_node q' t' -> ~ EE q' -> ~ (exists c l, In (c, l) L /\ news F2 l = true /\ q' = c :: q) -> closed G q' t') -> incl G G' /\ forall q' t', at_node q' t' -> ~ EE q' -> closed G' q' t').
    { clear S3 E4 DI. induction L as [|[c l] L IHL]; intros G G' E Hc; cbn [ofold] in E.
      - injection E as <-. split; [apply incl_refl|]. intros q' t' A' NE. apply Hc; auto. intros (c & l & [] & _).
      - apply obind_some in E as (G1 & E1 & E2). destruct (news F2 l) eqn:NW.
        + destruct (IH (c :: q) G G1 (fun x => EE x \/ exists c l, In (c, l) L /\ news F2 l = true /\ x = c :: q) E1) as [J1 J2].
          { intros q' t' A' Nq ND. apply Hc; auto. intros (c' & l' & [X|X] & X2 & X3); [injection X as <- <-; auto|apply ND; right; eauto]. }
          destruct (IHL G1 G' E2) as [K1 K2]; [|split; [exact (incl_tran J1 K1)|exact K2]]. intros q' t' A' NE NP. apply (J2 q' t' A'). right. tauto.
        + injection E1 as <-. apply (IHL G G' E2). intros q' t' A' NE NP. apply Hc; auto. intros (c' & l' & [X|X] & X2 & X3); [injection X as <- <-; congruence|]. apply NP. eauto. }
    destruct (FO _ _ _ E4 S3) as [J1 J2].
    destruct (news F1 ups) eqn:NW.
    - destruct (IH (tl q) F4 F' (fun x => D x /\ x <> q) E') as [K1 K2].
      + intros q' t' A' Nq ND. apply J2; auto. intros [X|(_ & _ & X)]; auto.
      + split; [exact (incl_tran (incl_tran I1 (incl_tran I2 I3)) (incl_tran J1 K1))|]. intros q' t' A' HQ. apply (K2 q' t' A'). right. intros [X Y]. destruct HQ; auto.
    - injection E' as <-. split; [exact (incl_tran (incl_tran I1 (incl_tran I2 I3)) J1)|]. intros q' t' A' HQ. apply J2; auto. intros [[X Y]|(X & _)]; [destruct HQ; auto|discriminate].
  Qed.
  Lemma prop_incl fuel q F F' : propagate P T fuel q F = Some F' -> incl F F'.
  Proof. intros E. apply (prop_closed fuel q F F' (fun _ => True) E). intros q' t' _ _ H. exfalso. auto. Qed.

  (** ** The fuel suffices *)
  Notation items := (tree_items P T []).
  Definition left_items (F : flags) : nat := length (filter (fun i => negb (marked F i)) items).
  Lemma left_mono F G : incl F G -> left_items G <= left_items F.
  Proof.
    intros I. unfold left_items. induction items as [|x l IH]; cbn [filter]; auto. destruct (marked G x) eqn:MG; cbn [negb].
    - destruct (marked F x); cbn [negb length]; lia.
    - destruct (marked F x) eqn:MF; cbn [negb length]; [|lia]. apply marked_in in MF. apply I, marked_in in MF. congruence.
  Qed.
  Lemma left_less F G i : incl F G -> In i items -> ~ In i F -> In i G -> left_items G < left_items F.
  Proof.
    intros I Hi NF HG. unfold left_items. induction items as [|x l IH]; [destruct Hi|]. cbn [filter].
    assert (M : length (filter (fun i => negb (marked G i)) l) <= length (filter (fun i => negb (marked F i)) l)).
    { clear -I. induction l as [|y l IH]; cbn [filter]; auto. destruct (marked G y) eqn:MG; cbn [negb]; [destruct (marked F y); cbn [negb length]; lia|]. destruct (marked F y) eqn:MF; cbn [negb length]; [|lia]. apply marked_in in MF. apply I, marked_in in MF. congruence. }
    destruct Hi as [->|Hi].
    - apply marked_out in NF. apply marked_in in HG. rewrite NF, HG. cbn [negb length]. lia.
    - specialize (IH Hi). destruct (marked G x) eqn:MG; cbn [negb].
      + destruct (marked F x); cbn [negb length]; lia.
      + destruct (marked F x) eqn:MF; cbn [negb length]; [|lia]. apply marked_in in MF. apply I, marked_in in MF. congruence.
  Qed.
  Lemma tree_items_at path : forall t q u i, subtree t path = Some u -> In i (node_items P (rev path ++ q) (dat u)) -> In i (tree_items P t q).
  Proof.
    induction path as [|c path IH]; intros [d ch] q u i E Hi; cbn [subtree] in E; cbn [tree_items].
    - injection E as <-. cbn [rev app dat] in Hi. apply in_or_app. auto.
    - apply obind_some in E as (w & E1 & E2). apply in_or_app. right. cbn [kids] in E1. cbn [rev] in Hi. rewrite <- app_assoc in Hi. specialize (IH w (c :: q) u i E2 Hi). clear Hi E2.
      assert (G : forall l b k, get l k = Some w -> In i (tree_items P w ((b + k) :: q)) -> In i ((fix go (l : list pdt) (i : nat) {struct l} := match l with [] => [] | u :: r => tree_items P u (i :: q) ++ go r (S i) end) l b)).
      { induction l as [|v l IHl]; intros b [|k] Ek Ik; cbn in Ek; try discriminate; apply in_or_app; [injection Ek as ->; left; now rewrite Nat.add_0_r in Ik|right]. apply (IHl (S b) k); auto. now rewrite Nat.add_succ_comm. }
      apply (G ch 0 c); auto.
  Qed.
  Lemma item_at q t i : at_node q t -> In i (node_items P q (dat t)) -> In i items.
  Proof. intros A Hi. apply (tree_items_at (rev q) T [] t i A). rewrite rev_involutive, app_nil_r. exact Hi. Qed.
  Lemma item_task q d pr i x : nth_error (ctasks pr d) i = Some x -> In (itask pr q i) (node_items P q d).
  Proof.
    intros E. assert (L : i < length (ctasks pr d)) by (apply nth_error_Some; congruence). unfold node_items. destruct pr; cbn [ctasks itask] in *.
    - apply in_or_app. left. apply in_map, in_seq. lia.
    - apply in_or_app. right. apply in_or_app. left. apply in_map, in_seq. lia.
  Qed.
  Lemma item_meth q d a x m : nth_error (pn_abs d) a = Some x -> m < nmeth P x -> In (IM q a m) (node_items P q d).
  Proof. intros E L. unfold node_items. do 2 (apply in_or_app; right). apply in_or_app. left. apply in_flat_map. exists (a, x). split; [now apply enum_in|]. apply in_map, in_seq. lia. Qed.
  Lemma item_cause q d pr i cs c : nth_error (ccauses pr d) i = Some cs -> c < length cs -> In (icause pr q i c) (node_items P q d).
  Proof.
    intros E L. unfold node_items. do 3 (apply in_or_app; right). apply in_or_app. destruct pr; [left|right]; apply in_flat_map; exists (i, cs); (split; [now apply enum_in|]); apply in_map, in_seq; lia.
  Qed.

  Lemma prop_defined fuel : forall q F, (exists t, at_node q t) -> left_items F < fuel -> exists F', propagate P T fuel q F = Some F'.
  Proof.
    induction fuel as [|fuel IH]; intros q F (t & At) L; [lia|]. cbn [propagate]. unfold at_node in At. rewrite At. cbn [obind]. cbv zeta.
    set (F1 := own_step P q (dat t) F). destruct (match q with [] => _ | _ :: q' => _ end) as [its ups] eqn:EU. set (F2 := mark F1 (its ++ ups)).
    assert (DD : exists downs, omap (down_items P q (dat t) F2) (seq 0 (length (kids t))) = Some downs).
    { apply omap_ok. intros c Hc. apply in_seq in Hc. destruct t as [d ch]. cbn [dat kids] in *. destruct (at_kids q d ch At) as [Ee NO]; [intros ->; cbn in Hc; lia|].
      unfold down_items. destruct (omap_ok (fun '(p, _) => if marked F2 (IP q p) then '(c', i, k) <- get (pn_pos d) p ;; Some (if Nat.eqb c' c then [ICP (c :: q) i k] else []) else Some []) (enum (pn_prims d))) as (pr & ->); [|cbn [obind]; eauto].
      intros [p x] Hp. apply enum_in in Hp. destruct (marked F2 (IP q p)); [|eauto]. assert (Lp : p < length (pn_pos d)) by (rewrite (no_pos _ _ _ NO); apply nth_error_Some; congruence). apply get_some in Lp as ([[c' i] k] & ->). cbn [obind]. eauto. }
    destruct DD as (downs & Ed). rewrite Ed. cbn [obind]. set (F3 := mark F2 (concat downs)).
    assert (I1 : incl F F1) by apply own_incl. assert (I2 : incl F1 F2) by apply mark_incl. assert (I3 : incl F2 F3) by apply mark_incl. assert (I03 := incl_tran I1 (incl_tran I2 I3)).
    destruct (ups_spec q t F1 its ups EU) as (U1 & U2 & U3 & U4).
    assert (N1 : news F1 ups = true -> left_items F3 < left_items F /\ exists t', at_node (tl q) t').
    { intros NW. apply news_true in NW as (i & Hi & Ni). destruct (U2 i Hi) as [Nq No]. destruct (U3 i Hi) as (pr & x & cs & c & k & C1 & C2 & -> & _). destruct q as [|c0 q']; [congruence|]. destruct (at_mother c0 q' t At) as ([d' ch'] & A' & G'). cbn [kids tl] in *. split; [|eauto].
      apply (left_less F F3 (cause_item q' k)); auto; [|apply I3; apply mark_in; right; apply in_or_app; auto]. apply (item_at q' (PNode d' ch')); auto. cbn [dat]. destruct (at_child_data q' d' ch' c0 t A' G') as (_ & NO & E). assert (Z := no_cause _ _ _ NO c0 (dat t) pr x cs c k E C1 C2).
      destruct k as [[a|] m]; cbn [cause_item].
      - destruct Z as (_ & y & Y1 & Y2). eapply item_meth; eauto.
      - destruct Z as (_ & Z). assert (Lm : m < length (pn_prims d')) by (rewrite <- (no_pos _ _ _ NO); apply nth_error_Some; congruence). apply get_some in Lm as (y & Y). exact (item_task q' d' true m y Y). }
    assert (N2 : forall c l, In (c, l) (enum downs) -> news F2 l = true -> left_items F3 < left_items F /\ exists t', at_node (c :: q) t').
    { intros c l Il NW. apply news_true in NW as (i & Hi & Ni). apply (downs_nth q t F2 downs c l Ed) in Il as (Lc & Dl & Nl). destruct t as [d ch]. cbn [dat kids] in *. destruct (get_some ch c Lc) as (u & Gu). assert (A' := at_child q (PNode d ch) c u At Gu). split; [|eauto].
      destruct (at_child_data q d ch c u At Gu) as (_ & NO & E).
      apply (left_less F F3 i); auto; [|apply mark_in; right; apply in_concat; exists l; split; auto; eapply nth_error_In; eauto]. apply (item_at (c :: q) u); auto.
      destruct (down_in q d F2 c l Dl) as (_ & D2 & _). destruct (D2 i Hi) as [(p & x & y & k & P1 & P2 & P3 & ->)|(a & x & m & k & P1 & P2 & P3 & P4 & ->)].
      - destruct (no_pos_ok _ _ _ NO p c y k P3) as (u' & cs & V1 & V2 & V3 & V4). assert (u' = dat u) by congruence. subst u'. apply (item_cause (c :: q) (dat u) true y cs k V3). apply nth_error_Some. congruence.
      - destruct (no_ptr _ _ _ NO a m c k P4) as (u' & cs & V1 & V2 & V3). assert (u' = dat u) by congruence. subst u'. assert (Lk : cp_cause k < length cs) by (apply nth_error_Some; congruence). assert (Z := item_cause (c :: q) (dat u) (cp_prim k) (cp_task k) cs (cp_cause k) V2 Lk). unfold ptr_item. destruct (cp_prim k); exact Z. }
    assert (FO : forall L0 G, incl L0 (enum downs) -> incl F3 G -> exists G', ofold (fun G '(c, l) => if news F2 l then propagate P T fuel (c :: q) G else Some G) L0 G = Some G' /\ incl F3 G').
    { induction L0 as [|[c l] L0 IHL]; intros G HI HG; cbn [ofold]; [eauto|]. destruct (news F2 l) eqn:NW; [|cbn [obind]; apply IHL; auto; intros z Hz; apply HI; now right].
      destruct (N2 c l (HI _ (or_introl eq_refl)) NW) as [X1 X2]. destruct (IH (c :: q) G X2) as (G1 & E1); [apply left_mono in HG; lia|]. rewrite E1. cbn [obind]. apply IHL; [intros z Hz; apply HI; now right|]. exact (incl_tran HG (prop_incl _ _ _ _ E1)). }
    destruct (FO (enum downs) F3 (incl_refl _) (incl_refl _)) as (F4 & E4 & I4). rewrite E4. cbn [obind]. destruct (news F1 ups) eqn:NW; [|eauto]. destruct (N1 eq_refl) as [X1 X2]. apply IH; auto. apply left_mono in I4. lia.
  Qed.

  (** ** What is needed stays *)
  Record supports (U : item -> Prop) : Prop := {
    su_abs : forall q t a x, at_node q t -> nth_error (pn_abs (dat t)) a = Some x -> U (IA q a) -> pn_exp (dat t) = true /\ exists m, m < nmeth P x /\ U (IM q a m);
    su_own : forall q t pr i cs, q <> [] -> at_node q t -> nth_error (ccauses pr (dat t)) i = Some cs -> U (itask pr q i) -> exists c, c < length cs /\ U (icause pr q i c);
    su_meth : forall q t a m, at_node q t -> U (IM q a m) -> U (IA q a);
    su_self : forall q t pr i c, at_node q t -> U (icause pr q i c) -> U (itask pr q i);
    su_up : forall c0 q t pr i cs c k, at_node (c0 :: q) t -> nth_error (ccauses pr (dat t)) i = Some cs -> nth_error cs c = Some k -> U (cause_item q k) -> U (itask pr (c0 :: q) i);
    su_down_p : forall q t p c i k, at_node q t -> c < length (kids t) -> nth_error (pn_pos (dat t)) p = Some (c, i, k) -> U (ICP (c :: q) i k) -> U (IP q p);
    su_down_m : forall q t a m c k, at_node q t -> c < length (kids t) -> find_ptr (dat t) a m c = Some k -> U (ptr_item (c :: q) k) -> U (IM q a m) }.
  Definition avoids (U : item -> Prop) (F : flags) : Prop := forall i, In i F -> ~ U i.

  Lemma own_avoids U q t F : supports U -> at_node q t -> avoids U F -> avoids U (own_step P q (dat t) F).
  Proof.
    intros SU At AV. unfold own_step. set (F1 := mark F _). set (F2 := match q with [] => F1 | _ => _ end).
    assert (A1 : avoids U F1).
    { intros i Hi. apply mark_in in Hi as [Hi|Hi]; auto. apply in_flat_map in Hi as ([a x] & Ha & Hi). apply enum_in in Ha. destruct (marked F (IA q a)); [destruct Hi|]. destruct (negb (pn_exp (dat t)) || _) eqn:B; [|destruct Hi]. destruct Hi as [<-|[]]. intros HU.
      destruct (su_abs U SU q t a x At Ha HU) as (Ee & m & Lm & Hm). rewrite Ee in B. cbn [negb orb] in B. rewrite forallb_forall in B. specialize (B m ltac:(apply in_seq; lia)). apply marked_in in B. exact (AV _ B Hm). }
    assert (A2 : avoids U F2).
    { unfold F2. destruct q as [|c0 q'] eqn:Eq; auto. rewrite <- Eq in *. assert (Nq : q <> []) by congruence. intros i Hi. apply mark_in in Hi as [Hi|Hi]; auto.
      assert (G : forall pr x cs, nth_error (ccauses pr (dat t)) x = Some cs -> forallb (fun c => marked F1 (icause pr q x c)) (seq 0 (length cs)) = true -> ~ U (itask pr q x)).
      { intros pr x cs E B HU. destruct (su_own U SU q t pr x cs Nq At E HU) as (c & Lc & Hc). rewrite forallb_forall in B. specialize (B c ltac:(apply in_seq; lia)). apply marked_in in B. exact (A1 _ B Hc). }
      apply in_app_or in Hi as [Hi|Hi]; apply in_flat_map in Hi as ([x cs] & Hx & Hi); apply enum_in in Hx.
      - destruct (forallb _ _) eqn:B; [|destruct Hi]. destruct Hi as [<-|[]]. exact (G true x cs Hx B).
      - destruct (forallb _ _) eqn:B; [|destruct Hi]. destruct Hi as [<-|[]]. exact (G false x cs Hx B). }
    destruct (pn_exp (dat t)); auto. intros i Hi. apply mark_in in Hi as [Hi|Hi]; [now apply A2|]. apply in_flat_map in Hi as ([a x] & Ha & Hi). destruct (marked F2 (IA q a)) eqn:M; [|destruct Hi]. apply marked_in in M. apply in_map_iff in Hi as (m & <- & _). intros HU. exact (A2 _ M (su_meth U SU q t a m At HU)).
  Qed.
  Lemma prop_avoids U fuel : supports U -> forall q F F', propagate P T fuel q F = Some F' -> avoids U F -> avoids U F'.
  Proof.
    intros SU. induction fuel as [|fuel IH]; intros q F F' E AV; [discriminate|].
    destruct (prop_step fuel q F F' E) as (t & its & ups & downs & F4 & At & EU & X). clear E. cbv zeta in X. assert (A1 := own_avoids U q t F SU At AV). set (F1 := own_step P q (dat t) F) in *. set (F2 := mark F1 (its ++ ups)) in *. set (F3 := mark F2 (concat downs)) in *. destruct X as (Ed & E4 & E').
    destruct (ups_spec q t F1 its ups EU) as (U1 & U2 & U3 & U4).
    assert (A2 : avoids U F2).
    { intros i Hi. apply mark_in in Hi as [Hi|Hi]; auto. apply in_app_or in Hi as [Hi|Hi].
      - destruct (U1 i Hi) as (_ & pr & x & c & -> & M). intros HU. exact (A1 _ M (su_self U SU q t pr x c At HU)).
      - destruct (U2 i Hi) as [Nq _]. destruct (U3 i Hi) as (pr & x & cs & c & k & C1 & C2 & -> & M). intros HU. destruct q as [|c0 q']; [congruence|]. exact (A1 _ M (su_up U SU c0 q' t pr x cs c k At C1 C2 HU)). }
    assert (A3 : avoids U F3).
    { intros i Hi. apply mark_in in Hi as [Hi|Hi]; auto. apply in_concat in Hi as (l & Hl & Hi). apply In_nth_error in Hl as (c & Hl). assert (Il : In (c, l) (enum downs)) by (now apply enum_in). apply (downs_nth q t F2 downs c l Ed) in Il as (Lc & Dl & _).
      destruct (down_in q (dat t) F2 c l Dl) as (_ & D2 & _). destruct (D2 i Hi) as [(p & x & y & k & P1 & P2 & P3 & ->)|(a & x & m & k & P1 & P2 & P3 & P4 & ->)]; intros HU.
      - exact (A2 _ P2 (su_down_p U SU q t p c y k At Lc P3 HU)).
      - exact (A2 _ P3 (su_down_m U SU q t a m c k At Lc P4 HU)). }
    assert (A4 : avoids U F4).
    { clear -IH E4 A3. clearbody F3. revert F3 E4 A3. induction (enum downs) as [|[c l] L IHL]; intros G E A; cbn [ofold] in E; [injection E as <-; auto|]. apply obind_some in E as (G1 & E1 & E2). apply (IHL G1 E2). destruct (news F2 l); [exact (IH _ _ _ E1 A)|injection E1 as <-; auto]. }
    destruct (news F1 ups); [exact (IH _ _ _ E' A4)|injection E' as <-; auto].
  Qed.
End Prune.
