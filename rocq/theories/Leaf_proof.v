(** Placing the subtasks of totally ordered methods with actions without effects on vertices of their own. *)
From Coq Require Import Sorting.Sorted.
From Verif Require Import Base Htn_problem Htn_spec To_spec Sog_model Sog_spec Sog_proof Posog_model Posog_spec Posog_merge Pdt_model Leaf_model.

(** More vertices and more labels. *)
Definition grows (l l' : list (list nat)) : Prop := length l <= length l' /\ forall v ls t, nth_error l v = Some ls -> In t ls -> exists ls', nth_error l' v = Some ls' /\ In t ls'.
Lemma grows_refl l : grows l l.
Proof. split; eauto. Qed.
Lemma grows_trans l l' l'' : grows l l' -> grows l' l'' -> grows l l''.
Proof. intros [L1 G1] [L2 G2]. split; [lia|]. intros v ls t E I. destruct (G1 v ls t E I) as (ls' & E' & I'). eauto. Qed.

Section Compact.
  Variables (P : problem) (C : sconf).
  Hypothesis EK : effects_known P.

  (** The marked vertices are beyond the first [k]; a vertex carries only tasks of its kind. *)
  Definition cinv (k : nat) (labels : list (list nat)) (eff : list nat) : Prop :=
    k <= length labels /\ (forall v, In v eff -> k <= v < length labels) /\ forall v ls t, nth_error labels v = Some ls -> In t ls -> effectless P t = Some (memb v eff).

  Lemma cp_find_some e eff : forall k v u, cp_find e eff v k = Some u -> v <= u < v + k /\ memb u eff = e.
  Proof.
    induction k as [|k IH]; intros v u E; [discriminate|]. cbn [cp_find] in E. destruct (Bool.eqb e (memb v eff)) eqn:B.
    - apply some_eq in E. subst u. apply Bool.eqb_prop in B. split; [lia|auto].
    - apply IH in E as [L M]. split; [lia|auto].
  Qed.
  Lemma label_grows (labels labels' : list (list nat)) v ls t : nth_error labels v = Some ls -> set labels v (if memb t ls then ls else t :: ls) = Some labels' -> grows labels labels' /\ exists ls', nth_error labels' v = Some ls' /\ In t ls'.
  Proof.
    intros G S. assert (Z := get_set_eq _ _ _ _ S). unfold get in Z. assert (IT : In t (if memb t ls then ls else t :: ls)) by (destruct (memb t ls) eqn:M; [now apply memb_In|now left]). split; [|eauto]. split; [rewrite (set_length _ _ _ _ S); lia|].
    intros u lu x E I. destruct (Nat.eq_dec u v) as [->|N]; [|assert (Q := get_set_neq _ _ _ _ _ S (fun e => N (eq_sym e))); unfold get in Q; rewrite Q; eauto].
    assert (lu = ls) by congruence. subst lu. eexists. split; [exact Z|]. destruct (memb t ls); auto. now right.
  Qed.
  Lemma cp_task_ok k labels eff asg next task mp : cinv k labels eff -> next <= length labels -> mp < length asg -> exists labels' eff' asg' v,
    cp_task P (labels, eff, asg, next) (task, mp) = Some (labels', eff', asg', S v) /\ cinv k labels' eff' /\ grows labels labels' /\ next <= v < length labels' /\ set asg mp v = Some asg' /\
    exists ls, nth_error labels' v = Some ls /\ In task ls.
  Proof.
    intros (K & EB & HM) LN LM. cbn [cp_task]. destruct (effectless_some P task EK) as (e & Ee). rewrite Ee. cbn [obind]. destruct (cp_find e eff next (length labels - next)) as [v|] eqn:F.
    - apply cp_find_some in F as [LV MV]. assert (Lv : v < length labels) by lia. destruct (get_some _ _ Lv) as (ls & Gl). rewrite Gl. cbn [obind]. destruct (set_some _ _ (if memb task ls then ls else task :: ls) Lv) as (labels' & Sl). rewrite Sl. cbn [obind].
      destruct (set_some _ _ v LM) as (asg' & Sa). rewrite Sa. cbn [obind]. unfold get in Gl. destruct (label_grows _ _ _ _ _ Gl Sl) as [GR LB]. exists labels', eff, asg', v. split; auto. assert (LL := set_length _ _ _ _ Sl). split; [|split; auto; split; [lia|auto]].
      split; [lia|]. split; [rewrite LL; auto|]. intros u lu t E I. destruct (Nat.eq_dec u v) as [->|N].
      + assert (Z := get_set_eq _ _ _ _ Sl). unfold get in Z. assert (lu = if memb task ls then ls else task :: ls) by congruence. subst lu. destruct (memb task ls); [eauto|]. destruct I as [<-|I]; [congruence|eauto].
      + assert (Q := get_set_neq _ _ _ _ _ Sl (fun e => N (eq_sym e))). unfold get in Q. rewrite Q in E. eauto.
    - destruct (set_some _ _ (length labels) LM) as (asg' & Sa). rewrite Sa. cbn [obind]. eexists _, _, asg', (length labels). split; [reflexivity|]. rewrite app_length. cbn [length].
      assert (NE : memb (length labels) eff = false). { destruct (memb (length labels) eff) eqn:M; auto. apply memb_In in M. apply EB in M. lia. }
      assert (LB : nth_error (labels ++ [[task]]) (length labels) = Some [task]) by (rewrite nth_error_app2, Nat.sub_diag by lia; reflexivity).
      split; [|split; [|split; [lia|split; auto; exists [task]; split; auto; now left]]].
      + split; [rewrite app_length; cbn; lia|]. rewrite app_length. cbn [length]. split.
        * intros v Hv. assert (D : v = length labels \/ In v eff) by (destruct e; auto; destruct Hv; auto). destruct D as [->|D]; [lia|]. apply EB in D. lia.
        * intros v ls t E I. destruct (Nat.lt_ge_cases v (length labels)) as [Lv|Lv].
          { rewrite nth_error_app1 in E by auto. rewrite (HM v ls t E I). f_equal. destruct e; auto. cbn [memb existsb]. destruct (Nat.eqb_spec v (length labels)); [lia|reflexivity]. }
          assert (v = length labels). { assert (v < length (labels ++ [[task]])) by (apply nth_error_Some; congruence). rewrite app_length in *. cbn in *. lia. } subst v. rewrite LB in E. apply some_eq in E. subst ls. destruct I as [<-|[]]. rewrite Ee. f_equal.
          destruct e; [|auto]. symmetry. apply memb_In. now left.
      + split; [rewrite app_length; lia|]. intros v ls t E I. exists ls. split; auto. rewrite nth_error_app1; auto. apply nth_error_Some. congruence.
  Qed.

  Lemma cp_fold_ok k : forall xs labels eff asg next, cinv k labels eff -> next <= length labels -> NoDup (map snd xs) -> (forall x, In x xs -> snd x < length asg) ->
    exists labels' eff' asg' next' pos, ofold (cp_task P) xs (labels, eff, asg, next) = Some (labels', eff', asg', next') /\ cinv k labels' eff' /\ grows labels labels' /\ length asg' = length asg /\
      length pos = length xs /\ (forall p, In p pos -> next <= p < length labels') /\ StronglySorted lt pos /\
      (forall i x, nth_error xs i = Some x -> nth (snd x) asg' 0 = nth i pos 0 /\ exists ls, nth_error labels' (nth i pos 0) = Some ls /\ In (fst x) ls) /\
      (forall j, ~ In j (map snd xs) -> nth j asg' 0 = nth j asg 0).
  Proof.
    induction xs as [|[task mp] xs IH]; intros labels eff asg next CI LN ND LA.
    - exists labels, eff, asg, next, []. split; auto. split; auto. split; [apply grows_refl|]. split; auto. split; auto. split; [intros p []|]. split; [constructor|]. split; auto. intros [|i] x E; discriminate.
    - destruct (cp_task_ok k labels eff asg next task mp CI LN) as (labels1 & eff1 & asg1 & v & E1 & CI1 & G1 & V1 & S1 & ls1 & L1 & I1); [exact (LA (task, mp) (or_introl eq_refl))|].
      cbn [ofold]. rewrite E1. cbn [obind]. cbn [map snd] in ND. inversion ND as [|? ? NI ND']; subst. assert (LL := set_length _ _ _ _ S1).
      destruct (IH labels1 eff1 asg1 (S v) CI1) as (labels2 & eff2 & asg2 & next2 & pos & E2 & CI2 & G2 & LA2 & LP & PB & SS & AT & OT); auto; [lia|intros x Hx; rewrite LL; apply LA; now right|].
      exists labels2, eff2, asg2, next2, (v :: pos). split; auto. split; auto. split; [eapply grows_trans; eauto|]. split; [lia|]. split; [cbn; lia|].
      destruct (proj2 G2 v ls1 task L1 I1) as (ls2 & L2 & I2). assert (VB : v < length labels2) by (apply nth_error_Some; congruence).
      split; [intros p [<-|Hp]; [lia|]; specialize (PB p Hp); lia|]. split; [constructor; auto; apply Forall_forall; intros p Hp; specialize (PB p Hp); lia|]. split.
      + intros [|i] x Ex; cbn [nth_error] in Ex.
        * apply some_eq in Ex. subst x. cbn [fst snd nth]. split; [|eauto]. rewrite OT by auto. assert (Q := get_set_eq _ _ _ _ S1). now apply nth_error_nth.
        * cbn [nth]. auto.
      + intros j Hj. rewrite OT by (intros H; apply Hj; now right). assert (N : mp <> j) by (intros ->; apply Hj; now left). assert (Q := get_set_neq _ _ _ _ _ S1 N). unfold get in Q.
        destruct (Nat.lt_ge_cases j (length asg)) as [Lj|Lj]; [|rewrite !nth_overflow by lia; auto]. apply nth_error_nth. rewrite Q. now apply nth_error_nth'.
  Qed.

  Definition labelled (labels : list (list nat)) (m : nat) (asg : list nat) : Prop := forall me i v t, nth_error (p_methods P) m = Some me -> nth_error asg i = Some v -> nth_error (m_subs me) i = Some t -> exists ls, nth_error labels v = Some ls /\ In t ls.
  Lemma labelled_grows labels labels' m asg : grows labels labels' -> labelled labels m asg -> labelled labels' m asg.
  Proof. intros [_ G] L me i v t H1 H2 H3. destruct (L me i v t H1 H2 H3) as (ls & E & I). eauto. Qed.
  Lemma placed_grows n n' m asg : n <= n' -> Sog_proof.placed P (s_mto C) n m asg -> Sog_proof.placed P (s_mto C) n' m asg.
  Proof. intros L (me & o & E1 & E2 & E3 & P1 & P2 & P3). exists me, o. repeat (split; auto). intros p Hp. specialize (P2 p Hp). lia. Qed.
  Lemma sorted_nth (l : list nat) : StronglySorted lt l -> forall i j, i < j -> j < length l -> nth i l 0 < nth j l 0.
  Proof.
    induction 1 as [|x l S IH F]; intros i j Hij Hj; [cbn in Hj; lia|]. destruct j as [|j]; [lia|]. cbn in Hj. destruct i as [|i]; cbn [nth]; [|apply IH; lia]. rewrite Forall_forall in F. apply F. apply nth_In. lia.
  Qed.

  Definition meth_fine (m : nat) : Prop := exists me o, get (p_methods P) m = Some me /\ get (s_mto C) m = Some o /\ perm_seq (length (m_subs me)) o.
  Lemma cp_place_ok k labels eff m : cinv k labels eff -> meth_fine m -> exists labels' eff' asg,
    cp_place P C labels eff m = Some (labels', eff', asg) /\ cinv k labels' eff' /\ grows labels labels' /\ Sog_proof.placed P (s_mto C) (length labels') m asg /\ labelled labels' m asg.
  Proof.
    intros CI (me & o & Gm & Go & PS). assert (LO := perm_seq_length _ _ PS). destruct PS as [ND IN]. unfold cp_place. rewrite Gm. cbn [obind]. rewrite Go. cbn [obind].
    replace (seq 0 (length (m_subs me))) with (seq 0 (length o)) by (now rewrite LO). rewrite omap_get_seq. cbn [obind]. rewrite omap_get_nth by (intros j; apply IN). cbn [obind]. set (sq := map (fun j => nth j (m_subs me) 0) o).
    assert (LSQ : length sq = length o) by (unfold sq; now rewrite map_length). unfold addCompactSequenceToSOG.
    assert (SND : map snd (combine sq o) = o). { clearbody sq. clear -LSQ. revert o LSQ. induction sq as [|x r IH]; intros [|y o] L; try discriminate; auto. cbn in *. f_equal. apply IH. lia. }
    destruct (cp_fold_ok k (combine sq o) labels eff (repeat 0 (length (m_subs me))) 0 CI) as (labels' & eff' & asg & nx & pos & E & CI' & GR & LA & LP & PB & SS & AT & _); [lia|now rewrite SND| |].
    { intros [t j] H. apply in_combine_r in H. rewrite repeat_length. cbn. now apply IN. }
    rewrite E. cbn [obind]. exists labels', eff', asg. split; auto. split; auto. split; auto. rewrite repeat_length in LA. rewrite combine_length, LSQ, Nat.min_id in LP.
    assert (CB : forall i j, nth_error o i = Some j -> nth_error (combine sq o) i = Some (nth j (m_subs me) 0, j)).
    { intros i j Hi. unfold sq. clear -Hi. revert i Hi. induction o as [|x o IH]; intros [|i] Hi; cbn in *; try discriminate; [congruence|auto]. }
    assert (PO : map (fun j => nth j asg 0) o = pos).
    { apply nth_ext with (d := 0) (d' := 0); [rewrite map_length; lia|]. intros i Hi. rewrite map_length in Hi. destruct (get_some _ _ Hi) as (j & Ej). unfold get in Ej. destruct (AT i _ (CB i j Ej)) as [A _]. cbn [snd] in A. rewrite <- A.
      apply nth_error_nth. rewrite nth_error_map, Ej. reflexivity. }
    split.
    - exists me, o. split; auto. split; auto. split; auto. rewrite PO. split; [lia|]. split; [intros p Hp; apply PB in Hp; lia|exact (sorted_nth pos SS)].
    - intros me' i v t Em Ea Es. assert (me' = me) by (unfold get in Gm; congruence). subst me'. assert (Li : In i o) by (apply IN; apply nth_error_Some; congruence). apply In_nth_error in Li as (x & Hx). destruct (AT x _ (CB x i Hx)) as [A B]. cbn [fst snd] in A, B.
      rewrite (nth_error_nth _ _ 0 Es) in B. rewrite (nth_error_nth _ _ 0 Ea) in A. rewrite <- A in B. exact B.
  Qed.
  Lemma cp_places_ok k : forall ms labels eff, cinv k labels eff -> (forall m, In m ms -> meth_fine m) -> exists labels' eff' asgs,
    cp_places P C labels eff ms = Some (labels', asgs) /\ cinv k labels' eff' /\ grows labels labels' /\ Forall2 (Sog_proof.placed P (s_mto C) (length labels')) ms asgs /\ Forall2 (labelled labels') ms asgs.
  Proof.
    induction ms as [|m ms IH]; intros labels eff CI H; [exists labels, eff, []; split; [reflexivity|split; [exact CI|split; [apply grows_refl|split; constructor]]]|].
    destruct (cp_place_ok k labels eff m CI (H m (or_introl eq_refl))) as (labels1 & eff1 & asg & E1 & CI1 & G1 & P1 & L1). cbn [cp_places]. rewrite E1. cbn [obind].
    destruct (IH labels1 eff1 CI1) as (labels2 & eff2 & asgs & E2 & CI2 & G2 & P2 & L2); [intros x Hx; apply H; now right|]. rewrite E2. cbn [obind]. exists labels2, eff2, (asg :: asgs). split; auto. split; auto. split; [eapply grows_trans; eauto|].
    split; constructor; auto; [eapply placed_grows; [apply G2|auto]|eapply labelled_grows; eauto].
  Qed.
  Lemma compact_ok m0 ms me0 : (forall m, In m (m0 :: ms) -> meth_fine m) -> nth_error (p_methods P) m0 = Some me0 -> exists labels eff asgs,
    compact_sog P C (m0 :: ms) = Some (labels, asgs) /\ cinv (length (m_subs me0)) labels eff /\ Forall2 (Sog_proof.placed P (s_mto C) (length labels)) (m0 :: ms) asgs /\ Forall2 (labelled labels) (m0 :: ms) asgs.
  Proof.
    intros H E0. unfold compact_sog, get. rewrite E0. cbn [obind].
    destruct (cp_places_ok (length (m_subs me0)) (m0 :: ms) (repeat [] (length (m_subs me0))) []) as (labels & eff & asgs & E & CI & _ & P1 & L1); auto; [|exists labels, eff, asgs; auto].
    split; [now rewrite repeat_length|]. split; [intros v []|]. intros v ls t E I. apply nth_error_In, repeat_spec in E. subst ls. destruct I.
  Qed.
End Compact.
