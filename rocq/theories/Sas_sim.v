(** Translation to SAS+: what sasPlus computes, and the actions in both representations. *)
From Verif Require Import Base Htn_problem Htn_spec To_spec Sas_model Sas_spec Sas_proof.

Section SP.
  Variables (P : problem) (V : list (nat * nat)) (S : sproblem).
  Definition same_fact (b b' : nat) : Prop := exists i d, fact_of V i d b /\ fact_of (sp_var S) i d b'.
  (** [e] is the fact added because the fact [b] of a variable with one fact is deleted. *)
  Definition neg_fact (b e : nat) : Prop := exists i, single V i /\ fact_of V i 0 b /\ fact_of (sp_var S) i 1 e.

  Record sp_ok : Prop := {
    so_len : length (sp_var S) = length V;
    so_int : exists n, intervals 0 (sp_var S) n;
    so_facts : forall i d b, fact_of V i d b -> exists e, fact_of (sp_var S) i d e;
    so_neg : forall i, single V i -> exists e, fact_of (sp_var S) i 1 e;
    so_prec_len : length (sp_prec S) = length (p_prec P);
    so_add_len : length (sp_add S) = length (p_add P);
    so_prec : forall a l', get (sp_prec S) a = Some l' -> exists l, nth_error (p_prec P) a = Some l /\ Forall2 same_fact l l';
    so_add : forall a l', get (sp_add S) a = Some l' -> exists la ld, nth_error (p_add P) a = Some la /\ nth_error (p_del P) a = Some ld /\
      (forall e, In e l' -> (exists b, In b la /\ same_fact b e) \/ (exists b, In b ld /\ neg_fact b e)) /\
      (forall b, In b la -> exists e, In e l' /\ same_fact b e) /\
      (forall b i, In b ld -> single V i -> fact_of V i 0 b -> exists e, In e l' /\ neg_fact b e);
    so_goal : Forall2 same_fact (p_goal P) (sp_goal S);
    so_s0_len : length (sp_s0 S) = length V;
    so_s0 : forall i e, nth_error (sp_s0 S) i = Some e ->
      (exists b, In b (p_s0 P) /\ of_var V i b /\ same_fact b e) \/
      (single V i /\ fact_of (sp_var S) i 1 e /\ forall b, of_var V i b -> ~ In b (p_s0 P)) }.
End SP.

Lemma s0_find_ok V : forall b0 n lim b j i d, intervals b0 V n -> fact_of V i d b -> i < lim -> lim <= length V -> s0_find V lim b j = Some (j + i).
Proof.
  induction V as [|v V IH]; intros b0 n lim b j i d H F L L2; [apply fact_of_lt in F; cbn in F; lia|]. destruct lim as [|lim]; [lia|]. cbn [s0_find].
  assert (R := fact_of_range _ _ _ _ _ _ H F). cbn [intervals] in H. destruct H as (E & Lv & H). destruct (Nat.ltb_spec b (fst v)) as [Q|_]; [lia|]. destruct i as [|i].
  - apply (proj1 (fact_of_0 _ _ _ _)) in F. rewrite Nat.add_0_r. destruct lim as [|lim]; cbn [s0_find]; [destruct V; reflexivity|]. destruct V as [|v' V']; [cbn in L2; lia|].
    cbn [intervals] in H. cbn [s0_find]. destruct (Nat.ltb_spec b (fst v')) as [_|Q]; [reflexivity|lia].
  - apply (proj1 (fact_of_cons _ _ _ _ _)) in F. cbn [length] in L2. rewrite (IH _ _ lim b (S j) i d H F); [f_equal; lia|lia|lia].
Qed.

Lemma nth_single V i f l : nth_error V i = Some (f, l) -> (single V i <-> f = l).
Proof. intros E. unfold single. rewrite E. split; [intros (x & [= -> ->]); auto|intros ->; eauto]. Qed.

Lemma no_adds_ok bits al dels : forall l, no_adds bits al dels = Some l ->
  (forall e, In e l -> exists d b, In d dels /\ get al d = Some true /\ get bits d = Some b /\ e = b + 1) /\
  (forall d b, In d dels -> get al d = Some true -> get bits d = Some b -> In (b + 1) l).
Proof.
  induction dels as [|d r IH]; intros l; cbn [no_adds]; [intros [= <-]; split; [intros e []|intros d b []]|].
  intros H. apply obind_some in H as (a & Ea & H). apply obind_some in H as (rest & Er & H). destruct (IH _ Er) as (A & B). destruct a.
  - apply obind_some in H as (b & Eb & H). injection H as <-. split.
    + intros e [<-|I]; [exists d, b; repeat split; auto; now left|]. destruct (A e I) as (d' & b' & I' & X). exists d', b'. split; [now right|exact X].
    + intros d' b' [<-|I] Ga Gb; [left; congruence|right; eauto].
  - injection H as <-. split.
    + intros e I. destruct (A e I) as (d' & b' & I' & X). exists d', b'. split; [now right|exact X].
    + intros d' b' [<-|I] Ga Gb; [congruence|eauto].
Qed.
Lemma no_adds_some bits al dels : (forall d, In d dels -> d < length bits /\ d < length al) -> exists l, no_adds bits al dels = Some l.
Proof.
  induction dels as [|d r IH]; cbn [no_adds]; intros H; [eauto|]. destruct (H d) as [L1 L2]; [now left|]. destruct (get_some _ _ L2) as (a & ->). destruct (get_some _ _ L1) as (b & ->). cbn [obind].
  destruct IH as (l & ->); [intros; apply H; now right|]. cbn [obind]. destruct a; eauto.
Qed.

Section Build.
  Variables (P : problem) (V : list (nat * nat)).
  Hypotheses (WF : wf_problem P) (IV : intervals 0 V (p_nfacts P)) (NV : V <> []) (OV : one_value V (initial_state P)) (S0 : s0_found P V).

  Lemma alone_iff i f l : nth_error V i = Some (f, l) -> (alone (f, l) = true <-> single V i).
  Proof. intros E. rewrite (nth_single _ _ _ _ E). unfold alone. cbn. apply Nat.eqb_eq. Qed.

  Lemma no_alone : existsb alone V = false -> forall i, ~ single V i.
  Proof.
    intros H i Q. destruct Q as (f & E). assert (X : existsb alone V = true); [|congruence]. apply existsb_exists. exists (f, f). split; [eapply nth_error_In; eauto|]. unfold alone. cbn. apply Nat.eqb_refl.
  Qed.

  Lemma in_range l f : In l (p_prec P) \/ In l (p_add P) \/ In l (p_del P) -> In f l -> f < p_nfacts P.
  Proof. apply (wf_facts P WF). Qed.

  Lemma plain_ok : existsb alone V = false ->
    sp_ok P V {| sp_var := V; sp_prec := p_prec P; sp_add := p_add P; sp_s0 := p_s0 P; sp_goal := p_goal P |}.
  Proof.
    intros H. assert (NS := no_alone H). assert (SF : forall b, b < p_nfacts P -> same_fact V {| sp_var := V; sp_prec := p_prec P; sp_add := p_add P; sp_s0 := p_s0 P; sp_goal := p_goal P |} b b).
    { intros b L. destruct (fact_of_exists _ _ _ b IV) as (i & d & F); [lia|]. exists i, d. auto. }
    destruct S0 as (_ & _ & S2). destruct (S2 NS) as (L0 & N0). assert (F2 : forall l, (forall x, In x l -> x < p_nfacts P) -> Forall2 (same_fact V {| sp_var := V; sp_prec := p_prec P; sp_add := p_add P; sp_s0 := p_s0 P; sp_goal := p_goal P |}) l l).
    { induction l as [|x l IH]; intros Q; constructor; [apply SF, Q; now left|apply IH; intros; apply Q; now right]. }
    split; cbn [sp_var sp_prec sp_add sp_s0 sp_goal]; auto.
    - eauto.
    - eauto.
    - intros i Q. now apply NS in Q.
    - intros a l' E. exists l'. split; auto. apply F2. intros x Hx. apply (in_range l'); auto. left. eapply nth_error_In; eauto.
    - intros a l' E. assert (La := get_lt _ _ _ E). rewrite (wf_add P WF), <- (wf_del P WF) in La. destruct (get_some _ _ La) as (ld & Ed). exists l', ld. repeat split; auto.
      + intros e He. left. exists e. split; auto. apply SF, (in_range l'); auto. right. left. eapply nth_error_In; eauto.
      + intros b Hb. exists b. split; auto. apply SF, (in_range l'); auto. right. left. eapply nth_error_In; eauto.
      + intros b i _ Q. now apply NS in Q.
    - apply F2. apply (wf_goal P WF).
    - intros i e E. left. exists e. split; [eapply nth_error_In; eauto|]. split; auto. destruct (N0 _ _ E) as (d & F). exists i, d. auto.
  Qed.

  Section Conv.
    Variables (bits : list nat) (al : list bool).
    Hypotheses (Eb : writes (repeat 0 (p_nfacts P)) (sp_bits 0 V) = Some bits) (Ea : writes (repeat false (p_nfacts P)) (sp_alone V) = Some al).

    Lemma bits_get b : b < p_nfacts P -> exists b' i d, get bits b = Some b' /\ fact_of V i d b /\ fact_of (sp_vars 0 V) i d b'.
    Proof.
      intros L. assert (X := sp_bits_fst V 0 0 _ IV). assert (N : NoDup (map fst (sp_bits 0 V))) by (rewrite X; apply seq_NoDup).
      assert (I : In b (map fst (sp_bits 0 V))) by (rewrite X; apply in_seq; lia). apply in_map_iff in I as ([x y] & Ex & I). cbn in Ex. subst x. exists y.
      assert (G := writes_get _ _ _ _ _ Eb N I). apply sp_bits_in in I as (i & d & F & F'). eauto 10.
    Qed.
    Lemma bits_len : length bits = p_nfacts P. Proof. rewrite (writes_length _ _ _ Eb). apply repeat_length. Qed.
    Lemma al_len : length al = p_nfacts P. Proof. rewrite (writes_length _ _ _ Ea). apply repeat_length. Qed.
    Lemma bits_fact b b' i d : get bits b = Some b' -> fact_of V i d b -> fact_of (sp_vars 0 V) i d b'.
    Proof.
      intros G F. assert (L := get_lt _ _ _ G). rewrite bits_len in L. destruct (bits_get b L) as (b2 & i2 & d2 & G2 & F2 & F3). destruct (fact_of_inj _ _ _ _ _ _ _ _ IV F F2). subst. congruence.
    Qed.
    Lemma al_true b : get al b = Some true <-> exists i, single V i /\ fact_of V i 0 b.
    Proof.
      split.
      - intros G. destruct (in_dec Nat.eq_dec b (map fst (sp_alone V))) as [I|N].
        + apply in_map_iff in I as ([x y] & Ex & I). cbn in Ex. subst x. apply in_map_iff in I as ([f l] & [= <- <-] & I). apply filter_In in I as [I A]. apply In_nth_error in I as (i & E). exists i.
          apply (proj1 (alone_iff _ _ _ E)) in A. split; auto. assert (Q := A). apply (proj1 (nth_single _ _ _ _ E)) in Q. subst l. exists f, f. repeat split; auto; lia.
        + rewrite (writes_other _ _ _ _ Ea N) in G. apply nth_error_In, repeat_spec in G. discriminate.
      - intros (i & Q & (f & l & E & E2 & E3)). assert (A := Q). apply (proj2 (alone_iff _ _ _ E)) in A. apply (proj1 (nth_single _ _ _ _ E)) in Q. subst l. assert (b = f) by lia. subst f.
        assert (ND : NoDup (map fst (sp_alone V))).
        { unfold sp_alone. rewrite map_map. cbn. clear - IV. generalize (p_nfacts P) as n, 0 as b0, IV. clear IV. induction V as [|v W IH]; cbn [filter map intervals]; intros n b0 H; [constructor|]. destruct H as (Ev & L & H).
          assert (Y := IH _ _ H). destruct (alone v); cbn [map]; auto. constructor; auto. intros I. apply in_map_iff in I as (w & Ew & I). apply filter_In in I as [I _]. apply In_nth_error in I as (i & E).
          assert (F : exists d, fact_of W i d (fst w)) by (exists 0, (fst w), (snd w); split; [now rewrite E; destruct w|]; split; [lia|]; clear - H E; revert i n H E; generalize (S (snd v)) as b; induction W as [|u U IHU]; intros b [|i] n H E; cbn in *; try discriminate; [injection E as ->; lia|destruct H as (_ & _ & H); eapply IHU; eauto]).
          destruct F as (d & F). apply (fact_of_range _ _ _ _ _ _ H) in F. lia. }
        refine (writes_get _ _ _ _ _ Ea ND _). apply in_map_iff. exists (b, b). split; auto. apply filter_In. split; auto. eapply nth_error_In; eauto.
    Qed.
    Lemma neg_next b b' i : single V i -> fact_of V i 0 b -> get bits b = Some b' -> fact_of (sp_vars 0 V) i 1 (b' + 1).
    Proof.
      intros Q F G. apply (bits_fact _ _ _ _ G) in F. destruct F as (f' & l' & E' & E2 & E3). destruct Q as (f & E). destruct (sp_vars_nth V 0 _ _ _ E) as (o & E4). rewrite Nat.eqb_refl in E4. cbn in E4.
      rewrite E' in E4. injection E4 as -> ->. exists (f + o), (f + o + 1). repeat split; auto; lia.
    Qed.

    Variables (precs adds : list (list nat)) (s0 g : list nat).
    Hypotheses
      (Ep : omap (omap (get bits)) (p_prec P) = Some precs)
      (Ed : omap (fun ad => a <- omap (get bits) (fst ad) ;; d <- no_adds bits al (snd ad) ;; Some (a ++ d)) (combine (p_add P) (p_del P)) = Some adds)
      (Es : ofold (fun s b => j <- s0_find V (length (p_s0 P)) b 0 ;; b' <- get bits b ;; set s j b') (p_s0 P) (map snd (sp_vars 0 V)) = Some s0)
      (Eg : omap (get bits) (p_goal P) = Some g).
    Let S := {| sp_var := sp_vars 0 V; sp_prec := precs; sp_add := adds; sp_s0 := s0; sp_goal := g |}.

    Lemma get_same b b' : get bits b = Some b' -> same_fact V S b b'.
    Proof. intros G. assert (L := get_lt _ _ _ G). rewrite bits_len in L. destruct (bits_get b L) as (b2 & i & d & G2 & F & F'). rewrite G in G2. injection G2 as ->. exists i, d. auto. Qed.
    Lemma omap_same l l' : omap (get bits) l = Some l' -> Forall2 (same_fact V S) l l'.
    Proof. intros H. apply omap_f2 in H. induction H; constructor; auto. now apply get_same. Qed.

    Lemma s0_fold done : forall todo s, p_s0 P = done ++ todo ->
      ofold (fun s b => j <- s0_find V (length (p_s0 P)) b 0 ;; b' <- get bits b ;; set s j b') todo s = Some s0 ->
      length s = length V ->
      (forall i e, nth_error s i = Some e -> (exists b, In b done /\ of_var V i b /\ same_fact V S b e) \/ (nth_error (map snd (sp_vars 0 V)) i = Some e /\ forall b, of_var V i b -> ~ In b done)) ->
      length s0 = length V /\ forall i e, nth_error s0 i = Some e -> (exists b, In b (p_s0 P) /\ of_var V i b /\ same_fact V S b e) \/ (nth_error (map snd (sp_vars 0 V)) i = Some e /\ forall b, of_var V i b -> ~ In b (p_s0 P)).
    Proof.
      intros todo. revert done. induction todo as [|b todo IH]; intros done s E H L Inv.
      - cbn in H. injection H as ->. rewrite app_nil_r in E. rewrite E. auto.
      - cbn [ofold] in H. apply obind_some in H as (s1 & H1 & H). apply obind_some in H1 as (j & Ej & H1). apply obind_some in H1 as (b' & Eb' & H1).
        assert (Ib : In b (p_s0 P)) by (rewrite E; apply in_or_app; right; now left). assert (Lb := wf_s0 P WF _ Ib). destruct (fact_of_exists _ _ _ b IV) as (i & d & F); [lia|].
        destruct S0 as (SL & S1 & _). assert (Li := S1 i b Ib (ex_intro _ d F)). rewrite (s0_find_ok V 0 _ _ b 0 i d IV F Li SL) in Ej. cbn in Ej. injection Ej as <-.
        apply (IH (done ++ [b]) s1); auto; [rewrite <- app_assoc; exact E|now rewrite (set_length _ _ _ _ H1)|]. intros k e Ek. destruct (Nat.eq_dec i k) as [->|N].
        + assert (G := get_set_eq _ _ _ _ H1). unfold get in G. rewrite G in Ek. injection Ek as <-. left. exists b. split; [apply in_or_app; right; now left|]. split; [now exists d|now apply get_same].
        + assert (G := get_set_neq _ _ _ _ _ H1 N). unfold get in G. rewrite G in Ek. destruct (Inv _ _ Ek) as [(c & Hc & X)|(Q & X)]; [left; exists c; split; [apply in_or_app; now left|exact X]|right].
          split; auto. intros c Hc I. apply in_app_or in I as [I|[<-|[]]]; [eapply X; eauto|]. destruct Hc as (d' & F'). destruct (fact_of_inj _ _ _ _ _ _ _ _ IV F F'). auto.
    Qed.

    Lemma conv_sp_ok : sp_ok P V S.
    Proof.
      split; unfold S; cbn [sp_var sp_prec sp_add sp_s0 sp_goal]; fold S.
      - apply sp_vars_length.
      - destruct (sp_vars_intervals V 0 _ _ IV) as (n' & I). eauto.
      - intros i d b (f & l & E & Eb' & L). destruct (sp_vars_nth V 0 _ _ _ E) as (o & E'). exists (f + o + d), (f + o), (l + o + b2n (f =? l)). repeat split; auto. lia.
      - intros i (f & E). destruct (sp_vars_nth V 0 _ _ _ E) as (o & E'). rewrite Nat.eqb_refl in E'. cbn [b2n] in E'. exists (f + o + 1), (f + o), (f + o + 1). repeat split; auto.
      - now apply omap_length in Ep.
      - apply omap_length in Ed. rewrite Ed, combine_length, (wf_add P WF), (wf_del P WF). lia.
      - intros a l' E. rewrite (omap_get _ _ _ Ep) in E. apply obind_some in E as (l & El & E). exists l. split; auto. now apply omap_same.
      - intros a l' E. rewrite (omap_get _ _ _ Ed) in E. apply obind_some in E as ([la ld] & El & E). cbn [fst snd] in E. apply obind_some in E as (xa & Ea' & E). apply obind_some in E as (xd & Ed' & E). injection E as <-.
        assert (X : nth_error (p_add P) a = Some la /\ nth_error (p_del P) a = Some ld).
        { clear - El. unfold get in El. revert a El. generalize (p_del P) as B. induction (p_add P) as [|x A IH]; intros [|y B] [|a]; cbn; intros E; try discriminate; [injection E as -> ->; auto|]. now apply IH in E. }
        destruct X as [Xa Xd]. exists la, ld. destruct (no_adds_ok _ _ _ _ Ed') as (D1 & D2). repeat split; auto.
        + intros e He. apply in_app_or in He as [He|He].
          * left. destruct (omap_in _ _ _ _ Ea' He) as (b & Hb & G). exists b. split; auto. now apply get_same.
          * right. destruct (D1 _ He) as (d & b & Hd & Gd & Gb & ->). exists d. split; auto. apply (proj1 (al_true _)) in Gd as (i & Q & F). exists i. split; auto. split; auto. now apply (neg_next d).
        + intros b Hb. destruct (omap_in' _ _ _ _ Ea' Hb) as (e & He & G). exists e. split; [apply in_or_app; now left|]. now apply get_same.
        + intros b i Hb Q F. assert (Lb : b < p_nfacts P) by (apply (in_range ld); auto; right; right; eapply nth_error_In; eauto). destruct (bits_get b Lb) as (b' & _ & _ & G & _ & _).
          exists (b' + 1). split; [apply in_or_app; right; apply (D2 b); auto; apply al_true; eauto|]. exists i. split; auto. split; auto. now apply (neg_next b).
      - now apply omap_same.
      - refine (proj1 (s0_fold [] (p_s0 P) (map snd (sp_vars 0 V)) eq_refl Es _ _)); [now rewrite map_length, sp_vars_length|]. intros i e E. right. split; auto.
      - intros i e E. assert (X := proj2 (s0_fold [] (p_s0 P) (map snd (sp_vars 0 V)) eq_refl Es ltac:(now rewrite map_length, sp_vars_length) ltac:(intros k x Ek; right; split; auto))).
        destruct (X i e E) as [Y|(Y & Z)]; auto. right. rewrite nth_error_map in Y. destruct (nth_error (sp_vars 0 V) i) as [[f' l']|] eqn:En; [|discriminate]. cbn in Y. injection Y as ->.
        assert (Li : i < length V) by (rewrite <- (sp_vars_length V 0); apply nth_error_Some; congruence). destruct (nth_error V i) as [[f l]|] eqn:Ev; [|apply nth_error_None in Ev; lia].
        destruct (sp_vars_nth V 0 _ _ _ Ev) as (o & E4). rewrite En in E4. injection E4 as -> ->. destruct (single_dec V i) as [Q|Q].
        + split; auto. split; auto. apply (proj1 (nth_single _ _ _ _ Ev)) in Q. subst l. rewrite Nat.eqb_refl. cbn. exists (f + o), (f + o + 1). rewrite En, Nat.eqb_refl. cbn [b2n]. repeat split; auto; lia.
        + exfalso. destruct (OV i Li Q) as (b & Hb & U). apply (Z b Hb). assert (Y : initial_state P b) by (apply U; auto). exact Y.
    Qed.
  End Conv.

  Lemma sas_plus_ok : exists S, sas_plus P V = Some S /\ sp_ok P V S.
  Proof.
    unfold sas_plus. destruct V as [|v0 V0] eqn:EV; [congruence|]. rewrite <- EV in *. destruct (existsb alone V) eqn:EA.
    2: { eexists. split; [reflexivity|]. now apply plain_ok. }
    destruct (writes_some (sp_bits 0 V) (repeat 0 (p_nfacts P))) as (bits & Eb).
    { intros w Hw. rewrite repeat_length. apply (in_map fst) in Hw. rewrite (sp_bits_fst V 0 0 _ IV) in Hw. apply in_seq in Hw. lia. }
    destruct (writes_some (sp_alone V) (repeat false (p_nfacts P))) as (al & Ea).
    { intros w Hw. rewrite repeat_length. apply in_map_iff in Hw as ([f l] & <- & Hw). apply filter_In in Hw as [I A]. apply In_nth_error in I as (i & E). cbn. apply (proj1 (alone_iff _ _ _ E)) in A. apply (proj1 (nth_single _ _ _ _ E)) in A. subst l.
      assert (F : fact_of V i 0 f) by (exists f, f; repeat split; auto; lia). apply (fact_of_range _ _ _ _ _ _ IV) in F. lia. }
    rewrite Eb, Ea. cbn [obind]. assert (GB : forall l, (forall x, In x l -> x < p_nfacts P) -> exists l', omap (get bits) l = Some l').
    { intros l Hl. apply omap_some. intros x Hx. apply get_some. rewrite (bits_len _ Eb). auto. }
    destruct (omap_some (omap (get bits)) (p_prec P)) as (precs & Ep); [intros l Hl; apply GB; intros x; apply in_range; auto|]. rewrite Ep. cbn [obind].
    destruct (omap_some (fun ad => a <- omap (get bits) (fst ad) ;; d <- no_adds bits al (snd ad) ;; Some (a ++ d)) (combine (p_add P) (p_del P))) as (adds & Ed).
    { intros [la ld] Hl. cbn [fst snd]. destruct (GB la) as (xa & ->); [intros x; apply in_range; right; left; now apply in_combine_l in Hl|]. cbn [obind].
      destruct (no_adds_some bits al ld) as (xd & ->); [|cbn; eauto]. intros d Hd. rewrite (bits_len _ Eb), (al_len _ Ea). split; (apply (in_range ld); [right; right; now apply in_combine_r in Hl|auto]). }
    rewrite Ed. cbn [obind].
    assert (ES : exists s0, ofold (fun s b => j <- s0_find V (length (p_s0 P)) b 0 ;; b' <- get bits b ;; set s j b') (p_s0 P) (map snd (sp_vars 0 V)) = Some s0).
    { assert (X : forall todo s, incl todo (p_s0 P) -> length s = length V -> exists s0, ofold (fun s b => j <- s0_find V (length (p_s0 P)) b 0 ;; b' <- get bits b ;; set s j b') todo s = Some s0).
      { induction todo as [|b todo IH]; intros s I L; cbn [ofold]; [eauto|]. assert (Ib : In b (p_s0 P)) by (apply I; now left). assert (Lb := wf_s0 P WF _ Ib). destruct (fact_of_exists _ _ _ b IV) as (i & d & F); [lia|].
        destruct S0 as (SL & S1 & _). assert (Li := S1 i b Ib (ex_intro _ d F)). rewrite (s0_find_ok V 0 _ _ b 0 i d IV F Li SL). cbn [obind Nat.add]. destruct (get_some bits b) as (b' & ->); [now rewrite (bits_len _ Eb)|]. cbn [obind].
        destruct (set_some s i b') as (s1 & E1); [rewrite L; eapply fact_of_lt; eauto|]. rewrite E1. cbn [obind]. apply IH; [intros x Hx; apply I; now right|now rewrite (set_length _ _ _ _ E1)]. }
      apply X; [apply incl_refl|now rewrite map_length, sp_vars_length]. }
    destruct ES as (s0 & Es). rewrite Es. cbn [obind]. destruct (GB (p_goal P) (wf_goal P WF)) as (g & Eg). rewrite Eg. cbn [obind].
    eexists. split; [reflexivity|]. eapply conv_sp_ok; eauto.
  Qed.
End Build.
