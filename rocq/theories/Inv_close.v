(** Invariants from the parsed groups: resolution and inference from SAS+ variables keep them true, and end. *)
From Coq Require Import ZArith Lia Bool Permutation.
From Verif Require Import Base Htn_problem Htn_spec Inv_model Inv_spec Inv_rint.
Local Open Scope Z_scope.

Definition known (n : nat) (bi : list (list Z)) (a b : Z) : Prop := exists s, at_lit n bi a = Some s /\ In b s.
Record bi_ok (n : nat) (bi : list (list Z)) : Prop := {
  bo_len : length bi = (2 * n)%nat;
  bo_in : forall s x, In s bi -> In x s -> lit_in n x;
  bo_nodup : forall s, In s bi -> NoDup s;
  bo_sym : forall a b, known n bi a b -> known n bi b a }.
Definition size (bi : list (list Z)) : nat := list_sum (map (@length Z) bi).

Lemma at_lit_some {A} n (bi : list A) l : length bi = (2 * n)%nat -> lit_in n l -> exists s, at_lit n bi l = Some s.
Proof. unfold at_lit, lit_in. intros L H. destruct (Z.ltb_spec (l + Z.of_nat n) 0); [lia|]. apply get_some. lia. Qed.
Lemma at_lit_range {A} n (bi : list A) l s : length bi = (2 * n)%nat -> at_lit n bi l = Some s -> lit_in n l /\ In s bi.
Proof. unfold at_lit, lit_in. intros L H. destruct (Z.ltb_spec (l + Z.of_nat n) 0); [discriminate|]. split; [apply get_lt in H; lia|]. eapply nth_error_In; eauto. Qed.
Lemma set_lit_some {A} n (bi : list A) l x : length bi = (2 * n)%nat -> lit_in n l -> exists bi', set_lit n bi l x = Some bi'.
Proof. unfold set_lit, lit_in. intros L H. destruct (Z.ltb_spec (l + Z.of_nat n) 0); [lia|]. apply set_some. lia. Qed.
Lemma set_lit_at {A} n (bi : list A) l x bi' k : set_lit n bi l x = Some bi' -> lit_in n k -> at_lit n bi' k = if k =? l then Some x else at_lit n bi k.
Proof.
  unfold set_lit, at_lit, lit_in. intros H K. destruct (Z.ltb_spec (l + Z.of_nat n) 0); [discriminate|]. destruct (Z.ltb_spec (k + Z.of_nat n) 0); [lia|].
  destruct (Z.eqb_spec k l) as [->|N]. - apply (get_set_eq _ _ _ _ H). - apply (get_set_neq _ _ _ _ _ H). lia.
Qed.
Lemma set_lit_length {A} n (bi : list A) l x bi' : set_lit n bi l x = Some bi' -> length bi' = length bi.
Proof. unfold set_lit. destruct (l + Z.of_nat n <? 0); [discriminate|]. apply set_length. Qed.
Lemma set_in {A} : forall (l : list A) i x l' y, set l i x = Some l' -> In y l' -> y = x \/ In y l.
Proof. induction l; intros [|i] x l' y E H; cbn in E; try discriminate. - inversion E; subst. destruct H as [<-|H]; auto. right. now right. - destruct (set l i x) eqn:F; [|discriminate]. cbn in E. inversion E; subst. destruct H as [<-|H]. + right. now left. + destruct (IHl _ _ _ _ F H); auto. right. now right. Qed.
Lemma set_size : forall bi i s l bi', get bi i = Some s -> set bi i l = Some bi' -> (size bi' + length s = size bi + length l)%nat.
Proof.
  unfold size. induction bi; intros [|i] s l bi' G E; cbn in G, E; try discriminate.
  - inversion G; inversion E; subst. cbn. lia.
  - destruct (set bi i l) eqn:F; [|discriminate]. cbn in E. inversion E; subst. specialize (IHbi i s l l0 G F). cbn [map list_sum fold_right] in *. unfold list_sum in *. cbn [fold_right]. lia.
Qed.
Lemma count_in s x : count s x = true <-> In x s.
Proof. unfold count. rewrite existsb_exists. split. - intros [y [H E]]. apply Z.eqb_eq in E. congruence. - intros H. exists x. split; auto. apply Z.eqb_refl. Qed.
Lemma count_false s x : count s x = false <-> ~ In x s.
Proof. rewrite <- not_true_iff_false, count_in. tauto. Qed.
Lemma sadd_in x s y : In y (sadd x s) <-> y = x \/ In y s.
Proof. unfold sadd. destruct (count s x) eqn:E. - apply count_in in E. split; auto. intros [->|]; auto. - rewrite in_app_iff. cbn. intuition. Qed.
Lemma sadd_nodup x s : NoDup s -> NoDup (sadd x s).
Proof. unfold sadd. destruct (count s x) eqn:E; auto. apply count_false in E. intros N. apply nodup_app_iff. split; auto. split. - constructor; [intros []|constructor]. - intros y H [<-|[]]. auto. Qed.
Lemma sadd_length x s : length (sadd x s) = (length s + if count s x then 0 else 1)%nat.
Proof. unfold sadd. destruct (count s x); [lia|]. rewrite app_length. cbn. lia. Qed.

Lemma insert_ok n bi a b : bi_ok n bi -> lit_in n a -> lit_in n b ->
  exists bi', insert_invariant n bi a b = Some bi' /\ bi_ok n bi' /\
    (forall x y, known n bi' x y <-> known n bi x y \/ x = a /\ y = b \/ x = b /\ y = a) /\
    (size bi <= size bi')%nat /\ (~ known n bi a b -> (size bi < size bi')%nat).
Proof.
  intros [L I N S] Ra Rb. unfold insert_invariant. destruct (at_lit_some n bi a L Ra) as [s Es]. rewrite Es. cbn [obind].
  destruct (set_lit_some n bi a (sadd b s) L Ra) as [bi1 E1]. rewrite E1. cbn [obind]. assert (L1 : length bi1 = (2 * n)%nat) by (rewrite (set_lit_length _ _ _ _ _ E1); auto).
  destruct (at_lit_some n bi1 b L1 Rb) as [t Et]. rewrite Et. cbn [obind]. destruct (set_lit_some n bi1 b (sadd a t) L1 Rb) as [bi2 E2]. exists bi2. split; auto.
  assert (L2 : length bi2 = (2 * n)%nat) by (rewrite (set_lit_length _ _ _ _ _ E2); auto).
  assert (K : forall x y, known n bi2 x y <-> known n bi x y \/ x = a /\ y = b \/ x = b /\ y = a).
  { intros x y. assert (D : lit_in n x \/ ~ lit_in n x) by (unfold lit_in; lia). destruct D as [Rx|Nx].
    - unfold known. pose proof (set_lit_at n bi1 b (sadd a t) bi2 x E2 Rx) as H2. pose proof (set_lit_at n bi a (sadd b s) bi1 x E1 Rx) as H1.
      pose proof (set_lit_at n bi a (sadd b s) bi1 b E1 Rb) as Hb. rewrite Et in Hb. rewrite H2. clear H2.
      destruct (Z.eqb_spec x b) as [->|Nb].
      + assert (T : forall z, In z t <-> (exists s0, at_lit n bi b = Some s0 /\ In z s0) \/ b = a /\ z = b).
        { intros z. destruct (Z.eqb_spec b a) as [->|Nba].
          - assert (t = sadd a s) by congruence. subst t. rewrite sadd_in. split. + intros [->|H]; auto. left. eauto. + intros [[s0 [E H]]|[_ ->]]; auto. right. congruence.
          - split. + intros H. left. exists t. split; auto. + intros [[s0 [E H]]|[E _]]; [congruence|contradiction]. }
        split.
        * intros [u [E H]]. assert (u = sadd a t) by congruence. subst u. apply sadd_in in H. destruct H as [->|H]; auto. apply T in H. destruct H as [H|[H1' H2']]; auto.
        * intros H. exists (sadd a t). split; auto. apply sadd_in. destruct H as [H|[[H1' H2']|[_ H]]]; auto. -- right. apply T. auto. -- right. apply T. right. auto.
      + rewrite H1. destruct (Z.eqb_spec x a) as [->|Na].
        * split. -- intros [u [E H]]. assert (u = sadd b s) by congruence. subst u. apply sadd_in in H. destruct H as [->|H]; auto. left. eauto.
          -- intros [[u [E H]]|[[_ ->]|[? _]]]; [| |contradiction]; exists (sadd b s); split; auto; apply sadd_in; auto. right. congruence.
        * split; [intros H; left; auto|]. intros [H|[[? _]|[? _]]]; auto; contradiction.
    - split. + intros [u [E _]]. exfalso. apply Nx. eapply at_lit_range; eauto. + intros [[u [E _]]|[[-> _]|[-> _]]]; exfalso; apply Nx; auto. eapply at_lit_range; [exact L|eauto]. }
  split; [|split; [exact K|]].
  - split; auto.
    + intros u x Hu Hx. unfold set_lit in E1, E2. destruct (b + Z.of_nat n <? 0) eqn:?; [discriminate|]. destruct (a + Z.of_nat n <? 0) eqn:?; [discriminate|].
      assert (I1 : forall u x, In u bi1 -> In x u -> lit_in n x).
      { intros v z Hv Hz. destruct (set_in _ _ _ _ _ E1 Hv) as [->|Hv']; eauto. apply sadd_in in Hz. destruct Hz as [->|Hz]; auto. eapply I; [|exact Hz]. eapply at_lit_range; eauto. }
      destruct (set_in _ _ _ _ _ E2 Hu) as [->|Hu']; eauto. apply sadd_in in Hx. destruct Hx as [->|Hx]; auto. eapply I1; [|exact Hx]. eapply at_lit_range; eauto.
    + intros u Hu. unfold set_lit in E1, E2. destruct (b + Z.of_nat n <? 0) eqn:?; [discriminate|]. destruct (a + Z.of_nat n <? 0) eqn:?; [discriminate|].
      assert (I1 : forall u, In u bi1 -> NoDup u).
      { intros v Hv. destruct (set_in _ _ _ _ _ E1 Hv) as [->|Hv']; eauto. apply sadd_nodup. apply N. eapply at_lit_range; eauto. }
      destruct (set_in _ _ _ _ _ E2 Hu) as [->|Hu']; eauto. apply sadd_nodup. apply I1. eapply at_lit_range; eauto.
    + intros x y H. apply K in H. apply K. destruct H as [H|[[-> ->]|[-> ->]]]; auto.
  - unfold set_lit, at_lit in *. destruct (b + Z.of_nat n <? 0) eqn:?; [discriminate|]. destruct (a + Z.of_nat n <? 0) eqn:?; [discriminate|].
    pose proof (set_size _ _ _ _ _ Es E1) as Z1. pose proof (set_size _ _ _ _ _ Et E2) as Z2. rewrite sadd_length in Z1, Z2. split; [lia|].
    intros H. destruct (count s b) eqn:C; [|lia]. exfalso. apply H. exists s. split; [|apply count_in; auto]. unfold at_lit. now rewrite Heqb1.
Qed.

Lemma size_bound n bi : bi_ok n bi -> (size bi <= 2 * n * (2 * n))%nat.
Proof.
  intros [L I N _]. rewrite <- L at 1. assert (forall s, In s bi -> (length s <= 2 * n)%nat).
  { intros s Hs. transitivity (length (map (fun i => Z.of_nat i - Z.of_nat n) (seq 0 (2 * n)))); [|rewrite map_length, seq_length; lia].
    apply NoDup_incl_length; [auto|]. intros x Hx. apply in_map_iff. specialize (I s x Hs Hx). unfold lit_in in I. exists (Z.to_nat (x + Z.of_nat n)). split; [lia|]. apply in_seq. lia. }
  unfold size, list_sum. clear L I N. revert H. generalize (2 * n)%nat as K. intros K H. induction bi as [|s r IH]; cbn [map fold_right length]; [lia|].
  assert (length s <= K)%nat by (apply H; now left). assert (fold_right Nat.add 0%nat (map (@length Z) r) <= length r * K)%nat by (apply IH; intros; apply H; now right). nia.
Qed.

Section Sound.
Variable n : nat.
Variable Sig : state -> Prop.
Definition valid (a b : Z) : Prop := forall s, Sig s -> lit_holds s a \/ lit_holds s b.
Definition bi_sound (bi : list (list Z)) : Prop := forall a b, known n bi a b -> valid a b.
(** Every literal is false in one of the states. *)
Definition varied : Prop := forall l, lit_in n l -> exists s, Sig s /\ ~ lit_holds s l.
Definition q_ok (q : list (Z * Z)) : Prop := forall a b, In (a, b) q -> lit_in n a /\ lit_in n b /\ valid a b.
Definition good (st : list (list Z) * list (Z * Z)) : Prop := bi_ok n (fst st) /\ bi_sound (fst st) /\ q_ok (snd st).
Definition left (st : list (list Z) * list (Z * Z)) : nat := (2 * n * (2 * n) - size (fst st) + length (snd st))%nat.
Definition grows (st st' : list (list Z) * list (Z * Z)) : Prop := forall a b, known n (fst st) a b -> known n (fst st') a b.

(** [r] is a step from [st] *)
Definition step_ok (st : list (list Z) * list (Z * Z)) (r : option (list (list Z) * list (Z * Z))) : Prop :=
  (varied -> r <> None) /\ forall st', r = Some st' -> good st' /\ (left st' <= left st)%nat /\ grows st st'.

Lemma good_insert bi q a b : good (bi, q) -> lit_in n a -> lit_in n b -> valid a b -> ~ known n bi a b ->
  exists bi', insert_invariant n bi a b = Some bi' /\ good (bi', q ++ [(a, b)]) /\ (left (bi', q ++ [(a, b)]) <= left (bi, q))%nat /\ grows (bi, q) (bi', q ++ [(a, b)]).
Proof.
  intros [O [S Q]] Ra Rb V K. cbn [fst snd] in *. destruct (insert_ok n bi a b O Ra Rb) as [bi' [E [O' [KK [_ Z]]]]]. specialize (Z K). exists bi'. split; auto. split; [|split].
  - split; [exact O'|]. split; cbn [fst snd].
    + intros x y H. apply KK in H. destruct H as [H|[[-> ->]|[-> ->]]]; auto. intros s Hs. destruct (V s Hs); auto.
    + intros x y H. apply in_app_iff in H. destruct H as [H|[H|[]]]; auto. inversion H; subst. auto.
  - unfold left; cbn [fst snd]. rewrite app_length. cbn. pose proof (size_bound n bi O). pose proof (size_bound n bi' O'). lia.
  - intros x y H. apply KK. auto.
Qed.

Lemma resolve_with_ok x y st j : good st -> lit_in n x -> lit_in n y -> valid x y -> known n (fst st) (- x - 1) j -> step_ok st (resolve_with n x y st j).
Proof.
  intros G Rx Ry V K. unfold resolve_with. destruct st as [bi q]. cbn [fst] in K.
  assert (SK : step_ok (bi, q) (Some (bi, q))). { split; [discriminate|]. intros st' E. inversion E; subst. split; [assumption|split; [lia|intros ? ?; auto]]. }
  destruct (- j - 1 =? y); [exact SK|]. destruct G as [O [S Q]]. cbn [fst snd] in *. destruct (at_lit_some n bi y (bo_len _ _ O) Ry) as [s Es]. rewrite Es. cbn [obind].
  destruct (count s j) eqn:C; [exact SK|]. apply count_false in C.
  assert (VV : valid y j). { intros u Hu. destruct (V u Hu) as [H1|]; auto. destruct (S _ _ K u Hu) as [H2|]; auto. exfalso. exact (lit_neg u x H1 H2). }
  destruct (Z.eqb_spec j (- x - 1)) as [->|Nj].
  - split; [|discriminate]. intros W. exfalso. destruct (W (- x - 1)) as [u [Hu Nu]]; [unfold lit_in in *; lia|]. apply Nu. destruct (S _ _ K u Hu); auto.
  - assert (Rj : lit_in n j). { destruct K as [s' [Es' Hj]]. eapply (bo_in _ _ O); [|exact Hj]. eapply at_lit_range; [apply (bo_len _ _ O)|exact Es']. }
    destruct (good_insert bi q y j (conj O (conj S Q)) Ry Rj VV) as [bi' [E [G' [L' GR]]]]. { intros [s' [Es' H]]. apply C. congruence. }
    rewrite E. cbn [obind]. split; [discriminate|]. intros st' E'. inversion E'; subst. auto.
Qed.

Variable order : list Z -> list Z.
Hypothesis ORD : forall l, Permutation (order l) l.

Lemma step_fold {A} (f : list (list Z) * list (Z * Z) -> A -> option (list (list Z) * list (Z * Z))) (ok : A -> list (list Z) * list (Z * Z) -> Prop) :
  (forall st x, good st -> ok x st -> step_ok st (f st x)) -> (forall st st' x, ok x st -> grows st st' -> ok x st') ->
  forall l st, good st -> (forall x, In x l -> ok x st) -> step_ok st (ofold f l st).
Proof.
  intros F MO. induction l as [|x r IH]; intros st G H; cbn [ofold].
  - split; [discriminate|]. intros st' E. inversion E; subst. split; [assumption|split; [lia|intros ? ?; auto]].
  - destruct (F st x G (H x (or_introl eq_refl))) as [D C]. destruct (f st x) as [st1|]; cbn [obind].
    + destruct (C st1 eq_refl) as [G1 [L1 GR1]]. destruct (IH st1 G1) as [D2 C2]. { intros y Hy. eapply MO; [|exact GR1]. apply H. now right. }
      split; auto. intros st' E. destruct (C2 st' E) as [G2 [L2 GR2]]. split; auto. split; [lia|]. intros a b K. auto.
    + split; [auto|discriminate].
Qed.

Lemma resolve_ok x y st : good st -> lit_in n x -> lit_in n y -> valid x y -> step_ok st (resolve order n x y st).
Proof.
  intros G Rx Ry V. unfold resolve. destruct (at_lit_some n (fst st) (- x - 1) (bo_len _ _ (proj1 G))) as [s Es]; [unfold lit_in in *; lia|]. rewrite Es. cbn [obind].
  apply (step_fold (resolve_with n x y) (fun j st => known n (fst st) (- x - 1) j)); auto.
  - intros st' j G' K. apply resolve_with_ok; auto.
  - intros j Hj. exists s. split; auto. eapply Permutation_in; [apply ORD|exact Hj].
Qed.

Lemma resolution_ok : forall fuel bi q, good (bi, q) -> (left (bi, q) < fuel)%nat ->
  (varied -> resolution order n fuel bi q <> None) /\
  forall bi', resolution order n fuel bi q = Some bi' -> good (bi', []) /\ (left (bi', []) + (match q with [] => 0 | _ => 1 end) <= left (bi, q))%nat /\ grows (bi, q) (bi', []).
Proof.
  induction fuel as [|fuel IH]; intros bi q G L; [lia|]. cbn [resolution]. destruct q as [|[a b] r].
  - split; [discriminate|]. intros bi' E. inversion E; subst. split; [exact G|]. split; [lia|]. intros ? ?; auto.
  - destruct G as [O [S Q]]. cbn [fst snd] in *. destruct (Q a b (or_introl eq_refl)) as [Ra [Rb V]].
    assert (G0 : good (bi, r)) by (split; auto; split; auto; intros x y H; apply Q; now right).
    assert (L0 : (left (bi, r) + 1 = left (bi, (a, b) :: r))%nat) by (unfold left; cbn [fst snd length]; lia).
    destruct (resolve_ok a b (bi, r) G0 Ra Rb V) as [D1 C1]. destruct (resolve order n a b (bi, r)) as [st1|]; cbn [obind]; [|split; [let W := fresh in intros W; exfalso; match goal with D : varied -> None <> None |- _ => exact (D W eq_refl) end|discriminate]].
    destruct (C1 st1 eq_refl) as [G1 [L1 GR1]].
    destruct (resolve_ok b a st1 G1 Rb Ra) as [D2 C2]. { intros u Hu. destruct (V u Hu); auto. }
    destruct (resolve order n b a st1) as [[bi2 q2]|]; cbn [obind]; [|split; [let W := fresh in intros W; exfalso; match goal with D : varied -> None <> None |- _ => exact (D W eq_refl) end|discriminate]].
    destruct (C2 (bi2, q2) eq_refl) as [G2 [L2 GR2]]. destruct (IH bi2 q2 G2) as [D3 C3]; [lia|]. split; auto. intros bi' E. destruct (C3 bi' E) as [G3 [L3 GR3]].
    split; auto. split; [destruct q2; lia|]. intros x y K. apply GR3. apply GR2. apply GR1. exact K.
Qed.

Variable X : parsed.
Hypothesis IO : input_ok n (x_sas X) (x_strict X) (x_mutex X) (x_inv X).
Hypothesis IH : forall s, Sig s -> input_holds (x_sas X) (x_strict X) (x_mutex X) (x_inv X) s.

Lemma sas_infer_ok st i x : good st -> (i < 2 * n)%nat -> In x (x_sas X) -> step_ok st (sas_infer n st (i, x)).
Proof.
  intros G Hi Hx. unfold sas_infer. destruct st as [bi q], x as [first last].
  assert (SK : step_ok (bi, q) (Some (bi, q))). { split; [discriminate|]. intros st' E. inversion E; subst. split; [assumption|split; [lia|intros ? ?; auto]]. }
  destruct (Nat.eqb_spec first last) as [E|N]; [exact SK|]. set (l := Z.of_nat i - Z.of_nat n). destruct (Nat.leb first (lfact l) && Nat.leb (lfact l) last); [exact SK|].
  destruct (get_some bi i) as [s Es]; [pose proof (bo_len _ _ (proj1 G)) as LL; cbn [fst] in LL; lia|]. rewrite Es. cbn [obind].
  destruct (filter (fun f => negb (count s (mklit f true))) (sas_facts (first, last))) as [|f [|g r]] eqn:F; [exact SK| |exact SK].
  destruct (count s (mklit f false)) eqn:C; [exact SK|]. apply count_false in C.
  assert (Rl : lit_in n l) by (unfold lit_in, l; lia).
  assert (Al : at_lit n bi l = Some s). { unfold at_lit, l. destruct (Z.ltb_spec (Z.of_nat i - Z.of_nat n + Z.of_nat n) 0); [lia|]. replace (Z.to_nat (Z.of_nat i - Z.of_nat n + Z.of_nat n)) with i by lia. exact Es. }
  assert (Hf : In f (sas_facts (first, last))) by (eapply proj1, filter_In; rewrite F; now left).
  destruct (io_sas _ _ _ _ _ IO first last Hx) as [I1 I2]. assert (Bf : (f < n)%nat) by (unfold sas_facts in Hf; cbn [fst snd] in Hf; apply in_seq in Hf; lia).
  assert (Rf : lit_in n (mklit f false)) by (apply lit_in_fact; rewrite lfact_mklit; auto).
  destruct (good_insert bi q (mklit f false) l G Rf Rl) as [bi' [E [G' [L' GR]]]].
  - intros u Hu. destruct (ih_sas_one _ _ _ _ _ (IH u Hu) first last Hx N) as [g [Hg Ug]]. destruct (Nat.eq_dec g f) as [->|Ngf]; [left; apply lit_mklit_pos; auto|]. right.
    assert (K : In (mklit g true) s). { destruct (count s (mklit g true)) eqn:Cg; [apply count_in; auto|]. assert (In g (filter (fun f => negb (count s (mklit f true))) (sas_facts (first, last)))) as Y by (apply filter_In; split; auto; now rewrite Cg). rewrite F in Y. destruct Y as [->|[]]. contradiction. }
    destruct (proj1 (proj2 G) l (mklit g true)) with (s := u) as [H|H]; auto. { exists s. auto. } exfalso. apply lit_mklit in H. auto.
  - intros K. apply (bo_sym _ _ (proj1 G)) in K. destruct K as [s' [Es' H]]. apply C. cbn [fst] in Es'. replace s with s' by congruence. exact H.
  - rewrite E. cbn [obind]. split; [discriminate|]. intros st' E'. inversion E'; subst. auto.
Qed.

Lemma sas_inference_ok bi : good (bi, []) -> step_ok (bi, []) (sas_inference n X bi).
Proof.
  intros G. unfold sas_inference. apply (step_fold (sas_infer n) (fun y _ => (fst y < 2 * n)%nat /\ In (snd y) (x_sas X))); auto.
  - intros st [i x] G' [A B]. apply sas_infer_ok; auto.
  - intros [i x] H. apply in_flat_map in H. destruct H as [i' [H1 H2]]. apply in_map_iff in H2. destruct H2 as [x' [H2 H3]]. inversion H2; subst. apply in_seq in H1. cbn. split; [lia|auto].
Qed.

Lemma close_ok inner : (2 * (2 * n * (2 * n)) < inner)%nat -> forall fuel bi q, good (bi, q) -> (left (bi, q) < fuel)%nat -> (left (bi, q) <= 2 * (2 * n * (2 * n)))%nat ->
  (varied -> close_invariants order n X inner fuel bi q <> None) /\
  forall bi', close_invariants order n X inner fuel bi q = Some bi' -> good (bi', []) /\ grows (bi, q) (bi', []).
Proof.
  intros LI. induction fuel as [|fuel IHf]; intros bi q G L B; [lia|]. cbn [close_invariants]. destruct q as [|c r].
  - split; [discriminate|]. intros bi' E. inversion E; subst. split; [exact G|]. intros ? ?; auto.
  - destruct (resolution_ok inner bi (c :: r) G) as [D1 C1]; [lia|]. destruct (resolution order n inner bi (c :: r)) as [bi1|]; cbn [obind]; [|split; [let W := fresh in intros W; exfalso; match goal with D : varied -> None <> None |- _ => exact (D W eq_refl) end|discriminate]].
    destruct (C1 bi1 eq_refl) as [G1 [L1 GR1]]. destruct (sas_inference_ok bi1 G1) as [D2 C2]. destruct (sas_inference n X bi1) as [[bi2 q2]|]; cbn [obind]; [|split; [let W := fresh in intros W; exfalso; match goal with D : varied -> None <> None |- _ => exact (D W eq_refl) end|discriminate]].
    destruct (C2 (bi2, q2) eq_refl) as [G2 [L2 GR2]]. destruct (IHf bi2 q2 G2) as [D3 C3]; [lia|lia|]. split; auto. intros bi' E. destruct (C3 bi' E) as [G3 GR3]. split; auto. intros x y K. apply GR3. apply GR2. apply GR1. exact K.
Qed.

Lemma empty_ok : good (repeat [] (2 * n), []).
Proof.
  assert (NK : forall a b, ~ known n (repeat [] (2 * n)) a b). { intros a b [s [E H]]. apply at_lit_range in E; [|apply repeat_length]. destruct E as [_ E]. apply repeat_spec in E. subst. destruct H. }
  split; [|split]; cbn [fst snd].
  - split. + apply repeat_length. + intros s x Hs. apply repeat_spec in Hs. subst. intros []. + intros s Hs. apply repeat_spec in Hs. subst. constructor. + intros a b H. exfalso. eapply NK; eauto.
  - intros a b H. exfalso. eapply NK; eauto.
  - intros a b [].
Qed.

Lemma insert_all_ok : forall l bi, bi_ok n bi -> bi_sound bi -> q_ok l -> exists bi', insert_all n bi l = Some bi' /\ bi_ok n bi' /\ bi_sound bi' /\
  (forall a b, known n bi' a b <-> known n bi a b \/ In (a, b) l \/ In (b, a) l).
Proof.
  unfold insert_all. induction l as [|[a b] r IHl]; intros bi O S Q; cbn [ofold].
  - exists bi. split; auto. split; auto. split; auto. cbn. tauto.
  - destruct (Q a b (or_introl eq_refl)) as [Ra [Rb V]]. destruct (insert_ok n bi a b O Ra Rb) as [bi1 [E [O1 [K1 _]]]]. rewrite E. cbn [obind].
    destruct (IHl bi1 O1) as [bi2 [E2 [O2 [S2 K2]]]].
    + intros x y H. apply K1 in H. destruct H as [H|[[-> ->]|[-> ->]]]; auto. intros s Hs. destruct (V s Hs); auto.
    + intros x y H. apply Q. now right.
    + exists bi2. split; auto. split; auto. split; auto. intros x y. rewrite K2, K1. cbn [In]. rewrite !pair_equal_spec. intuition; subst; auto.
Qed.

Lemma pairs_in {A} (l : list A) x y : In (x, y) (pairs l) -> exists i j, (i < j)%nat /\ nth_error l i = Some x /\ nth_error l j = Some y.
Proof.
  induction l as [|a r IHl]; cbn [pairs]; [intros []|]. rewrite in_app_iff. intros [H|H].
  - apply in_map_iff in H. destruct H as [z [E H]]. inversion E; subst. apply In_nth_error in H. destruct H as [j H]. exists 0%nat, (S j). split; [lia|]. auto.
  - destruct (IHl H) as [i [j [L [E1 E2]]]]. exists (S i), (S j). split; [lia|]. auto.
Qed.
Hypothesis DEC : forall s, Sig s -> forall f, s f \/ ~ s f.
Lemma parsed_ok : q_ok (parsed_clauses X).
Proof.
  assert (NEG : forall l x y, In (x, y) (map neg_pair (pairs l)) -> (forall f, In f l -> (f < n)%nat) -> (forall s, Sig s -> at_most_one s l) -> lit_in n x /\ lit_in n y /\ valid x y).
  { intros l x y H B V. apply in_map_iff in H. destruct H as [[f g] [E H]]. unfold neg_pair in E; cbn [fst snd] in E. apply pair_equal_spec in E; destruct E as [<- <-]. apply pairs_in in H. destruct H as [i [j [L [E1 E2]]]].
    split; [apply lit_in_fact; rewrite lfact_mklit; apply B; eapply nth_error_In; eauto|]. split; [apply lit_in_fact; rewrite lfact_mklit; apply B; eapply nth_error_In; eauto|].
    intros s Hs. destruct (DEC s Hs f) as [Hf|Nf]; [|left; apply lit_mklit; auto]. right. apply lit_mklit. intros Hg. specialize (V s Hs i j f g E1 E2 Hf Hg). lia. }
  assert (POS : forall l x y, In (x, y) (pos_pair l) -> (forall f, In f l -> (f < n)%nat) -> (length l = 2%nat -> forall s, Sig s -> at_least_one s l) -> lit_in n x /\ lit_in n y /\ valid x y).
  { intros l x y H B V. destruct l as [|f [|g [|? ?]]]; try contradiction; destruct H as [H|[]]; apply pair_equal_spec in H; destruct H as [<- <-].
    split; [apply lit_in_fact; rewrite lfact_mklit; apply B; cbn; auto|]. split; [apply lit_in_fact; rewrite lfact_mklit; apply B; cbn; auto|].
    intros s Hs. destruct (V eq_refl s Hs) as [h [[<-|[<-|[]]] Hh]]; [left|right]; apply lit_mklit_pos; auto. }
  intros x y H. unfold parsed_clauses in H. rewrite !in_app_iff in H. destruct H as [H|[H|[H|H]]]; apply in_flat_map in H; destruct H as [l [Hl H]].
  - destruct l as [|a [|b [|? ?]]]; try contradiction; destruct H as [H|[]]; apply pair_equal_spec in H; destruct H as [<- <-]. split; [eapply (io_inv _ _ _ _ _ IO); [exact Hl|cbn; auto]|]. split; [eapply (io_inv _ _ _ _ _ IO); [exact Hl|cbn; auto]|].
    intros s Hs. destruct (ih_inv _ _ _ _ _ (IH s Hs) _ Hl) as [z [[<-|[<-|[]]] Hz]]; auto.
  - apply in_app_iff in H. destruct H as [H|H]; [apply (NEG l)|apply (POS l)]; auto; try (intros f Hf; eapply (io_strict _ _ _ _ _ IO); eauto); intros; [apply (ih_strict_amo _ _ _ _ _ (IH s H0)); auto|apply (ih_strict_one _ _ _ _ _ (IH s H1)); auto].
  - apply (NEG l); auto; try (intros f Hf; eapply (io_mutex _ _ _ _ _ IO); eauto). intros s Hs. apply (ih_mutex _ _ _ _ _ (IH s Hs)). auto.
  - destruct l as [a b]. destruct (io_sas _ _ _ _ _ IO a b Hl) as [I1 I2]. assert (B : forall f, In f (sas_facts (a, b)) -> (f < n)%nat) by (intros f Hf; unfold sas_facts in Hf; cbn [fst snd] in Hf; apply in_seq in Hf; lia).
    apply in_app_iff in H. destruct H as [H|H]; [apply (NEG (sas_facts (a, b)))|apply (POS (sas_facts (a, b)))]; auto.
    + intros s Hs. apply (ih_sas_amo _ _ _ _ _ (IH s Hs) a b Hl).
    + intros L s Hs. unfold sas_facts in L; cbn [fst snd] in L. rewrite seq_length in L. apply (ih_sas_one _ _ _ _ _ (IH s Hs) a b Hl). lia.
Qed.

Lemma queue_in bi x y : bi_ok n bi -> In (x, y) (initial_queue order n bi) -> known n bi x y.
Proof.
  intros O H. unfold initial_queue in H. apply in_flat_map in H. destruct H as [[i s] [H1 H2]]. apply enum_from_in in H1. apply in_flat_map in H2. destruct H2 as [j [Hj H2]].
  destruct (Nat.ltb (lfact (Z.of_nat i - Z.of_nat n)) (lfact j)); [|destruct H2]. destruct H2 as [H2|[]]. inversion H2; subst. exists s. split.
  - unfold at_lit. destruct (Z.ltb_spec (Z.of_nat i - Z.of_nat n + Z.of_nat n) 0); [lia|]. replace (Z.to_nat (Z.of_nat i - Z.of_nat n + Z.of_nat n)) with i by lia. exact H1.
  - eapply Permutation_in; [apply ORD|exact Hj].
Qed.
Lemma queue_length bi : (length (initial_queue order n bi) <= size bi)%nat.
Proof.
  unfold initial_queue, size. generalize 0%nat. induction bi as [|s r IHb]; intros k; cbn [enum_from flat_map map list_sum fold_right]; [cbn; lia|]. unfold list_sum in *. cbn [fold_right].
  rewrite app_length. specialize (IHb (S k)). rewrite <- (Permutation_length (ORD s)). cbv zeta. assert (Q : forall l : list Z, (length (flat_map (fun j => if Nat.ltb (lfact (Z.of_nat k - Z.of_nat n)%Z) (lfact j) then [((Z.of_nat k - Z.of_nat n)%Z, j)] else []) l) <= length l)%nat).
  { clear. induction l; cbn [flat_map length]; [lia|]. rewrite app_length. destruct (Nat.ltb _ _); cbn [length]; lia. }
  specialize (Q (order s)). lia.
Qed.

Theorem extract_ok : (varied -> extract_invariants order n X <> None) /\
  forall bi, extract_invariants order n X = Some bi -> bi_ok n bi /\ bi_sound bi /\ forall a b, In (a, b) (parsed_clauses X) -> known n bi a b.
Proof.
  unfold extract_invariants. destruct empty_ok as [O0 [S0 _]]. destruct (insert_all_ok (parsed_clauses X) _ O0 S0 parsed_ok) as [bi [E [O [S K]]]]. cbn [fst] in E. rewrite E. cbn [obind].
  assert (G : good (bi, initial_queue order n bi)).
  { split; [exact O|]. split; [exact S|]. intros x y H. cbn [snd] in H. apply (queue_in bi x y O) in H. split; [|split; [|apply S; auto]].
    - destruct H as [s [Es _]]. eapply at_lit_range; [apply (bo_len _ _ O)|exact Es].
    - apply (bo_sym _ _ O) in H. destruct H as [s [Es _]]. eapply at_lit_range; [apply (bo_len _ _ O)|exact Es]. }
  assert (L : (left (bi, initial_queue order n bi) <= 2 * (2 * n * (2 * n)))%nat). { unfold left; cbn [fst snd]. pose proof (queue_length bi). pose proof (size_bound n bi O). lia. }
  destruct (close_ok (inv_fuel n)) with (fuel := inv_fuel n) (bi := bi) (q := initial_queue order n bi) as [D C]; auto; [unfold inv_fuel; lia|unfold inv_fuel; lia|].
  split; auto. intros bi' E'. destruct (C bi' E') as [[O' [S' _]] GR]. split; auto. split; auto. intros a b H. apply GR. apply K. auto.
Qed.
End Sound.
