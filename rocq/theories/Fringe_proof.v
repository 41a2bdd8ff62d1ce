(** Proofs about the fringes. *)
From Coq Require Import ZArith.
From Verif Require Import Base Fringe_model.
Local Open Scope Z_scope.

Section Unsorted.
  Context {A : Type}.
  Variable sz : nat.
  Hypothesis SZ : (3 <= sz)%nat.

  Notation cont := (cont A). Notation ufringe := (ufringe A).
  Definition link := (nat * cont * list A)%type.
  Definition l_ptr (x : link) : nat := fst (fst x).
  Definition l_cont (x : link) : cont := snd (fst x).
  Definition l_elems (x : link) : list A := snd x.

  (** The elements of one container. *)
  Definition okc (k : cont) (e : list A) : Prop :=
    length (k_content k) = sz /\ -1 <= k_left k /\ k_right k <= Z.of_nat sz /\ k_right k = k_left k + 1 + Z.of_nat (length e) /\
    forall i, (i < length e)%nat -> get (k_content k) (Z.to_nat (k_left k + 1) + i) = Some (nth_error e i).
  Definition adj (a b : link) : Prop :=
    k_next (l_cont a) = l_ptr b /\ k_prev (l_cont b) = l_ptr a /\ k_right (l_cont a) = Z.of_nat sz /\ k_left (l_cont b) = -1.
  Fixpoint linked (ch : list link) : Prop :=
    match ch with
    | a :: ((b :: _) as r) => adj a b /\ linked r
    | _ => True
    end.
  Definition held (m : list (option cont)) (ch : list link) : Prop :=
    NoDup (map l_ptr ch) /\ forall x, In x ch -> load m (l_ptr x) = Some (l_cont x) /\ okc (l_cont x) (l_elems x).

  Definition deque (u : ufringe) (l : list A) : Prop := exists ch,
    held (u_mem u) ch /\ linked ch /\
    (exists x t, ch = x :: t /\ u_first u = l_ptr x /\ 0 <= k_left (l_cont x)) /\
    (exists t x, ch = t ++ [x] /\ u_last u = l_ptr x /\ k_right (l_cont x) < Z.of_nat sz) /\
    l = flat_map l_elems ch /\ u_size u = Z.of_nat (length l).

  Lemma linked_app a b : linked (a ++ b) <-> linked a /\ linked b /\ match rev a, b with x :: _, y :: _ => adj x y | _, _ => True end.
  Proof.
    induction a as [|x a IH]; [cbn; tauto|]. destruct a as [|y a].
    - cbn. destruct b as [|z b]; cbn; tauto.
    - change (linked ((x :: y :: a) ++ b)) with (adj x y /\ linked ((y :: a) ++ b)). change (linked (x :: y :: a)) with (adj x y /\ linked (y :: a)). rewrite IH.
      assert (Q : match rev (x :: y :: a) with z :: _ => hd_error (rev (y :: a)) = Some z | [] => False end).
      { cbn [rev]. destruct (rev a ++ [y]) eqn:E; [apply app_eq_nil in E as [_ E]; discriminate|reflexivity]. }
      destruct (rev (x :: y :: a)) as [|z ?]; [contradiction|]. destruct (rev (y :: a)) as [|z' ?]; [discriminate|]. injection Q as ->. destruct b; tauto.
  Qed.

  Lemma load_lt (m : list (option cont)) p k : load m p = Some k -> (p < length m)%nat.
  Proof. unfold load. intros E. apply obind_some in E as (o & E & _). eapply get_lt; eauto. Qed.
  Lemma store_ok (m : list (option cont)) p k k' : load m p = Some k -> exists m', store m p k' = Some m' /\ length m' = length m /\ load m' p = Some k' /\ forall q, q <> p -> load m' q = load m q.
  Proof.
    intros L. unfold store. rewrite L. cbn [obind]. destruct (set_some m p (Some k') (load_lt _ _ _ L)) as (m' & E). exists m'. split; auto.
    split; [eapply set_length; eauto|]. unfold load. rewrite (get_set_eq _ _ _ _ E). split; auto. intros q N. now rewrite (get_set_neq _ _ _ _ _ E) by auto.
  Qed.
  Lemma load_app (m : list (option cont)) e p k : load m p = Some k -> load (m ++ e) p = Some k.
  Proof. intros L. unfold load, get in *. rewrite nth_error_app1; auto. eapply load_lt; eauto. Qed.
  Lemma load_new (m : list (option cont)) k : load (m ++ [Some k]) (length m) = Some k.
  Proof. unfold load, get. rewrite nth_error_app2, Nat.sub_diag by lia. reflexivity. Qed.

  (** Changing one container of the chain. *)
  Lemma held_set m m' a x b k e : held m (a ++ x :: b) -> load m' (l_ptr x) = Some k -> okc k e -> (forall q, q <> l_ptr x -> load m' q = load m q) ->
    held m' (a ++ (l_ptr x, k, e) :: b).
  Proof.
    intros [ND H] L O F. split; [rewrite map_app in *; exact ND|]. rewrite map_app in ND. cbn [map] in ND. apply NoDup_remove_2 in ND.
    intros y Hy. apply in_app_or in Hy as [Hy|[<-|Hy]]; [|auto|]; (rewrite F; [apply H; apply in_or_app; cbn; auto|]); intros E; apply ND; rewrite <- E; apply in_or_app; [left|right]; now apply in_map.
  Qed.
  Lemma held_new m ch k e b : held m (b ++ ch) -> okc k e -> held (m ++ [Some k]) (b ++ (length m, k, e) :: ch).
  Proof.
    intros [ND H] O. split.
    - rewrite map_app in *. cbn [map]. apply NoDup_Add with (a := length m) (l := map l_ptr b ++ map l_ptr ch); [apply Add_app|]. split; auto.
      intros Hi. rewrite <- map_app in Hi. apply in_map_iff in Hi as (x & E & Hx). destruct (H x Hx) as [L _]. apply load_lt in L. lia.
    - intros x Hx. apply in_app_or in Hx as [Hx|[<-|Hx]]; [|split; auto; apply load_new|]; (destruct (H x) as [L K]; [apply in_or_app; auto|]; split; auto; now apply load_app).
  Qed.

  Lemma uf_new_ok : deque (uf_new sz) [].
  Proof.
    assert (D : 0 <= Z.of_nat sz / 2 /\ Z.of_nat sz / 2 + 1 < Z.of_nat sz) by (split; [apply Z.div_pos; lia|]; pose proof (Z.mul_div_le (Z.of_nat sz) 2 ltac:(lia)); lia).
    exists [(0%nat, set_right (set_left (new_cont sz) (Z.of_nat sz / 2)) (Z.of_nat sz / 2 + 1), [])].
    split; [|split; [exact I|split; [eexists _, []; split; [reflexivity|]; cbn; split; [auto|lia]|split; [exists [], (0%nat, set_right (set_left (new_cont sz) (Z.of_nat sz / 2)) (Z.of_nat sz / 2 + 1), []); split; [reflexivity|]; cbn; split; [auto|lia]|split; reflexivity]]]].
    split; [repeat constructor; auto|]. intros x [<-|[]]. split; [reflexivity|]. unfold okc. cbn. rewrite repeat_length. split; auto. split; [lia|]. split; [lia|]. split; [lia|]. intros i Hi. inversion Hi.
  Qed.

  Lemma okc_nil k : length (k_content k) = sz -> -1 <= k_left k -> k_right k <= Z.of_nat sz -> k_right k = k_left k + 1 -> okc k [].
  Proof. intros. unfold okc. cbn. repeat (split; [lia|]). intros i Hi. inversion Hi. Qed.

  Lemma addFirst_ok u l n : deque u l -> exists u', addFirst sz u n = Some u' /\ deque u' (n :: l).
  Proof.
    intros (ch & HE & LK & (x & t & -> & FX & L0) & LA & EL & SI). destruct HE as [ND H]. destruct (H x (or_introl eq_refl)) as [LX OX].
    destruct x as [[f k] e]. cbn [l_ptr l_cont l_elems fst snd] in *. destruct OX as (LC & B1 & B2 & ER & GE).
    unfold addFirst. rewrite FX, LX. cbn [obind]. unfold zset. destruct (Z.ltb_spec (k_left k) 0) as [|_]; [lia|].
    destruct (set_some (k_content k) (Z.to_nat (k_left k)) (Some n)) as (c & EC); [lia|]. rewrite EC. cbn [obind].
    set (k1 := set_left (set_content k c) (k_left k - 1)).
    destruct (store_ok (u_mem u) f k k1 LX) as (m1 & E1 & LM & L1 & F1). rewrite E1. cbn [obind].
    assert (O1 : forall k', k_content k' = c -> k_left k' = k_left k - 1 -> k_right k' = k_right k -> okc k' (n :: e)).
    { intros k' X1 X2 X3. unfold okc. rewrite X1, X2, X3. split; [rewrite (set_length _ _ _ _ EC); auto|]. split; [lia|]. split; [lia|]. split; [cbn [length]; lia|].
      intros i Hi. replace (Z.to_nat (k_left k - 1 + 1) + i)%nat with (Z.to_nat (k_left k) + i)%nat by lia. destruct i as [|i].
      - rewrite Nat.add_0_r, (get_set_eq _ _ _ _ EC). reflexivity.
      - rewrite (get_set_neq _ _ _ _ _ EC) by lia. cbn [nth_error length] in *. rewrite <- GE by lia. f_equal. lia. }
    assert (H0 : held (u_mem u) ([] ++ (f, k, e) :: t)) by (split; auto).
    change (k_left k1) with (k_left k - 1). destruct (Z.eqb_spec (k_left k - 1) (-1)) as [EQ|NE].
    - destruct (store_ok m1 f k1 (set_hasPrev (set_prev k1 (length m1)) true) L1) as (m2 & E2 & LM2 & L2 & F2). rewrite E2. cbn [obind]. rewrite <- LM2.
      set (k2 := set_hasPrev (set_prev k1 (length m1)) true) in *. set (tc := set_right (set_left (set_hasNext (set_next (new_cont sz) f) true) (Z.of_nat sz - 1)) (Z.of_nat sz)).
      eexists. split; [reflexivity|]. exists ((length m2, tc, []) :: (f, k2, n :: e) :: t).
      assert (H2 : held m2 ([] ++ (f, k2, n :: e) :: t)).
      { apply (held_set (u_mem u) m2 [] (f, k, e) t k2 (n :: e)); [exact H0|exact L2|apply O1; reflexivity|]. intros q N. rewrite F2, F1; auto. }
      split; [|split; [|split; [|split; [|split; [cbn; now rewrite EL|cbn [u_size length]; rewrite SI; lia]]]]].
      + apply (held_new m2 ((f, k2, n :: e) :: t) tc [] [] H2). apply okc_nil; cbn; try lia. apply repeat_length.
      + cbn [linked]. split; [|].
        * unfold adj. cbn. rewrite LM2. repeat (split; auto).
        * destruct t as [|y t]; [exact I|]. cbn [linked] in LK |- *. exact LK.
      + exists (length m2, tc, []), ((f, k2, n :: e) :: t). split; auto. split; auto. cbn. lia.
      + destruct LA as (t' & x & E' & EL' & RX). destruct t' as [|y t'].
        * cbn in E'. injection E' as <- ->. exists [(length m2, tc, [])], (f, k2, n :: e). split; auto.
        * cbn in E'. injection E' as <- ->. exists ((length m2, tc, []) :: (f, k2, n :: e) :: t'), x. split; auto.
    - eexists. split; [reflexivity|]. exists ((f, k1, n :: e) :: t).
      assert (H2 : held m1 ([] ++ (f, k1, n :: e) :: t)).
      { apply (held_set (u_mem u) m1 [] (f, k, e) t k1 (n :: e)); [exact H0|exact L1|apply O1; reflexivity|exact F1]. }
      split; [exact H2|split; [|split; [|split; [|split; [cbn; now rewrite EL|cbn [u_size length]; rewrite SI; lia]]]]].
      + destruct t as [|y t]; [exact I|]. cbn [linked] in LK |- *. exact LK.
      + eexists _, t. split; [reflexivity|]. cbn. split; auto. lia.
      + destruct LA as (t' & x & E' & EL' & RX). destruct t' as [|y t'].
        * cbn in E'. injection E' as <- ->. exists [], (f, k1, n :: e). split; auto.
        * cbn in E'. injection E' as <- ->. exists ((f, k1, n :: e) :: t'), x. split; auto.
  Qed.

  (** A change of the last container that keeps what the chain needs. *)
  Lemma linked_last t x y : linked (t ++ [x]) -> l_ptr y = l_ptr x -> k_prev (l_cont y) = k_prev (l_cont x) -> k_left (l_cont y) = k_left (l_cont x) -> linked (t ++ [y]).
  Proof.
    intros LK E1 E2 E3. apply linked_app in LK as (L1 & _ & L2). apply linked_app. split; auto. split; [exact I|]. destruct (rev t) as [|z r]; auto. unfold adj in *. rewrite E1, E2, E3. exact L2.
  Qed.

  Lemma addLast_ok u l n : deque u l -> exists u', addLast sz u n = Some u' /\ deque u' (l ++ [n]).
  Proof.
    intros (ch & HE & LK & FI & (t & x & -> & FX & L0) & EL & SI). destruct HE as [ND H]. destruct (H x) as [LX OX]; [apply in_or_app; cbn; auto|].
    destruct x as [[f k] e]. cbn [l_ptr l_cont l_elems fst snd] in *. destruct OX as (LC & B1 & B2 & ER & GE).
    unfold addLast. rewrite FX, LX. cbn [obind]. unfold zset. destruct (Z.ltb_spec (k_right k) 0) as [|_]; [lia|].
    destruct (set_some (k_content k) (Z.to_nat (k_right k)) (Some n)) as (c & EC); [lia|]. rewrite EC. cbn [obind].
    set (k1 := set_right (set_content k c) (k_right k + 1)).
    destruct (store_ok (u_mem u) f k k1 LX) as (m1 & E1 & LM & L1 & F1). rewrite E1. cbn [obind].
    assert (O1 : forall k', k_content k' = c -> k_left k' = k_left k -> k_right k' = k_right k + 1 -> okc k' (e ++ [n])).
    { intros k' X1 X2 X3. unfold okc. rewrite X1, X2, X3. split; [rewrite (set_length _ _ _ _ EC); auto|]. split; [lia|]. split; [lia|]. split; [rewrite app_length; cbn [length]; lia|].
      intros i Hi. rewrite app_length in Hi. cbn [length] in Hi. destruct (Nat.eq_dec i (length e)) as [->|N].
      - rewrite nth_error_app2, Nat.sub_diag by lia. replace (Z.to_nat (k_left k + 1) + length e)%nat with (Z.to_nat (k_right k)) by lia. rewrite (get_set_eq _ _ _ _ EC). reflexivity.
      - rewrite (get_set_neq _ _ _ _ _ EC) by lia. rewrite nth_error_app1 by lia. apply GE. lia. }
    assert (H0 : held (u_mem u) (t ++ (f, k, e) :: [])) by (split; auto).
    assert (EE : forall k' : cont, flat_map l_elems (t ++ [(f, k', e ++ [n])]) = l ++ [n]).
    { intros k'. rewrite EL, !flat_map_app. cbn. rewrite !app_nil_r, app_assoc. reflexivity. }
    assert (SE : forall z, z = u_size u + 1 -> z = Z.of_nat (length (l ++ [n]))) by (intros z ->; rewrite SI, app_length; cbn [length]; lia).
    change (k_right k1) with (k_right k + 1). destruct (Z.eqb_spec (k_right k + 1) (Z.of_nat sz)) as [EQ|NE].
    - destruct (store_ok m1 f k1 (set_hasNext (set_next k1 (length m1)) true) L1) as (m2 & E2 & LM2 & L2 & F2). rewrite E2. cbn [obind]. rewrite <- LM2.
      set (k2 := set_hasNext (set_next k1 (length m1)) true) in *. set (tc := set_right (set_left (set_hasPrev (set_prev (new_cont sz) f) true) (-1)) 0).
      eexists. split; [reflexivity|]. exists ((t ++ [(f, k2, e ++ [n])]) ++ [(length m2, tc, [])]).
      assert (H2 : held m2 (t ++ (f, k2, e ++ [n]) :: [])).
      { apply (held_set (u_mem u) m2 t (f, k, e) [] k2 (e ++ [n])); [exact H0|exact L2|apply O1; reflexivity|]. intros q N. rewrite F2, F1; auto. }
      assert (LK2 : linked (t ++ [(f, k2, e ++ [n])])) by (eapply linked_last; [exact LK|reflexivity..]).
      split; [|split; [|split; [|split; [|split; [rewrite flat_map_app, EE; cbn; now rewrite app_nil_r|apply SE; reflexivity]]]]].
      + pose proof (held_new m2 [] tc [] (t ++ [(f, k2, e ++ [n])])) as Q. rewrite app_nil_r in Q. apply Q; auto. apply okc_nil; cbn; try lia. apply repeat_length.
      + apply linked_app. split; auto. split; [exact I|]. rewrite rev_app_distr. cbn. unfold adj. cbn. rewrite LM2. split; auto.
      + destruct FI as (y & r & EF & EP & LY). destruct t as [|z t].
        * cbn in EF. injection EF as <- <-. exists (f, k2, e ++ [n]), [(length m2, tc, [])]. split; auto.
        * cbn in EF. injection EF as <- <-. exists z, ((t ++ [(f, k2, e ++ [n])]) ++ [(length m2, tc, [])]). split; auto.
      + exists (t ++ [(f, k2, e ++ [n])]), (length m2, tc, []). split; auto. split; auto. cbn. lia.
    - eexists. split; [reflexivity|]. exists (t ++ [(f, k1, e ++ [n])]).
      split; [apply (held_set (u_mem u) m1 t (f, k, e) [] k1 (e ++ [n])); [exact H0|exact L1|apply O1; reflexivity|exact F1]|].
      split; [eapply linked_last; [exact LK|reflexivity..]|]. split; [|split; [|split; [now rewrite EE|apply SE; reflexivity]]].
      + destruct FI as (y & r & EF & EP & LY). destruct t as [|z t].
        * cbn in EF. injection EF as <- <-. exists (f, k1, e ++ [n]), []. split; auto.
        * cbn in EF. injection EF as <- <-. exists z, (t ++ [(f, k1, e ++ [n])]). split; auto.
      + eexists t, _. split; [reflexivity|]. cbn. split; auto. lia.
  Qed.

  Lemma uf_empty_ok u l : deque u l -> uf_empty u = true <-> l = [].
  Proof. intros (ch & _ & _ & _ & _ & _ & SI). unfold uf_empty. rewrite SI, Z.eqb_eq. destruct l; cbn [length]; split; intros; try lia; try discriminate; auto. Qed.

  Lemma okc_cons k v e : okc k (v :: e) -> zget (k_content k) (k_left k + 1) = Some v /\ forall k', k_content k' = k_content k -> k_left k' = k_left k + 1 -> k_right k' = k_right k -> okc k' e.
  Proof.
    intros (LC & B1 & B2 & ER & GE). cbn [length] in *. split.
    - unfold zget. destruct (Z.ltb_spec (k_left k + 1) 0) as [|_]; [lia|]. specialize (GE 0%nat ltac:(lia)). rewrite Nat.add_0_r in GE. rewrite GE. reflexivity.
    - intros k' X1 X2 X3. unfold okc. rewrite X1, X2, X3. split; auto. split; [lia|]. split; [lia|]. split; [lia|]. intros i Hi. specialize (GE (S i) ltac:(lia)). cbn [nth_error] in GE. rewrite <- GE. f_equal. lia.
  Qed.
  Lemma okc_snoc k v e : okc k (e ++ [v]) -> zget (k_content k) (k_right k - 1) = Some v /\ forall k', k_content k' = k_content k -> k_left k' = k_left k -> k_right k' = k_right k - 1 -> okc k' e.
  Proof.
    intros (LC & B1 & B2 & ER & GE). rewrite app_length in *. cbn [length] in *. split.
    - unfold zget. destruct (Z.ltb_spec (k_right k - 1) 0) as [|_]; [lia|]. specialize (GE (length e) ltac:(lia)). rewrite nth_error_app2, Nat.sub_diag in GE by lia. cbn in GE.
      replace (Z.to_nat (k_right k - 1)) with (Z.to_nat (k_left k + 1) + length e)%nat by lia. unfold get in *. rewrite GE. reflexivity.
    - intros k' X1 X2 X3. unfold okc. rewrite X1, X2, X3. split; auto. split; [lia|]. split; [lia|]. split; [lia|]. intros i Hi. specialize (GE i ltac:(lia)). rewrite nth_error_app1 in GE by lia. exact GE.
  Qed.

  Lemma held_drop m a x b : held m (a ++ x :: b) -> held m (a ++ b) /\ forall y, In y (a ++ b) -> l_ptr y <> l_ptr x.
  Proof.
    intros [ND H]. rewrite map_app in ND. cbn [map] in ND. split; [split; [rewrite map_app; eapply NoDup_remove_1; eauto|]|].
    - intros z Hz. apply H. apply in_app_or in Hz as [|]; apply in_or_app; cbn; auto.
    - apply NoDup_remove_2 in ND. intros y Hy E. apply ND. rewrite <- E, <- map_app. now apply in_map.
  Qed.
  Lemma held_ext m m' ch : held m ch -> (forall y, In y ch -> load m' (l_ptr y) = load m (l_ptr y)) -> held m' ch.
  Proof. intros [ND H] F. split; auto. intros x Hx. rewrite F by auto. auto. Qed.

  Lemma removeFirst_ok u a l : deque u (a :: l) -> exists u', removeFirst sz u = Some (Some a, u') /\ deque u' l.
  Proof.
    intros D. unfold removeFirst. destruct (uf_empty u) eqn:EM; [apply (uf_empty_ok _ _ D) in EM; discriminate|]. clear EM.
    destruct D as (ch & HE & LK & (x & t & -> & FX & L0) & LA & EL & SI). pose proof HE as [ND H]. destruct (H x (or_introl eq_refl)) as [LX OX].
    destruct x as [[f k] e]. cbn [l_ptr l_cont l_elems fst snd] in *. rewrite FX, LX. cbn [obind].
    set (k1 := set_left k (k_left k + 1)). destruct (store_ok (u_mem u) f k k1 LX) as (m1 & E1 & LM & L1 & F1). rewrite E1. cbn [obind].
    change (k_left k1) with (k_left k + 1). destruct (Z.eqb_spec (k_left k + 1) (Z.of_nat sz)) as [EQ|NE].
    - destruct OX as (_ & _ & B2 & ER & _). assert (e = []) by (destruct e; auto; cbn [length] in *; lia). subst e. cbn [flat_map l_elems snd app] in EL.
      destruct t as [|y t]; [discriminate|]. destruct y as [[f2 k2] e2]. cbn [linked] in LK. destruct LK as [(NX & PX & RX & LX2) LK]. cbn [l_ptr l_cont fst snd] in *.
      change (k_next k1) with (k_next k). rewrite NX. destruct (H (f2, k2, e2)) as [L2 O2]; [cbn; auto|]. cbn [l_ptr l_cont l_elems fst snd] in *.
      assert (NF : f2 <> f) by (cbn in ND; inversion_clear ND as [|? ? N1 _]; intros ->; apply N1; cbn; auto).
      assert (L2' : load m1 f2 = Some k2) by (rewrite F1; auto). rewrite L2'. cbn [obind].
      set (k3 := set_hasPrev (set_left k2 (k_left k2 + 1)) false). destruct (store_ok m1 f2 k2 k3 L2') as (m2 & E2 & LM2 & L3 & F2). rewrite E2. cbn [obind].
      destruct (set_some m2 f None) as (m3 & E3); [rewrite LM2, LM; eapply load_lt; eauto|]. rewrite E3. cbn [obind].
      assert (F3 : forall q, q <> f -> load m3 q = load m2 q) by (intros q N; unfold load; now rewrite (get_set_neq _ _ _ _ _ E3) by auto).
      rewrite F3 by auto. rewrite L3. cbn [obind].
      assert (e2 <> []).
      { intros ->. destruct t as [|z t]; [discriminate|]. cbn [linked] in LK. destruct LK as [(_ & _ & R2 & _) _]. cbn in R2. destruct O2 as (_ & _ & _ & ER2 & _). cbn [length] in ER2. lia. }
      destruct e2 as [|v e2]; [congruence|]. cbn [flat_map l_elems snd app] in EL. injection EL as <- EL. destruct (okc_cons _ _ _ O2) as [GV OK].
      change (k_content k3) with (k_content k2). change (k_left k3) with (k_left k2 + 1). rewrite GV. cbn [obind]. eexists. split; [reflexivity|].
      exists ((f2, k3, e2) :: t). split; [|split; [|split; [|split; [|split; [exact EL|cbn [u_size]; rewrite SI; cbn [length]; lia]]]]].
      + destruct (held_drop (u_mem u) [] (f, k, []) ((f2, k2, a :: e2) :: t) HE) as [H1 N1]. cbn [app] in H1, N1.
        assert (H2 : held m2 ([] ++ (f2, k3, e2) :: t)).
        { apply (held_set m1 m2 [] (f2, k2, a :: e2) t k3 e2); [|exact L3|apply OK; reflexivity|exact F2]. apply (held_ext (u_mem u)); [exact H1|]. intros y Hy. apply F1, (N1 y Hy). }
        apply (held_ext m2); [exact H2|]. intros y Hy. apply F3. destruct Hy as [<-|Hy]; [auto|apply N1; cbn; auto].
      + destruct t as [|z t]; [exact I|]. cbn [linked] in LK |- *. exact LK.
      + eexists _, t. split; [reflexivity|]. cbn. split; auto. lia.
      + destruct LA as (t' & x & E' & EL' & RX'). destruct t' as [|y' [|z t']]; [discriminate| |].
        * cbn in E'. injection E' as <- <- ->. exists [], (f2, k3, e2). split; auto.
        * cbn in E'. injection E' as <- <- ->. exists ((f2, k3, e2) :: t'), x. split; auto.
    - assert (e <> []).
      { intros ->. destruct t as [|z t]; [discriminate|]. cbn [linked] in LK. destruct LK as [(_ & _ & R2 & _) _]. cbn in R2. destruct OX as (_ & _ & _ & ER2 & _). cbn [length] in ER2. lia. }
      destruct e as [|v e]; [congruence|]. cbn [flat_map l_elems snd app] in EL. injection EL as <- EL. destruct (okc_cons _ _ _ OX) as [GV OK]. cbn [obind]. rewrite L1. cbn [obind].
      change (k_content k1) with (k_content k). change (k_left k1) with (k_left k + 1). rewrite GV. cbn [obind]. eexists. split; [reflexivity|].
      exists ((f, k1, e) :: t). split; [|split; [|split; [|split; [|split; [exact EL|cbn [u_size]; rewrite SI; cbn [length]; lia]]]]].
      + apply (held_set (u_mem u) m1 [] (f, k, a :: e) t k1 e); [exact HE|exact L1|apply OK; reflexivity|exact F1].
      + destruct t as [|z t]; [exact I|]. cbn [linked] in LK |- *. exact LK.
      + eexists _, t. split; [reflexivity|]. cbn. split; auto. lia.
      + destruct LA as (t' & x & E' & EL' & RX'). destruct t' as [|y' t'].
        * cbn in E'. injection E' as <- ->. exists [], (f, k1, e). split; auto.
        * cbn in E'. injection E' as <- ->. exists ((f, k1, e) :: t'), x. split; auto.
  Qed.

  Lemma snoc_inv {B} (l : list B) a r z : l ++ [a] = r ++ [z] -> l = r /\ a = z.
  Proof. apply app_inj_tail. Qed.

  Lemma removeLast_ok u a l : deque u (l ++ [a]) -> exists u', removeLast sz u = Some (Some a, u') /\ deque u' l.
  Proof.
    intros D. unfold removeLast. destruct (uf_empty u) eqn:EM; [apply (uf_empty_ok _ _ D) in EM; apply app_eq_nil in EM as [_ EM]; discriminate|]. clear EM.
    destruct D as (ch & HE & LK & FI & (t & x & -> & FX & L0) & EL & SI). pose proof HE as [ND H]. destruct (H x) as [LX OX]; [apply in_or_app; cbn; auto|].
    destruct x as [[f k] e]. cbn [l_ptr l_cont l_elems fst snd] in *. rewrite FX, LX. cbn [obind].
    set (k1 := set_right k (k_right k - 1)). destruct (store_ok (u_mem u) f k k1 LX) as (m1 & E1 & LM & L1 & F1). rewrite E1. cbn [obind].
    assert (SE : forall z, z = u_size u - 1 -> z = Z.of_nat (length l)) by (intros z ->; rewrite SI, app_length; cbn [length]; lia).
    change (k_right k1) with (k_right k - 1). destruct (Z.eqb_spec (k_right k - 1) (-1)) as [EQ|NE].
    - pose proof OX as (LC & B1 & B2 & ER & _). assert (e = []) by (destruct e; auto; cbn [length] in *; lia). subst e. rewrite flat_map_app in EL. cbn [flat_map l_elems snd app] in EL. rewrite app_nil_r in EL.
      destruct (exists_last (l := t)) as (t0 & [[f2 k2] e2] & ->); [intros ->; apply app_eq_nil in EL as [_ EL]; discriminate|].
      apply linked_app in LK as (LK & _ & LX2). rewrite rev_app_distr in LX2. cbn in LX2. destruct LX2 as (NX & PX & RX & LX2). cbn [l_ptr l_cont fst snd] in *.
      change (k_prev k1) with (k_prev k). rewrite PX. destruct (H (f2, k2, e2)) as [L2 O2]; [apply in_or_app; left; apply in_or_app; cbn; auto|]. cbn [l_ptr l_cont l_elems fst snd] in *.
      assert (NF : f2 <> f).
      { rewrite map_app, map_app in ND. cbn in ND. rewrite <- app_assoc in ND. cbn in ND. apply NoDup_remove_2 in ND. intros ->. apply ND. apply in_or_app. right. cbn. auto. }
      assert (L2' : load m1 f2 = Some k2) by (rewrite F1; auto). rewrite L2'. cbn [obind].
      set (k3 := set_right (set_hasNext k2 false) (k_right k2 - 1)). destruct (store_ok m1 f2 k2 k3 L2') as (m2 & E2 & LM2 & L3 & F2). rewrite E2. cbn [obind].
      destruct (set_some m2 f None) as (m3 & E3); [rewrite LM2, LM; eapply load_lt; eauto|]. rewrite E3. cbn [obind].
      assert (F3 : forall q, q <> f -> load m3 q = load m2 q) by (intros q N; unfold load; now rewrite (get_set_neq _ _ _ _ _ E3) by auto).
      rewrite F3 by auto. rewrite L3. cbn [obind].
      assert (e2 <> []).
      { intros ->. rewrite flat_map_app in EL. cbn [flat_map l_elems snd app] in EL. rewrite app_nil_r in EL. destruct O2 as (_ & _ & _ & ER2 & _). cbn [length] in ER2.
        destruct (exists_last (l := t0)) as (t1 & y & ->); [intros ->; apply app_eq_nil in EL as [_ EL]; discriminate|].
        apply linked_app in LK as (_ & _ & Q). rewrite rev_app_distr in Q. cbn in Q. destruct Q as (_ & _ & _ & Q). cbn in Q. lia. }
      destruct (exists_last (l := e2)) as (e3 & v & ->); [auto|]. rewrite flat_map_app in EL. cbn [flat_map l_elems snd app] in EL. rewrite app_nil_r, app_assoc in EL. apply app_inj_tail in EL as [EL <-].
      destruct (okc_snoc _ _ _ O2) as [GV OK].
      change (k_content k3) with (k_content k2). change (k_right k3) with (k_right k2 - 1). rewrite GV. cbn [obind]. eexists. split; [reflexivity|].
      assert (KL : -1 <= k_left k2) by apply O2.
      exists (t0 ++ [(f2, k3, e3)]). split; [|split; [|split; [|split; [|split; [rewrite flat_map_app; cbn; now rewrite app_nil_r|apply SE; reflexivity]]]]].
      + destruct (held_drop (u_mem u) (t0 ++ [(f2, k2, e3 ++ [a])]) (f, k, []) [] HE) as [H1 N1]. rewrite app_nil_r in H1, N1.
        assert (H2 : held m2 (t0 ++ (f2, k3, e3) :: [])).
        { apply (held_set m1 m2 t0 (f2, k2, e3 ++ [a]) [] k3 e3); [|exact L3|apply OK; reflexivity|exact F2]. apply (held_ext (u_mem u)); [exact H1|]. intros y Hy. apply F1. apply (N1 y Hy). }
        apply (held_ext m2); [exact H2|]. intros y Hy. apply F3. apply in_app_or in Hy as [Hy|[<-|[]]]; [apply N1; apply in_or_app; auto|auto].
      + eapply linked_last; [exact LK|reflexivity..].
      + destruct FI as (y & r & EF & EP & LY). destruct t0 as [|z t0].
        * cbn in EF. injection EF as <- <-. exists (f2, k3, e3), []. split; auto.
        * cbn in EF. injection EF as <- <-. exists z, (t0 ++ [(f2, k3, e3)]). split; auto.
      + eexists t0, _. split; [reflexivity|]. cbn. split; auto. lia.
    - assert (e <> []).
      { intros ->. rewrite flat_map_app in EL. cbn [flat_map l_elems snd app] in EL. rewrite app_nil_r in EL. destruct OX as (_ & _ & _ & ER2 & _). cbn [length] in ER2.
        destruct (exists_last (l := t)) as (t1 & y & ->); [intros ->; apply app_eq_nil in EL as [_ EL]; discriminate|].
        apply linked_app in LK as (_ & _ & Q). rewrite rev_app_distr in Q. cbn in Q. destruct Q as (_ & _ & _ & Q). cbn in Q. lia. }
      destruct (exists_last (l := e)) as (e3 & v & ->); [auto|]. rewrite flat_map_app in EL. cbn [flat_map l_elems snd app] in EL. rewrite app_nil_r, app_assoc in EL. apply app_inj_tail in EL as [EL <-].
      destruct (okc_snoc _ _ _ OX) as [GV OK]. cbn [obind]. rewrite L1. cbn [obind].
      change (k_content k1) with (k_content k). change (k_right k1) with (k_right k - 1). rewrite GV. cbn [obind]. eexists. split; [reflexivity|].
      exists (t ++ [(f, k1, e3)]). split; [|split; [|split; [|split; [|split; [rewrite flat_map_app; cbn; now rewrite app_nil_r|apply SE; reflexivity]]]]].
      + apply (held_set (u_mem u) m1 t (f, k, e3 ++ [a]) [] k1 e3); [exact HE|exact L1|apply OK; reflexivity|exact F1].
      + eapply linked_last; [exact LK|reflexivity..].
      + destruct FI as (y & r & EF & EP & LY). destruct t as [|z t].
        * cbn in EF. injection EF as <- <-. exists (f, k1, e3), []. split; auto.
        * cbn in EF. injection EF as <- <-. exists z, (t ++ [(f, k1, e3)]). split; auto.
      + eexists t, _. split; [reflexivity|]. cbn. split; auto. lia.
  Qed.

  Lemma remove_empty u : deque u [] -> removeFirst sz u = Some (None, u) /\ removeLast sz u = Some (None, u).
  Proof. intros D. unfold removeFirst, removeLast. rewrite (proj2 (uf_empty_ok _ _ D) eq_refl). auto. Qed.

End Unsorted.

(** ** The comparator of the priority queue *)
Fixpoint lexlt (a b : list Z) : bool :=
  match a, b with
  | x :: a', y :: b' => if x =? y then lexlt a' b' else x <? y
  | _, _ => false
  end.
Definition key {N} (a : entry N) : list Z := en_f a :: tl (en_h a) ++ [en_rand a].

Lemma tie_key ha hb ra rb : length ha = length hb -> tie_after ha hb ra rb = lexlt (hb ++ [rb]) (ha ++ [ra]).
Proof.
  revert hb. induction ha as [|x ha IH]; intros [|y hb] L; try discriminate; cbn [tie_after lexlt app].
  - destruct (Z.eqb_spec rb ra); auto. subst. apply Z.ltb_irrefl.
  - rewrite (Z.eqb_sym y x). destruct (x =? y); auto.
Qed.
Lemma after_key {N} (a b : entry N) : length (en_h a) = length (en_h b) -> pop_after a b = lexlt (key b) (key a).
Proof.
  intros L. unfold pop_after, key. cbn [lexlt]. rewrite (Z.eqb_sym (en_f b)). destruct (en_f a =? en_f b); auto. apply tie_key.
  destruct (en_h a), (en_h b); try discriminate; cbn in *; lia.
Qed.
Lemma key_length {N} (a b : entry N) : length (en_h a) = length (en_h b) -> length (key a) = length (key b).
Proof. intros L. unfold key. cbn. rewrite !app_length. cbn. destruct (en_h a), (en_h b); try discriminate; cbn in *; lia. Qed.

Lemma lexlt_irr a : lexlt a a = false.
Proof. induction a as [|x a IH]; cbn; auto. now rewrite Z.eqb_refl. Qed.
Lemma lexlt_trans a b c : lexlt a b = true -> lexlt b c = true -> lexlt a c = true.
Proof.
  revert b c. induction a as [|x a IH]; intros [|y b] [|z c]; cbn; try discriminate; auto.
  destruct (Z.eqb_spec x y) as [E1|N1], (Z.eqb_spec y z) as [E2|N2], (Z.eqb_spec x z) as [E3|N3]; subst; try congruence; rewrite ?Z.ltb_lt; intros; try lia; eauto.
Qed.
Lemma lexlt_neg a b c : length a = length b -> length b = length c -> lexlt a b = false -> lexlt b c = false -> lexlt a c = false.
Proof.
  revert b c. induction a as [|x a IH]; intros [|y b] [|z c] L1 L2; cbn in *; try discriminate; auto.
  destruct (Z.eqb_spec x y) as [E1|N1], (Z.eqb_spec y z) as [E2|N2], (Z.eqb_spec x z) as [E3|N3]; subst; try congruence; rewrite ?Z.ltb_ge; intros; try lia; eauto.
Qed.
