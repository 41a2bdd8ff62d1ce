(** Translation to SAS+: arrays, intervals of facts, the order of the subtasks. *)
From Coq Require Import Relations.
From Verif Require Import Base Htn_problem Htn_spec To_spec Sas_model Sas_spec.

(** ** Writing arrays *)

Lemma writes_some {A} (ws : list (nat * A)) : forall c, (forall w, In w ws -> fst w < length c) -> exists c', writes c ws = Some c'.
Proof.
  unfold writes. induction ws as [|[i x] ws IH]; intros c H; cbn [ofold fst snd]; [eauto|].
  destruct (set_some c i x) as (c1 & E); [apply (H (i, x)); now left|]. rewrite E. cbn [obind]. apply IH. intros w Hw. rewrite (set_length _ _ _ _ E). apply H. now right.
Qed.
Lemma writes_length {A} (ws : list (nat * A)) : forall c c', writes c ws = Some c' -> length c' = length c.
Proof.
  unfold writes. induction ws as [|[i x] ws IH]; intros c c'; cbn [ofold fst snd]; [now intros [= ->]|]. intros H. apply obind_some in H as (c1 & E & H).
  rewrite (IH _ _ H). now apply set_length in E.
Qed.
Lemma writes_other {A} (ws : list (nat * A)) : forall c c' i, writes c ws = Some c' -> ~ In i (map fst ws) -> get c' i = get c i.
Proof.
  unfold writes. induction ws as [|[j x] ws IH]; intros c c' i; cbn [ofold fst snd map In]; [now intros [= ->]|]. intros H N. apply obind_some in H as (c1 & E & H).
  rewrite (IH _ _ _ H); [|tauto]. eapply get_set_neq; eauto.
Qed.
Lemma writes_get {A} (ws : list (nat * A)) : forall c c' i x, writes c ws = Some c' -> NoDup (map fst ws) -> In (i, x) ws -> get c' i = Some x.
Proof.
  induction ws as [|[j y] ws IH]; intros c c' i x H N I; [destruct I|]. cbn [map fst] in N. inversion N as [|? ? N1 N2]; subst. unfold writes in H. cbn [ofold fst snd] in H.
  apply obind_some in H as (c1 & E & H). destruct I as [[= -> ->]|I]; [|eapply IH; eauto]. rewrite (writes_other ws c1 c' i H N1). eapply get_set_eq; eauto.
Qed.

Lemma omap_get {A B} (f : A -> option B) l l' : omap f l = Some l' -> forall i, (get l' i = x <- get l i ;; f x).
Proof.
  revert l'. induction l as [|a l IH]; intros l'; cbn [omap]; [intros [= <-] [|i]; reflexivity|]. intros H. apply obind_some in H as (b & E & H). apply obind_some in H as (bs & E2 & H).
  injection H as <-. intros [|i]; cbn; [now rewrite E|]. now apply IH.
Qed.
Lemma omap_some {A B} (f : A -> option B) l : (forall a, In a l -> exists b, f a = Some b) -> exists l', omap f l = Some l'.
Proof.
  induction l as [|a l IH]; intros H; cbn [omap]; [eauto|]. destruct (H a) as (b & E); [now left|]. rewrite E. cbn [obind]. destruct IH as (bs & E2); [intros; apply H; now right|]. rewrite E2. cbn. eauto.
Qed.
Lemma omap_f2 {A B} (f : A -> option B) l l' : omap f l = Some l' <-> Forall2 (fun a b => f a = Some b) l l'.
Proof.
  split.
  - revert l'. induction l as [|a l IH]; intros l'; cbn [omap]; [intros [= <-]; constructor|]. intros H. apply obind_some in H as (b & E & H). apply obind_some in H as (bs & E2 & H). injection H as <-. constructor; auto.
  - induction 1 as [|a b l l' E F IH]; cbn [omap]; [reflexivity|]. now rewrite E, IH.
Qed.
Lemma omap_in {A B} (f : A -> option B) l l' b : omap f l = Some l' -> In b l' -> exists a, In a l /\ f a = Some b.
Proof. intros H. apply omap_f2 in H. induction H as [|x y l l' E F IH]; cbn; [tauto|]. intros [->|I]; [eauto|]. destruct (IH I) as (a & Ha & Ea). eauto. Qed.
Lemma omap_in' {A B} (f : A -> option B) l l' a : omap f l = Some l' -> In a l -> exists b, In b l' /\ f a = Some b.
Proof. intros H. apply omap_f2 in H. induction H as [|x y l l' E F IH]; cbn; [tauto|]. intros [->|I]; [eauto|]. destruct (IH I) as (b & Hb & Eb). eauto. Qed.
Lemma omap_length {A B} (f : A -> option B) l l' : omap f l = Some l' -> length l' = length l.
Proof. intros H. apply omap_f2 in H. induction H; cbn; auto. Qed.
Lemma omap_app {A B} (f : A -> option B) l1 l2 : omap f (l1 ++ l2) = (a <- omap f l1 ;; b <- omap f l2 ;; Some (a ++ b)).
Proof.
  induction l1 as [|a l1 IH]; cbn [omap app obind]; [now destruct (omap f l2)|]. destruct (f a) as [b|]; cbn [obind]; [|reflexivity]. rewrite IH. destruct (omap f l1); cbn [obind]; [|reflexivity].
  now destruct (omap f l2).
Qed.

(** ** Intervals *)

Lemma fact_of_cons v V i d b : fact_of (v :: V) (S i) d b <-> fact_of V i d b.
Proof. unfold fact_of. cbn. tauto. Qed.
Lemma fact_of_0 v V d b : fact_of (v :: V) 0 d b <-> fst v + d = b /\ b <= snd v.
Proof. unfold fact_of. cbn. split; [intros (f & l & [= ->] & H); exact H|]. intros H. exists (fst v), (snd v). split; [now destruct v|auto]. Qed.
Lemma fact_of_lt V i d b : fact_of V i d b -> i < length V.
Proof. intros (f & l & H & _). apply nth_error_Some. congruence. Qed.
Lemma fact_of_app V W i d b : i < length V -> (fact_of (V ++ W) i d b <-> fact_of V i d b).
Proof. intros L. unfold fact_of. rewrite nth_error_app1; tauto. Qed.

Lemma intervals_le V : forall b n, intervals b V n -> b <= n.
Proof. induction V as [|v V IH]; cbn; intros b n; [lia|]. intros (_ & L & H). apply IH in H. lia. Qed.
Lemma fact_of_range V : forall b n i d x, intervals b V n -> fact_of V i d x -> b <= x < n.
Proof.
  induction V as [|v V IH]; intros b n i d x H F; [apply fact_of_lt in F; cbn in F; lia|]. cbn in H. destruct H as (E & L & H). destruct i as [|i].
  - apply (proj1 (fact_of_0 _ _ _ _)) in F. apply intervals_le in H. lia.
  - apply (proj1 (fact_of_cons _ _ _ _ _)) in F. apply (IH _ _ _ _ _ H) in F. lia.
Qed.
Lemma fact_of_exists V : forall b n x, intervals b V n -> b <= x < n -> exists i d, fact_of V i d x.
Proof.
  induction V as [|v V IH]; cbn; intros b n x H L; [lia|]. destruct H as (E & L2 & H). destruct (le_lt_dec x (snd v)) as [Q|Q].
  - exists 0, (x - fst v). apply fact_of_0. lia.
  - destruct (IH _ _ x H) as (i & d & F); [lia|]. exists (S i), d. now apply fact_of_cons.
Qed.
Lemma fact_of_inj V : forall b n i d x i' d', intervals b V n -> fact_of V i d x -> fact_of V i' d' x -> i = i' /\ d = d'.
Proof.
  induction V as [|v V IH]; intros b n i d x i' d' H F F'; [apply fact_of_lt in F; cbn in F; lia|]. cbn in H. destruct H as (E & L & H).
  destruct i as [|i], i' as [|i']; rewrite ?fact_of_0, ?fact_of_cons in *; [lia|apply (fact_of_range _ _ _ _ _ _ H) in F'; lia|apply (fact_of_range _ _ _ _ _ _ H) in F; lia|].
  destruct (IH _ _ _ _ _ _ _ H F F'). split; congruence.
Qed.
Lemma fact_of_fun V i d x y : fact_of V i d x -> fact_of V i d y -> x = y.
Proof. intros (f & l & E & A & _) (f' & l' & E' & A' & _). rewrite E in E'. injection E' as -> ->. lia. Qed.
Lemma fact_of_same V i d d' x : fact_of V i d x -> fact_of V i d' x -> d = d'.
Proof. intros (f & l & E & A & _) (f' & l' & E' & A' & _). rewrite E in E'. injection E' as -> ->. lia. Qed.
Lemma single_fact V i d x : single V i -> fact_of V i d x -> d = 0.
Proof. intros (f & E) (f' & l & E' & A & B). rewrite E in E'. injection E' as <- <-. lia. Qed.
Lemma single_dec V i : single V i \/ ~ single V i.
Proof.
  unfold single. destruct (nth_error V i) as [[f l]|]; [|right; intros (x & [=])]. destruct (Nat.eq_dec f l) as [->|N]; [left; eauto|right; intros (x & [= -> ->]); auto].
Qed.
Lemma intervals_app V W b n : intervals b (V ++ W) n <-> exists k, intervals b V k /\ intervals k W n.
Proof.
  revert b. induction V as [|v V IH]; intros b; cbn [app intervals]; [split; [intros H; exists b; auto|intros (k & -> & H); auto]|]. rewrite IH.
  split; [intros (A & B & k & C & D); exists k; tauto|intros (k & (A & B & C) & D); repeat split; auto; exists k; tauto].
Qed.

(** ** The conversion of the facts *)

Lemma sp_bits_fst V : forall b off n, intervals b V n -> map fst (sp_bits off V) = seq b (n - b).
Proof.
  induction V as [|v V IH]; cbn [intervals sp_bits]; intros b off n H; [subst; now rewrite Nat.sub_diag|]. destruct H as (E & L & H). rewrite map_app, (IH _ _ _ H), map_map. cbn [fst].
  apply intervals_le in H. rewrite E. assert (X : map (fun x => b + x) (seq 0 (S (snd v) - b)) = seq b (S (snd v) - b)).
  { clear. set (k := S (snd v) - b). clearbody k. assert (G : forall m, map (fun x => b + x) (seq m k) = seq (b + m) k); [|now rewrite (G 0), Nat.add_0_r]. induction k as [|k IH]; intros m; cbn; [reflexivity|]. f_equal. rewrite IH. f_equal. lia. }
  rewrite X. replace (n - b) with ((S (snd v) - b) + (n - S (snd v))) by lia. rewrite seq_app. do 2 f_equal. lia.
Qed.
Lemma sp_bits_in V : forall off x y, In (x, y) (sp_bits off V) -> exists i d, fact_of V i d x /\ fact_of (sp_vars off V) i d y.
Proof.
  induction V as [|v V IH]; cbn [sp_bits sp_vars]; intros off x y H; [destruct H|]. apply in_app_or in H as [H|H].
  - apply in_map_iff in H as (j & [= <- <-] & Hj). apply in_seq in Hj. exists 0, j. rewrite !fact_of_0. cbn [fst snd]. lia.
  - apply IH in H as (i & d & F & F'). exists (S i), d. rewrite !fact_of_cons. auto.
Qed.
Lemma sp_vars_length V : forall off, length (sp_vars off V) = length V.
Proof. induction V as [|v V IH]; cbn; intros; auto. Qed.
Lemma sp_vars_intervals V : forall off b n, intervals b V n -> exists n', intervals (b + off) (sp_vars off V) n'.
Proof.
  induction V as [|v V IH]; cbn [intervals sp_vars]; intros off b n H; [eauto|]. destruct H as (E & L & H). destruct (IH (off + b2n (alone v)) _ _ H) as (n' & I). exists n'. cbn [fst snd]. repeat split; [lia|lia|].
  replace (S (snd v + off + b2n (alone v))) with (S (snd v) + (off + b2n (alone v))) by lia. exact I.
Qed.
Lemma sp_vars_nth V : forall off i f l, nth_error V i = Some (f, l) -> exists o, nth_error (sp_vars off V) i = Some (f + o, l + o + b2n (f =? l)).
Proof. induction V as [|v V IH]; intros off [|i] f l; cbn [nth_error sp_vars]; try discriminate; [intros [= ->]; cbn; eauto|]. apply IH. Qed.

(** ** The numbers of variables and values of the facts *)

Lemma conv_writes_eq tv k :
  concat (map (fun iv : nat * var => map (fun j => (fst (snd iv) + j, Some (fst iv, j))) (seq 0 (S (snd (snd iv)) - fst (snd iv)))) (combine (seq k (length tv)) tv)) =
  match tv with [] => [] | v :: r => map (fun j => (fst v + j, Some (k, j))) (seq 0 (S (snd v) - fst v)) ++
     concat (map (fun iv : nat * var => map (fun j => (fst (snd iv) + j, Some (fst iv, j))) (seq 0 (S (snd (snd iv)) - fst (snd iv)))) (combine (seq (S k) (length r)) r)) end.
Proof. destruct tv; reflexivity. Qed.
Lemma conv_writes_fst tv : forall k b n, intervals b tv n ->
  map fst (concat (map (fun iv : nat * var => map (fun j => (fst (snd iv) + j, Some (fst iv, j))) (seq 0 (S (snd (snd iv)) - fst (snd iv)))) (combine (seq k (length tv)) tv))) = seq b (n - b).
Proof.
  induction tv as [|v V IH]; intros k b n H; rewrite conv_writes_eq; [cbn in H; subst; now rewrite Nat.sub_diag|]. cbn [intervals] in H. destruct H as (E & L & H). rewrite map_app, (IH _ _ _ H), map_map. cbn [fst].
  apply intervals_le in H. rewrite E. assert (X : map (fun x => b + x) (seq 0 (S (snd v) - b)) = seq b (S (snd v) - b)).
  { clear. set (m := S (snd v) - b). clearbody m. assert (G : forall i, map (fun x => b + x) (seq i m) = seq (b + i) m); [|now rewrite (G 0), Nat.add_0_r]. induction m as [|m IH]; intros i; cbn; [reflexivity|]. f_equal. rewrite IH. f_equal. lia. }
  rewrite X. replace (n - b) with ((S (snd v) - b) + (n - S (snd v))) by lia. rewrite seq_app. do 2 f_equal. lia.
Qed.
Lemma conv_writes_in tv : forall k x w, In (x, w) (concat (map (fun iv : nat * var => map (fun j => (fst (snd iv) + j, Some (fst iv, j))) (seq 0 (S (snd (snd iv)) - fst (snd iv)))) (combine (seq k (length tv)) tv))) ->
  exists i d, fact_of tv i d x /\ w = Some (k + i, d).
Proof.
  induction tv as [|v V IH]; intros k x w H; rewrite conv_writes_eq in H; [destruct H|]. apply in_app_or in H as [H|H].
  - apply in_map_iff in H as (j & [= <- <-] & Hj). apply in_seq in Hj. exists 0, j. rewrite fact_of_0. split; [lia|]. do 2 f_equal. lia.
  - apply IH in H as (i & d & F & ->). exists (S i), d. rewrite fact_of_cons. split; auto. do 2 f_equal. lia.
Qed.
Lemma nbits_intervals tv n : intervals 0 tv n -> nbits tv = n.
Proof.
  unfold nbits. intros H. destruct (rev tv) as [|v r] eqn:E; apply (f_equal (@rev _)) in E; rewrite rev_involutive in E; rewrite E in H.
  - exact H.
  - cbn [rev] in H. apply (proj1 (intervals_app _ _ _ _)) in H as (k & _ & H). cbn [intervals] in H. apply H.
Qed.
Lemma conv_array_some tv n : intervals 0 tv n -> exists c, conv_array tv = Some c.
Proof.
  intros H. unfold conv_array. apply writes_some. intros w Hw. rewrite repeat_length, (nbits_intervals _ _ H). assert (X := conv_writes_fst tv 0 0 n H). unfold conv_writes in Hw. apply (in_map fst) in Hw. rewrite X in Hw. apply in_seq in Hw. lia.
Qed.
Lemma conv_ok tv n c : intervals 0 tv n -> conv_array tv = Some c -> forall b i d, conv c b = Some (i, d) <-> fact_of tv i d b.
Proof.
  intros H E b i d. assert (X := conv_writes_fst tv 0 0 n H). assert (N : NoDup (map fst (conv_writes tv))) by (unfold conv_writes; rewrite X; apply seq_NoDup).
  assert (A : forall x, x < n -> exists i d, fact_of tv i d x /\ conv c x = Some (i, d)).
  { intros x L. assert (I : In x (map fst (conv_writes tv))) by (unfold conv_writes; rewrite X; apply in_seq; lia). apply in_map_iff in I as ([x' w] & Ex & I). cbn in Ex. subst x'.
    assert (G := writes_get _ _ _ _ _ E N I). apply conv_writes_in in I as (i' & d' & F & ->). exists i', d'. split; auto. unfold conv. rewrite G. reflexivity. }
  split.
  - intros C. destruct (lt_dec b n) as [L|L].
    + destruct (A b L) as (i' & d' & F & C'). rewrite C in C'. injection C' as -> ->. exact F.
    + unfold conv in C. apply obind_some in C as (x & G & _). apply get_lt in G. unfold conv_array in E. rewrite (writes_length _ _ _ E), repeat_length, (nbits_intervals _ _ H) in G. lia.
  - intros F. assert (R := fact_of_range _ _ _ _ _ _ H F). destruct (A b) as (i' & d' & F' & C); [lia|]. destruct (fact_of_inj _ _ _ _ _ _ _ _ H F F'). subst. exact C.
Qed.

(** ** The order of the subtasks *)

Lemma chosen_iff subs k a : (In k subs -> chosen subs k a <> SeenNone) /\ (In a subs -> chosen subs k a <> SeenNone) /\ (~ In k subs -> chosen subs k a <> SeenK) /\ (~ In k subs -> ~ In a subs -> chosen subs k a = SeenNone).
Proof.
  induction subs as [|x r IH]; cbn; [split; [tauto|split; [tauto|split; [discriminate|auto]]]|]. destruct (Nat.eqb_spec k x) as [->|N]; [repeat split; try discriminate; intros H; exfalso; apply H; now left|].
  destruct (Nat.eqb_spec a x) as [->|N2]; [repeat split; try discriminate; intros H1 H2; exfalso; apply H2; now left|]. destruct IH as (A & B & C & D). repeat split; intros; intuition.
Qed.

Lemma m_lt_lt m : (forall a b, In (a, b) (m_ord m) -> a < b) -> forall a b, m_lt m a b -> a < b.
Proof. intros H a b L. induction L as [a b I|a b c _ A _ B]; [now apply H|lia]. Qed.

Lemma total_before m n : total_seq m (seq 0 n) -> forall a b, a < b -> b < n -> m_lt m a b.
Proof.
  intros (_ & _ & T) a b L L2. apply (T (seq 0 a) a (seq (S a) (n - S a)) b); [|apply in_seq; lia]. replace n with (a + S (n - S a)) at 1 by lia. rewrite seq_app. reflexivity.
Qed.

Lemma m_lt_step m a b : m_lt m a b -> exists c, In (a, c) (m_ord m) /\ (c = b \/ m_lt m c b).
Proof. induction 1 as [a b I|a b c _ (x & I & H) L _]; [eauto|]. exists x. split; auto. right. destruct H as [->|H]; [exact L|]. eapply t_trans; eauto. Qed.

Lemma not_alone_used ord subs k c : In (k, c) ord -> In k subs -> not_alone ord subs k = true.
Proof.
  induction ord as [|[a b] r IH]; cbn [not_alone In]; [tauto|]. intros [E|I] H.
  - injection E as -> ->. destruct (chosen subs k k) eqn:Q; auto; exfalso.
    + clear - Q. induction subs as [|x r' IH]; cbn in Q; [discriminate|]. destruct (Nat.eqb_spec k x); [discriminate|]. auto.
    + destruct (chosen_iff subs k k) as (A & _). now apply A in H.
  - destruct (chosen subs k a); auto. destruct (b =? k); auto.
Qed.
Lemma not_alone_free ord subs k : ~ In k subs -> (forall a, In (a, k) ord -> In a subs) -> not_alone ord subs k = false.
Proof.
  intros N. induction ord as [|[a b] r IH]; cbn [not_alone In]; [auto|]. intros H. destruct (chosen_iff subs k a) as (_ & B & C & D). specialize (C N).
  assert (IH' : not_alone r subs k = false) by (apply IH; intros x Hx; apply H; now right).
  destruct (chosen subs k a) eqn:E; [congruence|exact IH'|]. destruct (Nat.eqb_spec b k) as [->|Q]; [|exact IH']. exfalso. apply B; auto.
Qed.
Lemma find_first {A} (f : A -> bool) l1 x l2 : (forall y, In y l1 -> f y = false) -> f x = true -> find f (l1 ++ x :: l2) = Some x.
Proof. induction l1 as [|y l1 IH]; cbn; intros H E; [now rewrite E|]. rewrite (H y); [|now left]. apply IH; auto. Qed.
Lemma omap_rev_get {A} (l : list A) : omap (fun k => get l (length l - 1 - k)) (seq 0 (length l)) = Some (rev l).
Proof.
  apply omap_f2. assert (G : forall l0 k, k + length l0 = length l -> (forall i, nth_error l0 i = nth_error l i) \/ True -> True) by auto. clear G.
  assert (X : forall i, i < length l -> nth_error (rev l) i = nth_error l (length l - 1 - i)).
  { intros i L. assert (E : length (rev l) = length l) by apply rev_length. destruct l as [|d l0] eqn:El; [cbn in L; lia|]. rewrite <- El in *. rewrite (nth_error_nth' (rev l) d) by lia. rewrite (nth_error_nth' l d) by lia. rewrite rev_nth by auto. do 2 f_equal. lia. }
  assert (F : forall k, k <= length l -> Forall2 (fun a b => get l (length l - 1 - a) = Some b) (seq 0 k) (firstn k (rev l))).
  { induction k as [|k IH]; intros L; [constructor|]. replace (seq 0 (S k)) with (seq 0 k ++ [k]) by (replace (S k) with (k + 1) by lia; now rewrite seq_app).
    assert (L2 : k < length (rev l)) by (rewrite rev_length; lia). destruct (nth_error (rev l) k) as [x|] eqn:Ex; [|apply nth_error_None in Ex; lia].
    assert (Y : firstn (S k) (rev l) = firstn k (rev l) ++ [x]). { clear - Ex. revert k Ex. induction (rev l) as [|y r IH]; intros [|k]; cbn; intros E; try discriminate; [congruence|]. f_equal. now apply IH. }
    rewrite Y. apply Forall2_app; [apply IH; lia|]. constructor; [|constructor]. unfold get. rewrite <- X by lia. exact Ex. }
  specialize (F (length l) (le_n _)). rewrite firstn_all2 in F; auto. rewrite rev_length. auto.
Qed.

Lemma lead_some (prim : list bool) (ts : list nat) : (forall t, In t ts -> t < length prim) -> exists f, lead_prims prim ts = Some f.
Proof.
  induction ts as [|t r IH]; cbn [lead_prims]; intros H; [eauto|]. destruct (get_some prim t) as (b & E); [apply H; now left|]. rewrite E. cbn [obind]. destruct b; [|eauto]. destruct IH as (f & ->); [intros; apply H; now right|]. cbn. eauto.
Qed.

Section Reorder.
  Variables (prim : list bool) (m : method) (n : nat).
  Hypotheses (En : n = length (m_subs m)) (R : forall a b, In (a, b) (m_ord m) -> a < n /\ b < n) (AC : forall j, ~ m_lt m j j) (T : total_seq m (seq 0 n)).

  Lemma ord_lt a b : In (a, b) (m_ord m) -> a < b.
  Proof.
    intros I. destruct (R _ _ I) as [La Lb]. destruct (lt_eq_lt_dec a b) as [[L|E]|L]; [exact L|subst; exfalso; apply (AC b); now apply t_step|].
    exfalso. apply (AC a). eapply t_trans; [apply t_step, I|]. now apply (total_before m n).
  Qed.
  (** Consecutive subtasks are directly ordered. *)
  Lemma ord_succ j : S j < n -> In (j, S j) (m_ord m).
  Proof.
    intros L. assert (X := total_before m n T j (S j) ltac:(lia) L). apply m_lt_step in X as (c & I & H). destruct H as [->|H]; auto. apply ord_lt in I. apply (m_lt_lt m ord_lt) in H. lia.
  Qed.

  Lemma pick_next j : j < n -> 2 <= n -> pick n (m_ord m) (seq 0 j) = Some j.
  Proof.
    intros L L2. unfold pick. replace (seq 0 n) with (seq 0 j ++ j :: seq (S j) (n - S j)).
    - apply find_first.
      + intros y Hy. apply in_seq in Hy. rewrite (not_alone_used _ _ y (S y)); auto; [apply ord_succ; lia|apply in_seq; lia].
      + rewrite not_alone_free; auto; [rewrite in_seq; lia|]. intros a I. apply ord_lt in I. apply in_seq. lia.
    - replace n with (j + S (n - S j)) at 2 by lia. rewrite seq_app. reflexivity.
  Qed.
  Lemma picks_id k : forall j, j + k = n -> 2 <= n -> picks n (m_ord m) k (seq 0 j) = Some (seq 0 n).
  Proof.
    induction k as [|k IH]; intros j E L; cbn [picks]; [do 2 f_equal; lia|]. rewrite pick_next; [|lia|auto]. cbn [obind]. replace (seq 0 j ++ [j]) with (seq 0 (S j)) by (replace (S j) with (j + 1) by lia; now rewrite seq_app). apply IH; auto. lia.
  Qed.

  Lemma reorder_in_order f : m_subs m <> [] -> lead_prims prim (m_subs m) = Some f -> reorder prim m = Some (rev (m_subs m), f).
  Proof.
    intros NE Lf. assert (OS := ord_succ 0). assert (X := picks_id n 0 eq_refl). assert (En' := En). unfold reorder. rewrite <- En'. clear AC. clear R. clear T. clear En. destruct (m_subs m) as [|t [|t2 r]] eqn:Es; [congruence| |].
    - cbn [lead_prims] in Lf. apply obind_some in Lf as (b & E & Lf). rewrite E. cbn. destruct b; cbn in Lf; injection Lf as <-; reflexivity.
    - assert (L : 2 <= n) by (rewrite En'; cbn; lia). destruct (m_ord m) as [|o os] eqn:Eo; [exfalso; destruct (OS ltac:(lia))|]. rewrite <- Eo.
      specialize (X L). cbn [seq] in X. rewrite Eo, X. cbn [obind]. rewrite En', omap_rev_get. cbn [obind]. rewrite Lf. reflexivity.
  Qed.
End Reorder.
