(** Variables of the tree: every variable is used for one thing, and everything that is not pruned has one. *)
From Verif Require Import Base Htn_problem Htn_spec Sf_proof Tab_proof Pdt_model Pdt_tree Pdt_expand Pdt_prune Pdt_leafs.

Definition cvars (pr : bool) (d : pnode) : list (option Z) := if pr then pn_pvar d else pn_avar d.
Definition mvars (d : pnode) : list Z := if pn_exp d then somes (concat (pn_mvar d)) else [].
Fixpoint avars (t : pdt) : list Z := match t with PNode d ch => own_vars d ++ mvars d ++ flat_map avars ch end.

(** ** Fresh variables *)
Local Open Scope Z_scope.
Definition ext (nv nv' : Z) (old new : list Z) : Prop :=
  nv <= nv' /\ (forall x, In x new -> In x old \/ nv < x <= nv') /\ incl old new /\ (NoDup old -> (forall x, In x old -> x <= nv) -> NoDup new).
Lemma ext_refl nv l : ext nv nv l l.
Proof. repeat split; auto; try lia. apply incl_refl. Qed.
Lemma ext_new nv : ext nv (nv + 1) [] [nv + 1].
Proof. split; [lia|]. split; [intros x [<-|[]]; right; lia|]. split; [intros x []|]. intros _ _. constructor; [intros []|constructor]. Qed.
Lemma ext_app nv nv1 nv2 A A' B B' : ext nv nv1 A A' -> ext nv1 nv2 B B' -> ext nv nv2 (A ++ B) (A' ++ B').
Proof.
  intros (L1 & N1 & I1 & D1) (L2 & N2 & I2 & D2). split; [lia|]. split; [|split].
  - intros x Hx. apply in_app_or in Hx as [Hx|Hx]; [destruct (N1 x Hx)|destruct (N2 x Hx)]; try (left; apply in_or_app; tauto); right; lia.
  - intros x Hx. apply in_or_app. apply in_app_or in Hx as [Hx|Hx]; auto.
  - intros ND LE. apply nodup_app_iff in ND as (ND1 & ND2 & DJ). apply nodup_app_iff. split; [apply D1; auto; intros x Hx; apply LE, in_or_app; auto|]. split; [apply D2; auto; intros x Hx; assert (x <= nv) by (apply LE, in_or_app; auto); lia|].
    intros x H1 H2. destruct (N1 x H1) as [X|X], (N2 x H2) as [Y|Y]; try lia; [exact (DJ x X Y)| |]; [assert (x <= nv) by (apply LE, in_or_app; auto)|assert (x <= nv) by (apply LE, in_or_app; auto)]; lia.
Qed.

Lemma somes_app {A} (l r : list (option A)) : somes (l ++ r) = somes l ++ somes r.
Proof. unfold somes. now rewrite flat_map_app. Qed.
Lemma somes_none {A} n : somes (repeat (@None A) n) = [].
Proof. induction n; auto. Qed.
Lemma somes_in {A} (l : list (option A)) x : In x (somes l) <-> exists i, nth_error l i = Some (Some x).
Proof.
  unfold somes. rewrite in_flat_map. split.
  - intros (o & Ho & Hx). destruct o; [|destruct Hx]. destruct Hx as [->|[]]. now apply In_nth_error.
  - intros (i & E). exists (Some x). split; [eapply nth_error_In; eauto|now left].
Qed.

Lemma assign_list_ok f l : forall i nv l' nv', assign_list f i l nv = (l', nv') -> ext nv nv' (somes l) (somes l') /\ length l' = length l /\
  (forall k v, nth_error l k = Some (Some v) -> nth_error l' k = Some (Some v)) /\
  (forall k, nth_error l k = Some None -> (f (i + k)%nat = true -> nth_error l' k = Some None) /\ (f (i + k)%nat = false -> exists v, nth_error l' k = Some (Some v))).
Proof.
  induction l as [|x r IH]; intros i nv l' nv' E; cbn [assign_list] in E.
  - apply pair_equal_spec in E as [<- <-]. split; [apply ext_refl|]. split; auto. split; intros [|k]; discriminate.
  - destruct (match x with Some _ => (x, nv) | None => if f i then (None, nv) else (Some (nv + 1), nv + 1) end) as [x' nv1] eqn:Ex. destruct (assign_list f (S i) r nv1) as [r' nv2] eqn:Er. apply pair_equal_spec in E as [<- <-].
    destruct (IH (S i) nv1 r' nv2 Er) as (E1 & L1 & K1 & N1).
    assert (EX : ext nv nv1 (somes [x]) (somes [x']) /\ (forall v, x = Some v -> x' = Some v) /\ (x = None -> (f i = true -> x' = None) /\ (f i = false -> exists v, x' = Some v))).
    { destruct x as [v|]; [apply pair_equal_spec in Ex as [<- <-]; split; [apply ext_refl|split; [auto|discriminate]]|]. destruct (f i); apply pair_equal_spec in Ex as [<- <-]; cbn [somes flat_map app].
      - split; [apply ext_refl|]. split; [discriminate|]. split; auto. discriminate.
      - split; [apply ext_new|]. split; [discriminate|]. split; [discriminate|eauto]. }
    destruct EX as (EX & KX & NX). split; [|split; [cbn; auto|split]].
    + change (x :: r) with ([x] ++ r). change (x' :: r') with ([x'] ++ r'). rewrite !somes_app. eapply ext_app; eauto.
    + intros [|k] v H; cbn [nth_error] in *; [injection H as H; f_equal; auto|auto].
    + intros [|k] H; cbn [nth_error] in *; [injection H as H; rewrite Nat.add_0_r; destruct (NX H) as [A B]; split; [intros Hf; f_equal; auto|intros Hf; destruct (B Hf) as (v & ->); eauto]|]. rewrite <- Nat.add_succ_comm. auto.
Qed.
Lemma assign_list_none f n i nv l' nv' : assign_list f i (repeat None n) nv = (l', nv') -> ext nv nv' [] (somes l') /\ length l' = n /\
  (forall k, (k < n)%nat -> (exists v, nth_error l' k = Some (Some v)) <-> f (i + k)%nat = false).
Proof.
  intros E. apply assign_list_ok in E as (E1 & E2 & _ & E4). rewrite somes_none in E1. rewrite repeat_length in E2. split; auto. split; auto. intros k Hk. destruct (E4 k) as [A B]; [now apply get_repeat|]. destruct (f (i + k)%nat); split; auto; try discriminate. intros (v & Hv). rewrite A in Hv by auto. discriminate.
Qed.
Lemma assign_methods_ok P q F abs : forall a nv ms nv', assign_methods P q F a abs nv = (ms, nv') -> ext nv nv' [] (somes (concat ms)) /\ length ms = length abs /\
  forall k x, nth_error abs k = Some x -> exists mvs, nth_error ms k = Some mvs /\ length mvs = nmeth P x /\ forall m, (m < nmeth P x)%nat -> (exists v, nth_error mvs m = Some (Some v)) <-> ~ In (IM q (a + k)%nat m) F.
Proof.
  induction abs as [|t r IH]; intros a nv ms nv' E; cbn [assign_methods] in E.
  - apply pair_equal_spec in E as [<- <-]. split; [apply ext_refl|]. split; auto. intros [|k]; discriminate.
  - destruct (assign_list (fun m => marked F (IM q a m)) 0 (repeat None (nmeth P t)) nv) as [x nv1] eqn:Ex. destruct (assign_methods P q F (S a) r nv1) as [xs nv2] eqn:Er. apply pair_equal_spec in E as [<- <-].
    destruct (IH _ _ _ _ Er) as (E1 & L1 & K1). apply assign_list_none in Ex as (X1 & X2 & X3). split; [|split; [cbn; auto|]].
    + cbn [concat]. rewrite somes_app. exact (ext_app _ _ _ [] _ [] _ X1 E1).
    + intros [|k] y H; cbn [nth_error] in *; [injection H as <-; exists x; split; auto; split; auto; intros m Hm; rewrite (X3 m Hm), Nat.add_0_r; cbn [plus]; apply marked_out|]. rewrite <- Nat.add_succ_comm. auto.
Qed.

(** ** Assignment *)
Record nasg (P : problem) (F : flags) (q : list nat) (d d' : pnode) : Prop := {
  na_core : core d' = core d;
  na_exp : pn_exp d' = pn_exp d;
  na_ptr : pn_ptr d' = pn_ptr d;
  na_pos : pn_pos d' = pn_pos d;
  na_none : exists z, pn_none d' = Some z;
  na_len : forall pr, length (cvars pr d') = length (ctasks pr d');
  na_old : forall pr i v, nth_error (cvars pr d) i = Some (Some v) -> nth_error (cvars pr d') i = Some (Some v);
  na_new : forall pr i v, nth_error (cvars pr d') i = Some (Some v) -> nth_error (cvars pr d) i = Some (Some v) \/ ~ In (itask pr q i) F;
  na_get : forall pr i x, nth_error (ctasks pr d') i = Some x -> ~ In (itask pr q i) F -> exists v, nth_error (cvars pr d') i = Some (Some v);
  na_meth : pn_exp d = true -> length (pn_mvar d') = length (pn_abs d) /\ forall a x, nth_error (pn_abs d) a = Some x -> exists mvs, nth_error (pn_mvar d') a = Some mvs /\ length mvs = nmeth P x /\
     forall m, (m < nmeth P x)%nat -> (exists v, nth_error mvs m = Some (Some v)) <-> ~ In (IM q a m) F }.
Inductive asg (P : problem) (F : flags) : list nat -> pdt -> pdt -> Prop :=
| asg_node q d ch d' ch' : nasg P F q d d' -> length ch' = length ch -> (forall c u u', nth_error ch c = Some u -> nth_error ch' c = Some u' -> asg P F (c :: q) u u') -> asg P F q (PNode d ch) (PNode d' ch').

Lemma assign_node_ok P q F d ch nv d' nv' : vcond d ch -> assign_node P q F d nv = (d', nv') -> nasg P F q d d' /\ ext nv nv' (own_vars d) (own_vars d' ++ mvars d').
Proof.
  intros [VC _] E. unfold assign_node in E.
  destruct (match pn_none d with Some x => (x, pn_pvar d, pn_avar d, nv) | None => (nv + 1, repeat None (length (pn_prims d)), repeat None (length (pn_abs d)), nv + 1) end) as [[[none pv] av] nv0] eqn:E0.
  destruct (assign_list (fun p => marked F (IP q p)) 0 pv nv0) as [pv' nv1] eqn:E1. destruct (assign_list (fun a => marked F (IA q a)) 0 av nv1) as [av' nv2] eqn:E2.
  destruct (if pn_exp d then assign_methods P q F 0 (pn_abs d) nv2 else (pn_mvar d, nv2)) as [mv' nv3] eqn:E3. apply pair_equal_spec in E as [<- <-].
  assert (H0 : ext nv nv0 (somes [pn_none d]) [none] /\ length pv = length (pn_prims d) /\ length av = length (pn_abs d) /\ somes pv = somes (pn_pvar d) /\ somes av = somes (pn_avar d) /\
    (forall i v, nth_error (pn_pvar d) i = Some (Some v) <-> nth_error pv i = Some (Some v)) /\ (forall i v, nth_error (pn_avar d) i = Some (Some v) <-> nth_error av i = Some (Some v))).
  { destruct (pn_none d) as [z|].
    - injection E0 as <- <- <- <-. destruct VC as [V1 V2]. split; [apply ext_refl|]. repeat split; auto.
    - injection E0 as <- <- <- <-. destruct VC as [-> ->]. split; [apply ext_new|]. rewrite !repeat_length, !somes_none. repeat split; auto; intros H; try (destruct i; discriminate); apply nth_error_In, repeat_spec in H; discriminate. }
  destruct H0 as (X0 & Lp & La & Sp & Sa & Kp & Ka). apply assign_list_ok in E1 as (X1 & L1 & O1 & N1). apply assign_list_ok in E2 as (X2 & L2 & O2 & N2). cbn [plus] in N1, N2.
  assert (X3 : ext nv2 nv3 [] (if pn_exp d then somes (concat mv') else []) /\ (pn_exp d = true -> length mv' = length (pn_abs d) /\ forall a x, nth_error (pn_abs d) a = Some x -> exists mvs, nth_error mv' a = Some mvs /\ length mvs = nmeth P x /\
     forall m, (m < nmeth P x)%nat -> (exists v, nth_error mvs m = Some (Some v)) <-> ~ In (IM q a m) F)).
  { destruct (pn_exp d).
    - apply assign_methods_ok in E3 as (Y1 & Y2 & Y3). split; auto.
    - injection E3 as <- <-. split; [apply ext_refl|discriminate]. }
  destruct X3 as [X3 M3].
  assert (G : forall (l l' : list (option Z)) (f : nat -> bool) i (x : Z), length l' = length l -> (forall k v, nth_error l k = Some (Some v) -> nth_error l' k = Some (Some v)) ->
     (forall k, nth_error l k = Some None -> (f k = true -> nth_error l' k = Some None) /\ (f k = false -> exists v, nth_error l' k = Some (Some v))) -> nth_error l' i = Some (Some x) -> nth_error l i = Some (Some x) \/ f i = false).
  { clear. intros l l' f i x L O N H. assert (Z : (i < length l)%nat) by (rewrite <- L; apply nth_error_Some; congruence). apply get_some in Z as ([y|] & Hy); unfold get in Hy; [rewrite (O _ _ Hy) in H; left; congruence|]. destruct (N i Hy) as [A _]. destruct (f i); auto. rewrite A in H by auto. discriminate. }
  assert (G' : forall (l l' : list (option Z)) (f : nat -> bool) n i (x : nat), length l = n -> (i < n)%nat -> (forall k v, nth_error l k = Some (Some v) -> nth_error l' k = Some (Some v)) ->
     (forall k, nth_error l k = Some None -> (f k = true -> nth_error l' k = Some None) /\ (f k = false -> exists v, nth_error l' k = Some (Some v))) -> f i = false -> exists v : Z, nth_error l' i = Some (Some v)).
  { clear. intros l l' f n i x L Li O N H. rewrite <- L in Li. apply get_some in Li as ([y|] & Hy); unfold get in Hy; [eauto|]. apply (N i Hy). exact H. }
  split.
  - constructor; cbn; auto.
    + eauto.
    + intros [|]; cbn; congruence.
    + intros [|] i v; cbn [cvars pn_pvar pn_avar]; [rewrite Kp|rewrite Ka]; auto.
    + intros [|] i v H; cbn [cvars pn_pvar pn_avar itask] in *.
      * rewrite Kp. rewrite <- marked_out. exact (G pv pv' _ i v L1 O1 N1 H).
      * rewrite Ka. rewrite <- marked_out. exact (G av av' _ i v L2 O2 N2 H).
    + intros [|] i x H1 H2; cbn [cvars pn_pvar pn_avar itask ctasks pn_prims pn_abs] in *; apply marked_out in H2; assert (Li := proj1 (nth_error_Some _ i) ltac:(rewrite H1; discriminate)).
      * exact (G' pv pv' _ _ i x Lp Li O1 N1 H2).
      * exact (G' av av' _ _ i x La Li O2 N2 H2).
  - unfold own_vars, task_vars, mvars. cbn [pn_none pn_pvar pn_avar pn_exp pn_mvar]. rewrite <- Sp, <- Sa. rewrite <- app_assoc. replace (somes [pn_none d] ++ somes pv ++ somes av) with (somes [pn_none d] ++ (somes pv ++ somes av) ++ []) by (now rewrite app_nil_r).
    eapply ext_app; [exact X0|]. eapply ext_app; [|exact X3]. eapply ext_app; eauto.
Qed.

Lemma assign_ok {KI : kind} P F : forall t q nv t' nv', tree_ok P t -> tall vcond t -> assign P F t q nv = (t', nv') -> asg P F q t t' /\ ext nv nv' (tvars t) (avars t').
Proof.
  induction t as [d ch IH] using pdt_rect'. intros q nv t' nv' TO VC E. cbn [assign] in E. destruct (assign_node P q F d nv) as [d' nv1] eqn:En. apply tall_node in VC as [VC VA]. apply tree_ok_node in TO as (_ & TO & TA).
  destruct (assign_node_ok _ _ _ _ _ _ _ _ VC En) as [NA EX]. destruct (pn_exp d) eqn:Ee.
  - destruct ((fix go (l : list pdt) (i : nat) (nv : Z) {struct l} := match l with [] => ([], nv) | u :: r => let '(u', nv') := assign P F u (i :: q) nv in let '(r', nv'') := go r (S i) nv' in (u' :: r', nv'') end) ch O nv1) as [ch' nv2] eqn:Ec.
    apply pair_equal_spec in E as [<- <-].
    assert (G : forall l i nv l' nv', Forall (fun t => forall q nv t' nv', tree_ok P t -> tall vcond t -> assign P F t q nv = (t', nv') -> asg P F q t t' /\ ext nv nv' (tvars t) (avars t')) l -> Forall (tree_ok P) l -> Forall (tall vcond) l ->
      (fix go (l : list pdt) (i : nat) (nv : Z) {struct l} := match l with [] => ([], nv) | u :: r => let '(u', nv') := assign P F u (i :: q) nv in let '(r', nv'') := go r (S i) nv' in (u' :: r', nv'') end) l i nv = (l', nv') ->
      length l' = length l /\ (forall c u u', nth_error l c = Some u -> nth_error l' c = Some u' -> asg P F ((i + c)%nat :: q) u u') /\ ext nv nv' (flat_map tvars l) (flat_map avars l')).
    { clear. induction l as [|u r IHl]; intros i nv l' nv' IH TA VA E.
      - apply pair_equal_spec in E as [<- <-]. split; auto. split; [intros [|c]; discriminate|apply ext_refl].
      - destruct (assign P F u (i :: q) nv) as [u' nv1] eqn:E1. match type of E with (let '(_, _) := ?g in _) = _ => destruct g as [r' nv2] eqn:E2 end. apply pair_equal_spec in E as [<- <-]. inversion IH as [|? ? IH1 IH2]; subst. inversion TA; subst. inversion VA; subst.
        destruct (IH1 _ _ _ _ ltac:(eassumption) ltac:(eassumption) E1) as [A1 X1]. destruct (IHl _ _ _ _ IH2 ltac:(eassumption) ltac:(eassumption) E2) as (L2 & A2 & X2). split; [cbn; auto|]. split; [|cbn [flat_map]; eapply ext_app; eauto].
        intros [|c] w w' Hw Hw'; cbn [nth_error] in *; [injection Hw as <-; injection Hw' as <-; now rewrite Nat.add_0_r|]. rewrite <- Nat.add_succ_comm. eauto. }
    destruct (G ch O nv1 ch' nv2 IH TA VA Ec) as (L & A & X). split; [constructor; auto|]. cbn [tvars avars]. rewrite app_assoc. eapply ext_app; eauto.
  - apply pair_equal_spec in E as [<- <-]. subst ch. split; [constructor; auto; intros [|c]; discriminate|]. cbn [tvars avars flat_map]. rewrite !app_nil_r. exact EX.
Qed.

(** ** Consequences *)
Lemma asg_data P F q t t' : asg P F q t t' -> nasg P F q (dat t) (dat t').
Proof. intros H. inversion H; subst. auto. Qed.
Lemma asg_kids P F q t t' : asg P F q t t' -> length (kids t') = length (kids t).
Proof. intros H. inversion H; subst. auto. Qed.
Lemma asg_at P F path : forall q t t' u, asg P F q t t' -> subtree t path = Some u -> exists u', subtree t' path = Some u' /\ asg P F (rev path ++ q) u u'.
Proof.
  induction path as [|c path IH]; intros q t t' u A E; cbn [subtree] in *; [injection E as <-; eauto|]. apply obind_some in E as (w & E1 & E2). inversion A as [q0 d ch d' ch' N L K]; subst. cbn [kids] in *.
  assert (Lc := get_lt _ _ _ E1). rewrite <- L in Lc. apply get_some in Lc as (w' & Hw'). destruct (IH (c :: q) w w' u (K c w w' E1 Hw') E2) as (u' & X & Y). exists u'. rewrite Hw'. cbn [obind rev]. rewrite <- app_assoc. auto.
Qed.
Lemma asg_at' P F path : forall q t t' u', asg P F q t t' -> subtree t' path = Some u' -> exists u, subtree t path = Some u /\ asg P F (rev path ++ q) u u'.
Proof.
  induction path as [|c path IH]; intros q t t' u A E; cbn [subtree] in *; [injection E as <-; eauto|]. apply obind_some in E as (w & E1 & E2). inversion A as [q0 d ch d' ch' N L K]; subst. cbn [kids] in *.
  assert (Lc := get_lt _ _ _ E1). rewrite L in Lc. apply get_some in Lc as (w' & Hw'). destruct (IH (c :: q) w' w u (K c w' w Hw' E1) E2) as (u' & X & Y). exists u'. rewrite Hw'. cbn [obind rev]. rewrite <- app_assoc. auto.
Qed.
Lemma asg_tree_ok {KI : kind} P F : forall t q t', asg P F q t t' -> tree_ok P t -> tree_ok P t'.
Proof.
  induction t as [d ch IH] using pdt_rect'. intros q t' A H. inversion A as [q0 d0 ch0 d' ch' N L K]; subst. apply tree_ok_node in H as (H1 & H2 & H3). apply tree_ok_node. split; [exact (tasks_ok_ext _ _ _ (eq_sym (na_core _ _ _ _ _ N)) H1)|]. split.
  - rewrite (na_exp _ _ _ _ _ N). destruct (pn_exp d).
    + destruct H2 as [H2 H2']. split; [destruct ch, ch'; cbn in L; congruence|]. refine (node_ok_ext P d d' (map dat ch) (map dat ch') (eq_sym (na_core _ _ _ _ _ N)) (eq_sym (na_ptr _ _ _ _ _ N)) (eq_sym (na_pos _ _ _ _ _ N)) _ H2').
      clear -L K. revert ch' L K. assert (G : forall b ch', length ch' = length ch -> (forall c u u', nth_error ch c = Some u -> nth_error ch' c = Some u' -> asg P F ((b + c)%nat :: q) u u') -> map core (map dat ch) = map core (map dat ch')).
      { induction ch as [|u r IH]; intros b [|u' r'] L K; try discriminate; auto. cbn [map]. f_equal; [specialize (K O u u' eq_refl eq_refl); apply asg_data in K; symmetry; apply (na_core _ _ _ _ _ K)|]. apply (IH (S b)); [cbn in L; lia|]. intros c w w' Hw Hw'. rewrite Nat.add_succ_comm. exact (K (S c) w w' Hw Hw'). }
      intros ch' L K. apply (G O); auto.
    + subst ch. destruct ch'; [auto|discriminate].
  - rewrite Forall_forall in *. intros u' Hu. apply In_nth_error in Hu as (c & Hc). assert (Lc := get_lt _ _ _ Hc). rewrite L in Lc. apply get_some in Lc as (u & Hu). apply (IH u (nth_error_In _ _ Hu) (c :: q) u' (K c u u' Hu Hc)). apply H3. eapply nth_error_In; eauto.
Qed.
Lemma asg_closed P F q0 q t t' : asg P F q0 t t' -> closed P F q t -> closed P F q t'.
Proof.
  intros A [H1 H2 H3 H4 H5]. assert (L := asg_kids _ _ _ _ _ A). apply asg_data in A. destruct (core_eq _ _ (na_core _ _ _ _ _ A)) as (C1 & C2 & C3 & C4).
  assert (CC : forall pr, ccauses pr (dat t') = ccauses pr (dat t)) by (intros []; auto). assert (FP : forall a m c, find_ptr (dat t') a m c = find_ptr (dat t) a m c) by (intros; unfold find_ptr; now rewrite (na_ptr _ _ _ _ _ A)).
  constructor.
  - intros Q pr i cs. rewrite CC. apply H1; exact Q.
  - intros a x m. rewrite (na_exp _ _ _ _ _ A), C2. apply H2.
  - intros c0 q' pr i cs c k. rewrite CC. apply H3.
  - intros p x c i k. rewrite L, C1, (na_pos _ _ _ _ _ A). apply H4.
  - intros a x m c k. rewrite L, C2, FP. apply H5.
Qed.

Lemma tvars_incl t : incl (tvars t) (avars t).
Proof.
  induction t as [d ch IH] using pdt_rect'. cbn [tvars avars]. intros x Hx. apply in_app_or in Hx as [Hx|Hx]; [apply in_or_app; auto|]. do 2 (apply in_or_app; right). rewrite Forall_forall in IH. apply in_flat_map in Hx as (u & Hu & Hx). apply in_flat_map. exists u. split; auto. now apply IH.
Qed.
Lemma flat_incl {A B} (f g : A -> list B) l : Forall (fun x => incl (f x) (g x)) l -> incl (flat_map f l) (flat_map g l).
Proof. intros H x Hx. apply in_flat_map in Hx as (u & Hu & Hx). apply in_flat_map. exists u. split; auto. rewrite Forall_forall in H. now apply H. Qed.
Lemma tvars_nodup t : NoDup (avars t) -> NoDup (tvars t).
Proof.
  induction t as [d ch IH] using pdt_rect'. cbn [tvars avars]. intros H. apply nodup_app_iff in H as (H1 & H2 & H3). apply nodup_app_iff in H2 as (_ & H2 & _). apply nodup_app_iff. split; auto. split.
  - clear -IH H2. induction IH as [|u r Hu IHr IH']; [constructor|]. cbn [flat_map] in *. apply nodup_app_iff in H2 as (X1 & X2 & X3). apply nodup_app_iff. split; auto. split; auto. intros x Y1 Y2. apply (X3 x); [now apply tvars_incl|]. exact (flat_incl tvars avars r (proj2 (Forall_forall _ r) (fun u' _ => tvars_incl u')) x Y2).
  - intros x X1 X2. apply (H3 x X1). apply in_or_app. right. exact (flat_incl tvars avars ch (proj2 (Forall_forall _ ch) (fun u' _ => tvars_incl u')) x X2).
Qed.

Section VC.
  Context {KI : kind}.
  Variables (P : problem) (F : flags) (T T' : pdt).
  Hypothesis TO : tree_ok P T.
  Hypothesis CL : forall q t, at_node T q t -> closed P F q t.
  Hypothesis AS : asg P F [] T T'.

  Lemma task_vars_in d x : In x (task_vars d) <-> exists pr i, nth_error (cvars pr d) i = Some (Some x).
  Proof. unfold task_vars. rewrite in_app_iff, !somes_in. split; [intros [(i & H)|(i & H)]; [exists true, i|exists false, i]; auto|]. intros ([|] & i & H); eauto. Qed.
  (** An unpruned task below an expanded node has an unpruned cause. *)
  Lemma cause_left c q u pr i x : at_node T (c :: q) u -> nth_error (ctasks pr (dat u)) i = Some x -> ~ In (itask pr (c :: q) i) F -> exists d ch pr' i' y, at_node T q (PNode d ch) /\ nth_error (ctasks pr' d) i' = Some y /\ ~ In (itask pr' q i') F.
  Proof.
    intros A E N. destruct (at_mother T c q u A) as ([d ch] & A' & G). destruct (at_child_data P T TO q d ch c u A' G) as (Ee & NO & E'). exists d, ch. cbn [kids] in G.
    assert (Lc : (i < length (ccauses pr (dat u)))%nat) by (rewrite (no_len _ _ _ NO (dat u) pr (nth_error_In _ _ E')); apply nth_error_Some; congruence). apply get_some in Lc as (cs & Hcs). unfold get in Hcs.
    assert (EX : exists j, (j < length cs)%nat /\ ~ In (icause pr (c :: q) i j) F).
    { destruct (forallb (fun j => marked F (icause pr (c :: q) i j)) (seq 0 (length cs))) eqn:B.
      - exfalso. apply N. apply (cl_own P F _ _ (CL _ _ A) ltac:(discriminate) pr i cs Hcs). intros j Hj. apply marked_in. rewrite forallb_forall in B. apply B. apply in_seq. lia.
      - assert (Z : exists j, In j (seq 0 (length cs)) /\ marked F (icause pr (c :: q) i j) = false). { clear -B. induction (seq 0 (length cs)) as [|j l IH]; [discriminate|]. cbn [forallb] in B. destruct (marked F (icause pr (c :: q) i j)) eqn:M; [destruct (IH B) as (k & K1 & K2); exists k; split; auto; now right|]. exists j. split; auto. now left. }
        destruct Z as (j & Z1 & Z2). apply in_seq in Z1. apply marked_out in Z2. exists j. split; auto. lia. }
    destruct EX as (j & Lj & Nj). apply get_some in Lj as ([[a|] m] & Hk); assert (Z := no_cause _ _ _ NO c (dat u) pr i cs j _ E' Hcs Hk).
    - destruct Z as (Z & t & Ht & Lm). exists false, a, t. split; [auto|]. split; auto. cbn [itask]. intros HA. apply Nj. assert (HM := cl_meth P F _ _ (CL _ _ A') a t m Ee Ht HA Lm). assert (Lk := get_lt _ _ _ G).
      assert (R := cl_down_m P F _ _ (CL _ _ A') a t m c _ Lk Ht Lm HM Z). unfold ptr_item in R. cbn in R. destruct pr; exact R.
    - destruct Z as (-> & Z). assert (Lm : (m < length (pn_prims d))%nat) by (rewrite <- (no_pos _ _ _ NO); apply nth_error_Some; congruence). apply get_some in Lm as (y & Hy). exists true, m, y. split; [auto|]. split; auto. cbn [itask]. intros HA. apply Nj. assert (Lk := get_lt _ _ _ G).
      exact (cl_down_p P F _ _ (CL _ _ A') m y c i j Lk Hy HA Z).
  Qed.

  Lemma asg_vcond : tall vcond T -> tall vcond T'.
  Proof.
    assert (G : forall t q t', at_node T q t -> asg P F q t t' -> tall vcond t -> tall vcond t').
    { induction t as [d ch IH] using pdt_rect'. intros q t' A H V. inversion H as [q0 d0 ch0 d' ch' N L K]; subst. apply tall_node in V as [[V1 V2] V3]. apply tall_node.
      assert (KK : forall u', In u' ch' -> exists c u, nth_error ch c = Some u /\ nth_error ch' c = Some u' /\ asg P F (c :: q) u u'). { intros u' Hu. apply In_nth_error in Hu as (c & Hc). assert (Lc := get_lt _ _ _ Hc). rewrite L in Lc. apply get_some in Lc as (u & Hu). exists c, u. eauto. }
      split.
      - split.
        + destruct (na_none _ _ _ _ _ N) as (z & ->). exact (conj (na_len _ _ _ _ _ N true) (na_len _ _ _ _ _ N false)).
        + intros E u' Hu. destruct (KK u' Hu) as (c & u & Hc & Hc' & Ku). destruct (task_vars (dat u')) as [|v r] eqn:Ev; auto. exfalso.
          assert (Hv : In v (task_vars (dat u'))) by (rewrite Ev; now left). apply task_vars_in in Hv as (pr & i & Hv). assert (Nu := asg_data _ _ _ _ _ Ku). destruct (na_new _ _ _ _ _ Nu pr i v Hv) as [O|NM].
          * assert (X : task_vars d <> []). { intros X. assert (In v (task_vars (dat u))) by (apply task_vars_in; eauto). rewrite (V2 X u (nth_error_In _ _ Hc)) in H0. destruct H0. }
            destruct (task_vars d) as [|w r'] eqn:Ew; [congruence|]. assert (Hw : In w (task_vars d)) by (rewrite Ew; now left). apply task_vars_in in Hw as (pr' & i' & Hw). apply (na_old _ _ _ _ _ N) in Hw. assert (In w (task_vars d')) by (apply task_vars_in; eauto). rewrite E in H0. destruct H0.
          * assert (Li : (i < length (ctasks pr (dat u)))%nat). { destruct (core_eq _ _ (na_core _ _ _ _ _ Nu)) as (C1 & C2 & _). replace (ctasks pr (dat u)) with (ctasks pr (dat u')) by (destruct pr; auto). rewrite <- (na_len _ _ _ _ _ Nu pr). apply nth_error_Some. congruence. }
            apply get_some in Li as (x & Hx). destruct (cause_left c q u pr i x (at_child T q _ c u A Hc) Hx NM) as (d1 & ch1 & pr' & i' & y & A1 & Hy & Ny). assert (Z := at_fun T q _ _ A A1). injection Z as <- <-.
            destruct (na_get _ _ _ _ _ N pr' i' y) as (w & Hw); [destruct (core_eq _ _ (na_core _ _ _ _ _ N)) as (C1 & C2 & _); destruct pr'; cbn [ctasks] in *; congruence|auto|]. assert (In w (task_vars d')) by (apply task_vars_in; eauto). rewrite E in H0. destruct H0.
      - rewrite Forall_forall in *. intros u' Hu. destruct (KK u' Hu) as (c & u & Hc & Hc' & Ku). apply (IH u (nth_error_In _ _ Hc) (c :: q) u'); auto; [exact (at_child T q _ c u A Hc)|]. apply V3. eapply nth_error_In; eauto. }
    apply (G T [] T'); auto. reflexivity.
  Qed.
End VC.
