(** The orderings that readHierarchical leaves behind, for problems whose total-order flag is set. *)
From Coq Require Import Relations.
From Verif Require Import Base Rel Htn_model Htn_spec Htn_problem.
From Verif Require Order_model Order_proof Order_thm.

Lemma prod_nodup {A B} (l1 : list A) (l2 : list B) : NoDup l1 -> NoDup l2 -> NoDup (list_prod l1 l2).
Proof.
  intros N1 N2. induction N1 as [|x l1 Hx N1 IH]; cbn; [constructor|]. apply nodup_app_iff. split; [|split; auto].
  - clear - N2. induction N2 as [|y l2 Hy N2 IH]; cbn; constructor; auto. rewrite in_map_iff. intros (z & E & Hz). injection E as ->. contradiction.
  - intros [a b] Ha Hb. apply in_map_iff in Ha as (z & E & _). injection E as -> ->. apply in_prod_iff in Hb as [Hb _]. contradiction.
Qed.

Lemma filter_nodup {A} (f : A -> bool) l : NoDup l -> NoDup (filter f l).
Proof. induction 1 as [|x l Hx N IH]; cbn; [constructor|]. destruct (f x); auto. constructor; auto. rewrite filter_In. tauto. Qed.

Lemma nodup_le1 {A} (l : list A) : NoDup l -> (forall x y, In x l -> In y l -> x = y) -> length l <= 1.
Proof.
  intros N E. destruct l as [|x [|y l]]; cbn; try lia. exfalso. inversion N; subst. apply H1. left. symmetry. apply E; [now left|right; now left].
Qed.

Lemma flatten_inj l : forall l', Order_model.flatten l = Order_model.flatten l' -> l = l'.
Proof.
  induction l as [|[a b] l IH]; intros [|[a' b'] l'] E; auto; try discriminate. cbn in E. injection E as -> -> E. f_equal. auto.
Qed.

(** One method. *)
Lemma reduced_total n isInit o f o' f' m : Order_thm.wf_ord n o -> Order_thm.acyclic o -> Order_thm.total_order n o ->
  Order_model.transChange false n isInit o f = Some (o', f') -> Order_model.flatten (m_ord m) = o' -> length (m_subs m) = n ->
  (forall j, length (filter (fun p => Nat.eqb (fst p) j) (m_ord m)) <= 1) /\
  (forall j k, j < length (m_subs m) -> k < length (m_subs m) -> j <> k -> m_lt m j k \/ m_lt m k j).
Proof.
  intros W A T E EO EN. destruct (Order_thm.reduction_exact n isInit o f W A) as (o2 & f2 & E2 & W2 & CH & IR). rewrite E in E2. injection E2 as <- <-.
  assert (NO : NoDup (m_ord m)).
  { unfold Order_model.transChange in E. destruct (Order_model.pairs_of o) as [ps|]; [|discriminate]. cbn [obind] in E. destruct (Order_model.fill n ps) as [t0|]; [|discriminate]. cbn [obind] in E.
    injection E as E _. rewrite <- EO in E. apply flatten_inj in E. rewrite <- E. apply filter_nodup. apply prod_nodup; apply seq_NoDup. }
  assert (PI : forall x y, Order_thm.pair_in o' x y <-> In (x, y) (m_ord m)) by (intros x y; rewrite <- EO; apply Order_thm.flatten_pairs).
  assert (CM : forall x y, Order_thm.chain o' x y <-> m_lt m x y).
  { intros x y. unfold Order_thm.chain, m_lt. apply Order_thm.tc_iff. intros a b. rewrite PI. reflexivity. }
  split.
  - intros j. apply nodup_le1; [now apply filter_nodup|]. intros [a k] [b l] Hk Hl. apply filter_In in Hk as [Hk Ea], Hl as [Hl Eb]. apply Nat.eqb_eq in Ea, Eb. cbn in Ea, Eb. subst a b.
    destruct (Nat.eq_dec k l) as [->|NE]; auto. exfalso.
    apply PI in Hk, Hl. pose proof (Order_thm.pair_in_lt _ _ _ _ W2 Hk) as [_ Lk]. pose proof (Order_thm.pair_in_lt _ _ _ _ W2 Hl) as [_ Ll].
    assert (G : forall k l, Order_thm.pair_in o' j k -> Order_thm.pair_in o' j l -> k <> l -> Order_thm.chain o' k l -> False).
    { clear - IR A CH. intros k l Hk Hl NE Q. apply (IR j l Hl).
      assert (AC : forall x, ~ Order_thm.chain o' x x) by (intros x Q'; apply CH in Q'; eapply A; eauto).
      assert (Q' : clos_trans nat (fun x y => Order_thm.pair_in o' x y /\ (x, y) <> (j, l)) k l).
      { assert (KJ : Order_thm.chain o' j k) by now apply t_step. revert KJ Q. unfold Order_thm.chain at 1. intros KJ Q. apply clos_trans_t1n in Q.
        assert (GG : forall x y, clos_trans_1n nat (Order_thm.pair_in o') x y -> Order_thm.chain o' j x -> clos_trans nat (fun x y => Order_thm.pair_in o' x y /\ (x, y) <> (j, l)) x y).
        { clear - AC. intros x0 y0 Q. induction Q as [x y H|x y z H Q IH]; intros J.
          - apply t_step. split; auto. intros E. injection E as -> ->. eapply AC; eauto.
          - eapply t_trans; [apply t_step; split; [exact H|]|apply IH; eapply t_trans; [exact J|now apply t_step]].
            intros E. injection E as -> ->. eapply AC; eauto. }
        apply GG; auto. }
      eapply t_trans; [|exact Q']. apply t_step. split; auto. congruence. }
    destruct (T k l Lk Ll NE) as [Q|Q]; apply CH in Q; [eapply (G k l)|eapply (G l k)]; eauto.
  - intros j k Lj Lk NE. rewrite EN in Lj, Lk. rewrite <- !CM, !CH. now apply T.
Qed.

(** All methods: [rs] are the methods as read, [P] has the orderings that reading leaves. *)
Lemma read_total rs os f P : (forall r, In r rs -> Order_thm.wf_ord (Order_thm.m_n r) (Order_thm.m_ord r) /\ Order_thm.acyclic (Order_thm.m_ord r)) ->
  Order_model.readOrderings rs Order_model.flags0 = Some (os, f) -> Order_model.fTO f = true ->
  Forall2 (fun r m => length (m_subs m) = Order_thm.m_n r) rs (p_methods P) ->
  Forall2 (fun o m => Order_model.flatten (m_ord m) = o) os (p_methods P) ->
  forall m, In m (p_methods P) -> (forall j, length (filter (fun p => Nat.eqb (fst p) j) (m_ord m)) <= 1) /\
    (forall j k, j < length (m_subs m) -> k < length (m_subs m) -> j <> k -> m_lt m j k \/ m_lt m k j).
Proof.
  intros WF E TO F1 F2. destruct (Order_thm.total_flag_exact rs WF) as (os2 & f2 & E2 & TF & _). rewrite E in E2. injection E2 as <- <-. pose proof (proj1 TF TO) as TA. clear TF TO. rename TA into TO.
  revert os f E F2 F1. generalize Order_model.flags0. generalize (p_methods P). clear P. induction rs as [|[[n i] o] rs IH]; intros ms f0 os f E F2 F1 m Hm; inversion F1; subst; [destruct Hm|].
  cbn [Order_model.readOrderings] in E. apply obind_some in E as ([o' f1] & E1 & E). apply obind_some in E as ([os' f2] & E2 & E). injection E as <- <-. inversion F2; subst.
  destruct (WF (n, i, o) (or_introl eq_refl)) as [W A]. specialize (TO (n, i, o) (or_introl eq_refl)) as T.
  destruct Hm as [<-|Hm]; [eapply reduced_total; eauto|]. eapply (IH (fun r H => WF r (or_intror H)) (fun r H => TO r (or_intror H))); eauto.
Qed.
