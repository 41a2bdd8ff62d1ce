(** The invariant of the symbolic search: what the states on the edges of the automaton mean. *)
From Verif Require Import Base Htn_problem Htn_spec Htn_proof To_spec To_sem Sas_spec Aut_model Aut_sem.

Lemma filter_none {A} (f : A -> bool) l : (forall x, In x l -> f x = false) -> filter f l = [].
Proof. induction l as [|a l IH]; intros H; cbn; [reflexivity|]. rewrite (H a (or_introl eq_refl)). apply IH. intros x Hx. apply H. now right. Qed.

Section Inv.
  Variable P : problem.

  (** ** Vertices *)
  Lemma combine_seq_le {B} (l : list B) : forall a m x, In (m, x) (combine (seq a (length l)) l) -> a <= m.
  Proof. intros a m x I. apply in_combine_l in I. apply in_seq in I. lia. Qed.
  Lemma sorted_nth (f : nat * method -> bool) l : forall a m me, In (m, me) (filter f (combine (seq a (length l)) l)) ->
    nth_error (filter f (combine (seq a (length l)) l)) (length (filter (fun im => fst im <? m) (filter f (combine (seq a (length l)) l)))) = Some (m, me).
  Proof.
    induction l as [|x l IH]; intros a m me I; [destruct I|]. cbn [length seq combine filter] in *. destruct (f (a, x)) eqn:E; [|now apply IH].
    destruct I as [Q|I].
    - injection Q as -> ->. cbn [filter fst]. rewrite Nat.ltb_irrefl. rewrite (filter_none (fun im => fst im <? m)); [reflexivity|]. intros (m', me') I. apply filter_In in I as [I _]. apply combine_seq_le in I. cbn [fst]. apply Nat.ltb_ge. lia.
    - assert (L := I). apply filter_In in L as [L _]. apply combine_seq_le in L. cbn [filter fst]. replace (a <? m) with true by (symmetry; apply Nat.ltb_lt; lia). cbn. now apply IH.
  Qed.
  Lemma vertex_nth m me : In (m, me) (twos P) -> nth_error (twos P) (vertex P m - 2) = Some (m, me).
  Proof. intros I. unfold vertex. replace (2 + _ - 2) with (length (filter (fun im => fst im <? m) (twos P))) by lia. apply sorted_nth. exact I. Qed.

  (** The task and the state at which the part of the automaton with end vertex [v] started. *)
  Definition sT (v : nat) : nat :=
    if v =? 1 then p_init P else match nth_error (twos P) (v - 2) with Some (_, me) => match tasks_of me with Some (a, _) => a | None => 0 end | None => 0 end.
  Definition sS (v : nat) (q : bst) : bst := if v =? 1 then s0_bst P else q.
  Lemma sT_vertex m me a b : In (m, me) (twos P) -> tasks_of me = Some (a, b) -> sT (vertex P m) = a.
  Proof. intros I E. unfold sT. rewrite (vertex_nth m me I), E. unfold vertex. reflexivity. Qed.
  Lemma sS_vertex m q : sS (vertex P m) q = q.
  Proof. reflexivity. Qed.

  (** ** Membership *)
  Definition em (s : sst) (f t to c d : nat) (x : bst * bst) : Prop := exists R, edge s (f, t, to, c, d) = Some R /\ In x R.
  Definition epm (s : sst) (v c d : nat) (x : bst * bst) : Prop := exists R, look vkey_eqb (s_eps s) (v, c, d) = Some R /\ In x R.
  Definition xm (s : sst) (v t to x : nat) (y : bst * bst) : Prop := exists R, look xkey_eqb (s_extra s) (v, t, to, x) = Some R /\ In y R.

  (** [H v q g]: the state [q] was pushed for vertex [v] at cost [g]. *)
  Definition hist := nat -> bst -> nat -> Prop.
  Definition atask (H : hist) (to t : nat) (s q : bst) (c : nat) : Prop :=
    exists g pl, H to q g /\ tail P (sT to) (sS to q) t s pl /\ plan_cost P pl + g <= c.
  Definition afin (H : hist) (v : nat) (s q : bst) (c : nat) : Prop :=
    exists g pl, H v q g /\ fin P (sT v) (sS v q) s pl /\ plan_cost P pl + g <= c.
  Definition jmp (cc : nat) (H : hist) (v t to : nat) (p q : bst) (x : nat) : Prop :=
    exists m me a gq pl cp, In (m, me) (twos P) /\ v = vertex P m /\ tasks_of me = Some (a, t) /\ H to q gq /\
      tail P (sT to) (sS to q) (m_task me) p pl /\ plan_cost P pl + gq <= cp /\ cp <= cc /\ forall g, H v p g -> cp <= g + x.

  Record Inv (cc cd : nat) (H : hist) (s : sst) : Prop := {
    v_nd : NoDup (map fst (s_edges s));
    v_edge : forall t to c d s1 q, em s 0 t to c d (s1, q) -> atask H to t s1 q c;
    v_eps : forall v c d s1 q, epm s v c d (s1, q) -> afin H v s1 q c;
    v_int : forall v t to c d p q, v <> 0 -> em s v t to c d (p, q) -> (exists x, xm s v t to x (p, q)) \/ jmp cc H v t to p q 0;
    v_x : forall v t to x p q, xm s v t to x (p, q) -> jmp cc H v t to p q x;
    v_one : forall q, H 1 q 0;
    v_nz : forall v q g, H v q g -> v <> 0;
    v_h : forall v p g, H v p g -> v <> 1 -> em s 0 (sT v) v cc cd (p, p) /\ g <= cc /\ exists d, em s 0 (sT v) v g d (p, p);
    v_h2 : forall v p g, cd <> 0 -> H v p g -> v <> 1 -> g = cc \/ em s 0 (sT v) v cc (cd - 1) (p, p);
    v_ab : forall c d t to is, In ((c, d, t, to), is) (s_abst s) -> 1 <= d /\ (c = cc -> d <= S cd) /\ (cc < c -> d = 1) /\ (t < n_actions P -> cost_of P t = 0);
    v_pr : forall c t to is, In ((c, t, to), is) (s_prim s) -> t < n_actions P /\ forall i, In i is -> source i + cost_of P t <= c }.

  (** The data grows, and only at the current layer or later ones. *)
  Record ext (cc cd : nat) (s s' : sst) : Prop := {
    x_em : forall f t to c d x, em s f t to c d x -> em s' f t to c d x;
    x_frz : forall f t to c d x, c < cc \/ (c = cc /\ d < cd) -> em s' f t to c d x -> em s f t to c d x;
    x_xm : forall v t to x y, xm s v t to x y -> xm s' v t to x y }.
  Lemma ext_refl cc cd s : ext cc cd s s.
  Proof. constructor; auto. Qed.
  Lemma ext_trans cc cd s s' s'' : ext cc cd s s' -> ext cc cd s' s'' -> ext cc cd s s''.
  Proof. intros [A1 A2 A3] [B1 B2 B3]. constructor; auto. Qed.

  (** ** Operations *)
  Lemma with_edges_em s e f t to c d x : em (with_edges s e) f t to c d x <-> exists R, look ekey_eqb e (f, t, to, c, d) = Some R /\ In x R.
  Proof. reflexivity. Qed.
  Lemma ensure_spec s k : exists e, ensure s k = with_edges s e /\ (NoDup (map fst (s_edges s)) -> NoDup (map fst e)) /\
    (forall f t to c d x, em (with_edges s e) f t to c d x <-> em s f t to c d x) /\ exists R, edge (ensure s k) k = Some R.
  Proof.
    unfold ensure. destruct (edge s k) as [R|] eqn:E.
    - exists (s_edges s). repeat split; auto; [destruct s; reflexivity|]. eauto.
    - exists (store ekey_eqb (s_edges s) k []). split; [reflexivity|]. split; [intros N; now apply (store_nodup _ ekey_eq)|]. split.
      + intros f t to c d x. rewrite with_edges_em. unfold em, edge in *. split; intros (R & L & I).
        * rewrite (look_store _ ekey_eq) in L. destruct (ekey_eqb (f, t, to, c, d) k) eqn:Q; [injection L as <-; destruct I|eauto].
        * exists R. split; auto. rewrite (look_store _ ekey_eq). destruct (ekey_eqb (f, t, to, c, d) k) eqn:Q; [|exact L]. apply ekey_eq in Q. congruence.
      + unfold edge. cbn. rewrite (look_same _ ekey_eq). eauto.
  Qed.
  Lemma add_edge_spec s f t to c d R s' : add_edge s (f, t, to, c, d) R = Some s' -> exists e, s' = with_edges s e /\ (NoDup (map fst (s_edges s)) -> NoDup (map fst e)) /\
    forall f' t' to' c' d' x, em s' f' t' to' c' d' x <-> em s f' t' to' c' d' x \/ ((f', t', to', c', d') = (f, t, to, c, d) /\ In x R).
  Proof.
    unfold add_edge. intros E. apply obind_some in E as (R0 & E0 & E). injection E as <-. eexists. split; [reflexivity|]. split; [intros N; now apply (store_nodup _ ekey_eq)|].
    intros f' t' to' c' d' x. rewrite with_edges_em. unfold em, edge in *. rewrite (look_store _ ekey_eq). destruct (ekey_eqb (f', t', to', c', d') (f, t, to, c, d)) eqn:Q.
    - apply ekey_eq in Q. rewrite Q, E0. split.
      + intros (R1 & L & I). injection L as <-. apply union_In in I as [I|I]; [left|right]; eauto.
      + intros [(R1 & L & I)|[_ I]]; (eexists; split; [reflexivity|]); apply union_In; [left; congruence|now right].
    - split; [eauto|]. intros [H|[H _]]; [exact H|]. apply ekey_eq in H. congruence.
  Qed.

  Lemma inv_edges cc cd H s e : Inv cc cd H s -> NoDup (map fst e) ->
    (forall f t to c d x, em s f t to c d x -> em (with_edges s e) f t to c d x) ->
    (forall f t to c d p q, em (with_edges s e) f t to c d (p, q) -> em s f t to c d (p, q) \/ (f = 0 /\ atask H to t p q c) \/
       (f <> 0 /\ ((exists x, xm s f t to x (p, q)) \/ jmp cc H f t to p q 0))) ->
    Inv cc cd H (with_edges s e).
  Proof.
    intros [] N M W. constructor; auto.
    - intros t to c d s1 q E. apply W in E as [E|[[_ E]|[E _]]]; [eauto|exact E|congruence].
    - intros v t to c d p q NZ E. apply W in E as [E|[[E _]|[_ E]]]; [eauto|congruence|exact E].
    - intros v p g Hv N1. destruct (v_h0 v p g Hv N1) as (A & B & d & C). eauto 6.
    - intros v p g C Hv N1. destruct (v_h3 v p g C Hv N1) as [A|A]; auto.
  Qed.
  Lemma inv_ensure cc cd H s k : Inv cc cd H s -> Inv cc cd H (ensure s k).
  Proof.
    intros I. destruct (ensure_spec s k) as (e & -> & N & W & _). apply inv_edges; auto; [apply N, I|intros; now apply W|]. intros. left. now apply W.
  Qed.
  Lemma inv_add0 cc cd H s t to c d R s' : Inv cc cd H s -> add_edge s (0, t, to, c, d) R = Some s' -> (forall p q, In (p, q) R -> atask H to t p q c) -> Inv cc cd H s'.
  Proof.
    intros I E A. destruct (add_edge_spec s 0 t to c d R s' E) as (e & -> & N & W). apply inv_edges; auto; [apply N, I|intros; apply W; now left|].
    intros f' t' to' c' d' p q X. apply W in X as [X|[X Y]]; [now left|]. injection X as -> -> -> -> ->. right. left. auto.
  Qed.
  Lemma inv_addi cc cd H s v t to c d R s' : Inv cc cd H s -> v <> 0 -> add_edge s (v, t, to, c, d) R = Some s' ->
    (forall p q, In (p, q) R -> (exists x, xm s v t to x (p, q)) \/ jmp cc H v t to p q 0) -> Inv cc cd H s'.
  Proof.
    intros I NZ E A. destruct (add_edge_spec s v t to c d R s' E) as (e & -> & N & W). apply inv_edges; auto; [apply N, I|intros; apply W; now left|].
    intros f' t' to' c' d' p q X. apply W in X as [X|[X Y]]; [now left|]. injection X as -> -> -> -> ->. right. right. auto.
  Qed.
  Lemma ext_ensure cc cd s k : ext cc cd s (ensure s k).
  Proof. destruct (ensure_spec s k) as (e & -> & _ & W & _). constructor; auto; intros; now apply W. Qed.
  Lemma ext_add cc cd s f t to c d R s' : add_edge s (f, t, to, c, d) R = Some s' -> cc < c \/ (c = cc /\ cd <= d) -> ext cc cd s s'.
  Proof.
    intros E L. destruct (add_edge_spec s f t to c d R s' E) as (e & -> & _ & W). constructor; auto.
    - intros. apply W. now left.
    - intros f' t' to' c' d' x F X. apply W in X as [X|[X _]]; [exact X|]. injection X as -> -> -> -> ->. exfalso. lia.
  Qed.

  Lemma source_le i : source i <= i_cost i + i_extra i.
  Proof. unfold source. destruct (i_ref i) as [r|]; [|lia]. destruct (i_extra i =? r); lia. Qed.
  Lemma cost_get t c : get (p_cost P) t = Some c -> cost_of P t = c.
  Proof. unfold get, cost_of. intros E. now apply nth_error_nth. Qed.

  Lemma inv_q cc cd H s s' : Inv cc cd H s -> s_edges s' = s_edges s -> s_eps s' = s_eps s -> s_extra s' = s_extra s ->
    (forall c d t to is, In ((c, d, t, to), is) (s_abst s') -> 1 <= d /\ (c = cc -> d <= S cd) /\ (cc < c -> d = 1) /\ (t < n_actions P -> cost_of P t = 0)) ->
    (forall c t to is, In ((c, t, to), is) (s_prim s') -> t < n_actions P /\ forall i, In i is -> source i + cost_of P t <= c) -> Inv cc cd H s'.
  Proof.
    intros [] E1 E2 E3 A B. unfold em, epm, xm, edge in *. constructor; unfold em, epm, xm, edge; rewrite ?E1, ?E2, ?E3; auto.
  Qed.
  Lemma ext_q cc cd s s' : s_edges s' = s_edges s -> s_extra s' = s_extra s -> ext cc cd s s'.
  Proof. intros E1 E2. constructor; unfold em, xm, edge; rewrite ?E1, ?E2; auto. Qed.

  Lemma add_q_inv cc cd H t to extra ref b s s' : add_q P cc cd t to extra ref b s = Some s' -> Inv cc cd H s -> Inv cc cd H s' /\ ext cc cd s s'.
  Proof.
    unfold add_q, costly. intros E I. apply obind_some in E as (cb & E0 & E). destruct cb.
    - apply obind_some in E as (c & Ec & E). injection E as <-. destruct (t <? n_actions P) eqn:L; [|discriminate]. apply Nat.ltb_lt in L. split; [|now apply ext_q].
      eapply inv_q; [exact I|reflexivity|reflexivity|reflexivity|apply (v_ab _ _ _ _ I)|]. cbn. intros c1 t1 to1 is Q. apply (store_in _) in Q as [Q|[Q1 Q2]]; [exact (v_pr _ _ _ _ I _ _ _ _ Q)|].
      injection Q1 as -> -> ->. split; [exact L|]. intros i Hi. subst is. apply in_app_or in Hi as [Hi|[<-|[]]].
      + destruct (look vkey_eqb (s_prim s) (cc + extra + c, t, to)) as [q|] eqn:Lq; [|destruct Hi]. apply (look_in _ vkey_eq) in Lq. now apply (v_pr _ _ _ _ I _ _ _ _ Lq).
      + rewrite (cost_get t c Ec). assert (Q := source_le {| i_cost := cc; i_ref := ref; i_extra := extra |}). cbn in Q. lia.
    - injection E as <-. split; [|now apply ext_q]. assert (Z : t < n_actions P -> cost_of P t = 0).
      { intros L. apply Nat.ltb_lt in L. rewrite L in E0. apply obind_some in E0 as (c & Ec & E0). injection E0 as E0. apply negb_false_iff, Nat.eqb_eq in E0. rewrite (cost_get t c Ec). exact E0. }
      eapply inv_q; [exact I|reflexivity|reflexivity|reflexivity| |apply (v_pr _ _ _ _ I)]. cbn. intros c1 d1 t1 to1 is Q. apply (store_in _) in Q as [Q|[Q1 Q2]]; [exact (v_ab _ _ _ _ I _ _ _ _ _ Q)|].
      destruct (extra =? 0) eqn:X; injection Q1 as -> -> -> ->; [|apply Nat.eqb_neq in X]; repeat split; auto; lia.
  Qed.

  Lemma atask_mono H to t s q c c' : c <= c' -> atask H to t s q c -> atask H to t s q c'.
  Proof. intros L (g & pl & A & B & C). exists g, pl. repeat split; auto. lia. Qed.

  Lemma insert_later_inv cc cd H t to extra ref R s s' : insert_later P cc cd t to extra ref R s = Some s' -> Inv cc cd H s ->
    (forall p q, In (p, q) R -> atask H to t p q (cc + extra)) -> Inv cc cd H s' /\ ext cc cd s s'.
  Proof.
    unfold insert_later. intros E I A. set (k := (0, t, to, cc + extra, if extra =? 0 then cd else 0)) in *. apply obind_some in E as (R0 & E0 & E).
    assert (I1 := inv_ensure cc cd H s k I). assert (X1 := ext_ensure cc cd s k). destruct (covered R R0).
    - destruct (add_q_inv _ _ _ _ _ _ _ _ _ _ E I1) as [I2 X2]. split; [exact I2|eapply ext_trans; eauto].
    - apply obind_some in E as (s1 & E1 & E). assert (I2 := inv_add0 _ _ _ _ _ _ _ _ _ _ I1 E1 A).
      assert (X2 : ext cc cd (ensure s k) s1) by (eapply ext_add; [exact E1|]; destruct (extra =? 0) eqn:Q; [right; apply Nat.eqb_eq in Q; lia|left; apply Nat.eqb_neq in Q; lia]).
      destruct (add_q_inv _ _ _ _ _ _ _ _ _ _ E I2) as [I3 X3]. split; [exact I3|]. eapply ext_trans; [exact X1|]. eapply ext_trans; eauto.
  Qed.
End Inv.
