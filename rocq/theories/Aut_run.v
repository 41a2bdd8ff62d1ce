(** Layers and the main loop of the symbolic search. *)
From Verif Require Import Base Htn_problem Htn_spec Htn_proof To_spec To_sem Sas_spec Aut_model Aut_sem Aut_inv Aut_step.

Section Run.
  Variable P : problem.
  Hypothesis WF : wf_problem P.
  Hypothesis AF : actions_first P.
  Hypothesis LO : listed_in_order P.

  (** A plan that reaches the goal with at most these costs *)
  Definition found (c : nat) : Prop := exists s1 pl, fin P (p_init P) (s0_bst P) s1 pl /\ plan_cost P pl <= c /\ all_bits s1 (p_goal P) = true.
  Definition res_ok (cc cd : nat) (x : res) : Prop := match x with Go s => exists H, Inv P cc cd H s | Goal => found cc | EmptyState => True end.
  (** What is known about an entry of the queue of the layer *)
  Definition entry_ok (cc cd t : nat) (is : list info) : Prop :=
    (cd = 0 -> t < n_actions P /\ forall i, In i is -> source i + cost_of P t <= cc) /\ (cd <> 0 -> t < n_actions P -> cost_of P t = 0).

  Lemma do_entry_inv cc cd H t to is i s x : Inv P cc cd H s -> entry_ok cc cd t is -> In i is -> do_entry P cc cd t to i s = Some x -> res_ok cc cd x.
  Proof.
    intros I [Q1 Q2] Hi E. unfold do_entry in E. apply obind_some in E as ((lc, ld) & EL & E). apply obind_some in E as (R & ER & E). destruct (is_zero R); [injection E as <-; exact Logic.I|].
    assert (A : forall s1 q, In (s1, q) R -> atask P H to t s1 q lc) by (intros s1 q W; apply (v_edge _ _ _ _ _ I t to lc ld); exists R; auto).
    destruct (t <? n_actions P) eqn:L.
    - apply Nat.ltb_lt in L. apply obind_some in E as ((g, s1) & E1 & E). assert (C : lc + cost_of P t <= cc).
      { destruct (cd =? 0) eqn:Z.
        - apply Nat.eqb_eq in Z. apply obind_some in EL as (d & _ & EL). injection EL as <- <-. now apply (Q1 Z).
        - apply Nat.eqb_neq in Z. injection EL as <- <-. rewrite (Q2 Z L). lia. }
      destruct (do_action_inv P WF AF LO cc cd H lc ld t to R s g s1 I L C A E1) as [I1 G]. destruct g; injection E as <-; [|now exists H].
      destruct (G eq_refl) as (s2 & q & (g0 & pl & _ & F & C0) & GO). exists s2, pl. split; [exact F|]. split; [lia|exact GO].
    - apply Nat.ltb_ge in L. destruct (cd =? 0) eqn:Z; [apply Nat.eqb_eq in Z; destruct (Q1 Z); lia|]. apply Nat.eqb_neq in Z. injection EL as <- <-. apply obind_some in E as (s1 & E1 & E). injection E as <-. cbn.
      assert (B : exists H', Inv P cc cd H' s1 /\ forall p q, In (p, q) R -> atask P H' to t p q cc).
      { eapply (ofold_inv (fun s => exists H', Inv P cc cd H' s /\ forall p q, In (p, q) R -> atask P H' to t p q cc)); [|exists H; split; [exact I|exact A]|exact E1].
        intros s2 im s3 IM (H' & I' & A') E'. eapply do_method_inv; eauto. }
      destruct B as (H' & I' & _). now exists H'.
  Qed.
  Lemma do_entries_inv cc cd t to is0 is : entry_ok cc cd t is0 -> incl is is0 -> forall H done s x, Inv P cc cd H s -> do_entries P cc cd t to done is s = Some x -> res_ok cc cd x.
  Proof.
    intros Q. induction is as [|i is IH]; intros C H done s x I E; cbn in E; [injection E as <-; now exists H|].
    assert (C' : incl is is0) by (intros j Hj; apply C; now right). specialize (IH C'). destruct (memb (source i) done); [now apply (IH H done s x)|]. apply obind_some in E as (y & E1 & E).
    assert (R := do_entry_inv cc cd H t to is0 i s y I Q (C i (or_introl eq_refl)) E1). destruct y as [s1| |]; [|injection E as <-; exact R|injection E as <-; exact R].
    destruct R as (H1 & I1). now apply (IH H1 (source i :: done) s1 x).
  Qed.
  Lemma do_queue_inv cc cd q : (forall t to is, In (t, to, is) q -> entry_ok cc cd t is) -> forall H s x, Inv P cc cd H s -> do_queue P cc cd q s = Some x -> res_ok cc cd x.
  Proof.
    induction q as [|((t, to), is) q IH]; intros Q H s x I E; cbn in E; [injection E as <-; now exists H|]. apply obind_some in E as (y & E1 & E).
    assert (R := do_entries_inv cc cd t to is is (Q t to is (or_introl eq_refl)) (incl_refl _) H [] s y I E1). destruct y as [s1| |]; [|injection E as <-; exact R|injection E as <-; exact R].
    destruct R as (H1 & I1). apply (IH (fun t0 to0 is0 W => Q t0 to0 is0 (or_intror W)) H1 s1 x I1 E).
  Qed.

  Lemma least_in l x : least l = Some x -> In x l.
  Proof.
    destruct l as [|a l]; cbn; [discriminate|]. intros E. injection E as <-. revert a. induction l as [|b l IH]; intros a; cbn; [now left|].
    destruct (IH (Nat.min a b)) as [Q|Q]; [|auto]. rewrite <- Q. destruct (Nat.min_dec a b) as [->| ->]; auto.
  Qed.
  Lemma next_layer_spec cc cd H s cc' cd' : Inv P cc cd H s -> next_layer s cc cd = Some (Some (cc', cd')) -> (cc' = cc /\ cd' = S cd) \/ (cc < cc' /\ cd' = 0).
  Proof.
    intros I E. unfold next_layer in E. destruct (least _) as [d|] eqn:L in E.
    - injection E as <- <-. left. split; [reflexivity|]. apply least_in in L. apply in_map_iff in L as ((((( c, d0), t), to), is) & Q & L). cbn in Q. subst d0. apply filter_In in L as [L B]. cbn in B.
      apply andb_true_iff in B as [B1 B2]. apply Nat.eqb_eq in B1. apply Nat.ltb_lt in B2. destruct (v_ab _ _ _ _ _ I _ _ _ _ _ L) as (_ & W & _). specialize (W B1). lia.
    - clear L. destruct (least _) as [c|] eqn:L in E; [|destruct (existsb _ _); discriminate]. injection E as <- <-. right. split; [|reflexivity]. apply least_in in L.
      apply in_map_iff in L as ((((c0, t), to), is) & Q & L). cbn in Q. subst c0. apply filter_In in L as [_ B]. cbn [fst] in B. now apply Nat.ltb_lt in B.
  Qed.

  Section Copy.
    Variables (cc cd cc' cd' : nat) (H : hist) (s0 : sst).
    Hypothesis I0 : Inv P cc cd H s0.
    Hypothesis NL : (cc' = cc /\ cd' = S cd) \/ (cc < cc' /\ cd' = 0).
    Let F := fun s (e : ekey * rel) => let '(a, b, c, d, e') := fst e in
                  if (d =? cc) && (e' =? cd) then let k := (a, b, c, cc', cd') in add_edge (ensure s k) k (snd e) else Some s.

    Lemma copy_edges l : incl l (s_edges s0) -> forall s s', Inv P cc cd H s -> ext cc cd s0 s -> ofold F l s = Some s' ->
      Inv P cc cd H s' /\ ext cc cd s s' /\ forall a b c R x, In ((a, b, c, cc, cd), R) l -> In x R -> em s' a b c cc' cd' x.
    Proof.
      induction l as [|(k0, R0) l IH]; intros C s s' I X E; cbn [ofold] in E.
      - injection E as <-. split; [exact I|]. split; [apply ext_refl|]. intros a b c R x [].
      - assert (C' : incl l (s_edges s0)) by (intros e He; apply C; now right). specialize (IH C'). apply obind_some in E as (s1 & E1 & E). destruct k0 as [[[[a b] c] d] e]. cbn [F fst snd] in E1.
        assert (B : Inv P cc cd H s1 /\ ext cc cd s s1 /\ (d = cc -> e = cd -> forall x, In x R0 -> em s1 a b c cc' cd' x)).
        { destruct ((d =? cc) && (e =? cd)) eqn:Q.
          - apply andb_true_iff in Q as [Q1 Q2]. apply Nat.eqb_eq in Q1, Q2. subst d e. set (k := (a, b, c, cc', cd')) in *. assert (I1 : Inv P cc cd H (ensure s k)) by (apply inv_ensure, I).
            assert (OLD : forall x, In x R0 -> em s0 a b c cc cd x) by (intros x Hx; exists R0; split; [|exact Hx]; apply (look_nodup _ ekey_eq); [apply I0|apply C; now left]).
            assert (XE : ext cc cd s (ensure s k)) by apply ext_ensure. split; [|split].
            + destruct (Nat.eq_dec a 0) as [->|NZ].
              * eapply inv_add0; [exact I1|exact E1|]. intros p q W. apply (atask_mono P H c b p q cc cc'); [lia|]. apply (v_edge _ _ _ _ _ I0 b c cc cd). now apply OLD.
              * eapply inv_addi; [exact I1|exact NZ|exact E1|]. intros p q W. destruct (v_int _ _ _ _ _ I0 a b c cc cd p q NZ (OLD _ W)) as [(x & XM)|J]; [left; exists x; apply (x_xm _ _ _ _ XE), (x_xm _ _ _ _ X), XM|now right].
            + eapply ext_trans; [exact XE|]. eapply ext_add; [exact E1|lia].
            + intros _ _ x Hx. destruct (add_edge_spec _ _ _ _ _ _ _ _ E1) as (e0 & _ & _ & W). apply W. right. auto.
          - injection E1 as <-. split; [exact I|]. split; [apply ext_refl|]. intros -> ->. rewrite !Nat.eqb_refl in Q. discriminate. }
        destruct B as (I1 & X1 & B). destruct (IH s1 s' I1 (ext_trans _ _ _ _ _ X X1) E) as (I2 & X2 & W). split; [exact I2|]. split; [eapply ext_trans; eauto|].
        intros a' b' c' R x [Q|Q] Hx; [|eapply W; eauto]. injection Q. intros. subst. apply (x_em _ _ _ _ X2). now apply B.
    Qed.

    Lemma copy_layer_inv s' : copy_layer P s0 cc cd cc' cd' = Some s' -> Inv P cc' cd' H s'.
    Proof.
      unfold copy_layer. intros E. apply obind_some in E as (s1 & E1 & E). destruct (copy_edges (s_edges s0) (incl_refl _) s0 s1 I0 (ext_refl _ _ _) E1) as (I1 & X1 & W).
      assert (W' : forall a b c x, em s0 a b c cc cd x -> em s1 a b c cc' cd' x).
      { intros a b c x (R & L & Hx). apply (W a b c R x); [|exact Hx]. now apply (look_in _ ekey_eq). }
      set (J := fun s => Inv P cc cd H s /\ s_edges s = s_edges s1 /\ s_abst s = s_abst s1 /\ s_prim s = s_prim s1).
      assert (B : J s').
      { eapply (ofold_inv J); [|split; [exact I1|auto]|exact E]. cbn. intros s2 v s3 _ (I2 & Q1 & Q2 & Q3) E3. apply obind_some in E3 as (E0 & EE & E3). injection E3 as <-. split; [|auto].
        apply inv_eps; auto. intros s4 q Hs. destruct (v_eps _ _ _ _ _ I2 v cc cd s4 q) as (g & pl & A & B & C); [exists E0; auto|]. exists g, pl. repeat split; auto; [apply B|apply B|lia]. }
      destruct B as (I' & QE & QA & QP). assert (EM : forall f t to c d x, em s' f t to c d x <-> em s1 f t to c d x) by (intros; unfold em, edge; rewrite QE; reflexivity).
      assert (JM : forall v t to p q x, jmp P cc H v t to p q x -> jmp P cc' H v t to p q x) by (intros v t to p q x (m & me & a & gq & pl & cp & A1 & A2 & A3 & A4 & A5 & A6 & A7 & A8); exists m, me, a, gq, pl, cp; repeat (split; [assumption || lia|]); exact A8).
      destruct I'. constructor; auto.
      - intros v t to c d p q NZ M. destruct (v_int v t to c d p q NZ M) as [Q|Q]; [now left|right; auto].
      - intros v p g Hv N1. destruct (Aut_inv.v_h _ _ _ _ _ I0 v p g Hv N1) as (A & B & d & C). split; [apply EM; apply W', A|]. split; [lia|]. exists d. apply EM. now apply (x_em _ _ _ _ X1).
      - intros v p g C Hv N1. right. destruct NL as [[-> ->]|[_ ->]]; [|congruence]. destruct (Aut_inv.v_h _ _ _ _ _ I0 v p g Hv N1) as (A & _ & _). apply EM. apply (x_em _ _ _ _ X1). replace (S cd - 1) with cd by lia. exact A.
      - intros c d t to is Hq. destruct (v_ab c d t to is Hq) as (A & B & C & D). repeat split; auto.
        + intros ->. destruct NL as [[-> ->]|[L ->]]; [specialize (B eq_refl); lia|specialize (C L); lia].
        + intros L. apply C. lia.
    Qed.
  End Copy.

  Lemma run_sound fuel : forall cc cd q s H c, Inv P cc cd H s -> (forall t to is, In (t, to, is) q -> entry_ok cc cd t is) -> run P fuel cc cd q s = Some (Length c) -> found c.
  Proof.
    induction fuel as [|fuel IH]; intros cc cd q s H c I Q E; cbn in E; [discriminate|]. apply obind_some in E as (x & E1 & E). assert (R := do_queue_inv cc cd q Q H s x I E1).
    destruct x as [s1| |]; [|injection E as <-; exact R|discriminate]. destruct R as (H1 & I1). apply obind_some in E as (l & EL & E). destruct l as [[cc' cd']|]; [|discriminate].
    apply obind_some in E as (s2 & E2 & E). assert (NL := next_layer_spec cc cd H1 s1 cc' cd' I1 EL). assert (I2 := copy_layer_inv cc cd cc' cd' H1 s1 I1 NL s2 E2).
    apply (IH _ _ _ _ H1 c I2) in E; [exact E|]. intros t to is W. destruct (cd' =? 0) eqn:Z.
    - apply Nat.eqb_eq in Z. unfold prim_queue in W. apply in_flat_map in W as ((t', to') & _ & W). cbn in W. destruct (look vkey_eqb (s_prim s2) (cc', t', to')) as [is'|] eqn:LO'; [|destruct W]. destruct W as [W|[]]. injection W as -> -> ->.
      apply (look_in _ vkey_eq) in LO'. split; [intros _; exact (v_pr _ _ _ _ _ I2 _ _ _ _ LO')|congruence].
    - apply Nat.eqb_neq in Z. unfold abst_queue in W. apply in_flat_map in W as ((t', to') & _ & W). cbn in W. destruct (look xkey_eqb (s_abst s2) (cc', cd', t', to')) as [is'|] eqn:LO'; [|destruct W]. destruct W as [W|[]]. injection W as -> -> ->.
      apply (look_in _ xkey_eq) in LO'. split; [congruence|]. intros _. apply (v_ab _ _ _ _ _ I2 _ _ _ _ _ LO').
  Qed.

  Lemma start_inv : Inv P 0 0 (fun v _ g => v = 1 /\ g = 0) (start P).
  Proof.
    assert (NP : ~ p_init P < n_actions P). { intros L. assert (Q := AF (p_init P) L). unfold primitive in Q. rewrite (wf_init P WF) in Q. discriminate. }
    constructor; cbn [start s_edges s_abst s_prim].
    - constructor; [intros []|constructor].
    - intros t to c d s1 q (R & L & W). apply (look_in _ ekey_eq) in L as [L|[]]. injection L. intros. subst. destruct W as [W|[]]. injection W as <- <-. exists 0, []. split; [auto|]. split; [constructor|cbn; lia].
    - intros v c d s1 q (R & L & W). apply (look_in _ vkey_eq) in L. apply in_map_iff in L as (v' & L & _). injection L. intros. subst. destruct W.
    - intros v t to c d p q NZ (R & L & W). apply (look_in _ ekey_eq) in L as [L|[]]. injection L. intros. congruence.
    - intros v t to x p q (R & L & W). discriminate.
    - auto.
    - intros v q g (-> & _). lia.
    - intros v p g (-> & _). congruence.
    - intros v p g _ (-> & _). congruence.
    - intros c d t to is [W|[]]. injection W. intros. subst. repeat split; try lia.
    - intros c t to is [].
  Qed.

  Theorem symbolic_found fuel c : plan_symbolic P fuel = Some (Length c) -> found c.
  Proof. unfold plan_symbolic. intros E. apply obind_some in E as (x & _ & E). eapply run_sound; [apply start_inv| |exact E]. intros t to is []. Qed.
End Run.
