(** The steps of the symbolic search keep the invariant. *)
From Verif Require Import Base Htn_problem Htn_spec Htn_proof To_spec To_sem Sas_spec Aut_model Aut_sem Aut_inv.

Lemma ofold_inv {A B} (I : A -> Prop) (f : A -> B -> option A) l : (forall a b a', In b l -> I a -> f a b = Some a' -> I a') -> forall a a', I a -> ofold f l a = Some a' -> I a'.
Proof.
  induction l as [|b l IH]; intros H a a' Ia E; cbn in E; [injection E as <-; exact Ia|]. apply obind_some in E as (a1 & E1 & E).
  eapply IH; [|eapply H; [now left|exact Ia|exact E1]|exact E]. intros x y x' Hy. apply H. now right.
Qed.

Section Step.
  Variable P : problem.
  Hypothesis WF : wf_problem P.
  Hypothesis AF : actions_first P.
  Hypothesis LO : listed_in_order P.

  Lemma two_facts m me a b : In (m, me) (twos P) -> tasks_of me = Some (a, b) -> In me (p_methods P) /\ m_subs me = [a; b] /\ total_seq me [0; 1].
  Proof.
    intros I E. apply filter_In in I as [I L]. cbn in L. apply Nat.eqb_eq in L. apply in_combine_r in I. split; [exact I|]. assert (T := LO me I). rewrite L in T. split; [|exact T].
    unfold tasks_of in E. destruct (m_subs me) as [|x [|y [|z l]]] eqn:S; try discriminate. destruct (m_ord me) as [|(u, w) o] eqn:O; [discriminate|].
    destruct ((u =? 1) && negb (w =? 0)) eqn:Q; [|injection E as <- <-; reflexivity]. exfalso. apply andb_true_iff in Q as [Q1 Q2]. apply Nat.eqb_eq in Q1. apply negb_true_iff, Nat.eqb_neq in Q2.
    assert (WM := wf_methods P WF me I). assert (B : In (u, w) (m_ord me)) by (rewrite O; now left). destruct (wfm_ord P me WM u w B) as [B1 B2]. rewrite S in B2. cbn in B2.
    apply (wfm_acyclic P me WM 1). apply Relation_Operators.t_step. unfold m_before. rewrite O. left. f_equal; lia.
  Qed.

  Lemma jump cc (H : hist) m me a t to p q x s' cp gq pl g pl1 c : In (m, me) (twos P) -> tasks_of me = Some (a, t) -> H to q gq -> tail P (sT P to) (sS P to q) (m_task me) p pl ->
    plan_cost P pl + gq <= cp -> fin P (sT P (vertex P m)) (sS P (vertex P m) p) s' pl1 -> plan_cost P pl1 + g <= c -> cp + c <= cc + x + g -> atask P H to t s' q (cc + x).
  Proof.
    intros I E Hq T C F C1 L. destruct (two_facts m me a t I E) as (M & S & TS). rewrite (sT_vertex P m me a t I E), sS_vertex in F. exists gq, (pl ++ pl1). split; [exact Hq|]. split.
    - eapply tail_two; eauto.
    - rewrite plan_cost_app. lia.
  Qed.
  Lemma jump_ok cc H v t to p q x s' : jmp P cc H v t to p q x -> afin P H v s' p cc -> atask P H to t s' q (cc + x).
  Proof.
    intros (m & me & a & gq & pl & cp & I & -> & E & Hq & T & C & L & G) (g & pl1 & Hg & F & C1). eapply jump; eauto. specialize (G g Hg). lia.
  Qed.

  (** ** Actions *)
  Lemma extras_in s v t to x X : In (x, X) (extras s v t to) -> look xkey_eqb (s_extra s) (v, t, to, x) = Some X.
  Proof.
    unfold extras. intros I. apply in_flat_map in I as (x' & _ & I). destruct (look xkey_eqb (s_extra s) (v, t, to, x')) as [R|] eqn:E; [|destruct I].
    destruct I as [I|[]]. injection I as -> ->. exact E.
  Qed.
  Lemma extras_all s v t to x y : xm s v t to x y -> exists X, In (x, X) (extras s v t to) /\ In y X.
  Proof.
    intros (R & L & I). exists R. split; [|exact I]. unfold extras. apply in_flat_map. exists x. rewrite L. split; [|now left]. apply in_seq.
    apply (look_in _ xkey_eq) in L. assert (Q := list_max_le (map (fun e : xkey * rel => snd (fst e)) (s_extra s)) (list_max (map (fun e : xkey * rel => snd (fst e)) (s_extra s)))).
    destruct Q as [Q _]. specialize (Q (le_n _)). rewrite Forall_forall in Q. specialize (Q x). assert (Z : In x (map (fun e : xkey * rel => snd (fst e)) (s_extra s))) by (apply in_map_iff; exists ((v, t, to, x), R); auto).
    specialize (Q Z). split; [lia|]. apply Nat.lt_succ_r. exact Q.
  Qed.

  Lemma extra_loop_inv cc cd H to t2 to2 xs : (forall x X p q, In (x, X) xs -> In (p, q) X -> jmp P cc H to t2 to2 p q x) ->
    forall tri s tri' s', (forall y, In y tri -> afin P H to (fst (fst y)) (snd (fst y)) cc) -> Inv P cc cd H s -> extra_loop P cc cd t2 to2 xs tri s = Some (tri', s') ->
    Inv P cc cd H s' /\ ext cc cd s s' /\ forall y, In y tri' -> In y tri /\ forall x X, In (x, X) xs -> ~ In (snd (fst y), snd y) X.
  Proof.
    intros J. induction xs as [|(x, X) xs IH]; intros tri s tri' s' A I E; cbn in E.
    - injection E as <- <-. split; [exact I|]. split; [apply ext_refl|]. intros y Hy. split; [exact Hy|]. intros x X [].
    - assert (J' : forall x0 X0 p q, In (x0, X0) xs -> In (p, q) X0 -> jmp P cc H to t2 to2 p q x0) by (intros x0 X0 p q Q; apply (J x0 X0); now right). specialize (IH J').
      destruct (is_zero (filter (fun y => rmem (snd (fst y), snd y) X) tri)) eqn:Z.
      + destruct (IH tri s tri' s' A I E) as (I' & X' & Q). split; [exact I'|]. split; [exact X'|]. intros y Hy. destruct (Q y Hy) as [Q1 Q2]. split; [exact Q1|].
        intros x0 X0 [W|W]; [|now apply (Q2 x0)]. injection W as -> ->. intros W. apply is_zero_nil in Z. apply rmem_In in W. assert (V : In y (filter (fun y => rmem (snd (fst y), snd y) X0) tri)) by (apply filter_In; auto). rewrite Z in V. destruct V.
      + apply obind_some in E as (s1 & E1 & E). assert (B : Inv P cc cd H s1 /\ ext cc cd s s1).
        { eapply insert_later_inv; [exact E1|exact I|]. intros p q W. apply in_map_iff in W as (y & W & Hy). injection W as <- <-. apply filter_In in Hy as [Hy W]. apply rmem_In in W.
          eapply jump_ok; [|apply A, Hy]. apply (J x X); [now left|exact W]. }
        destruct B as [I1 X1]. destruct (IH (filter (fun y => negb (rmem (snd (fst y), snd y) X)) tri) s1 tri' s') as (I' & X' & Q); auto.
        * intros y Hy. apply filter_In in Hy as [Hy _]. auto.
        * split; [exact I'|]. split; [eapply ext_trans; eauto|]. intros y Hy. destruct (Q y Hy) as [Q1 Q2]. apply filter_In in Q1 as [Q1 Q3]. split; [exact Q1|].
          intros x0 X0 [W|W]; [|now apply (Q2 x0)]. injection W as -> ->. now apply rmem_out.
  Qed.

  Lemma continue_edge_inv cc cd H lc ld to next e s s' : Inv P cc cd H s -> to <> 0 -> (forall s1 p, In (s1, p) next -> afin P H to s1 p cc) ->
    continue_edge P cc cd lc ld to next e s = Some s' -> Inv P cc cd H s'.
  Proof.
    intros I NZ A E. destruct e as [t2 to2]. unfold continue_edge in E. destruct (edge s (to, t2, to2, lc, ld)) as [B|] eqn:EB; [|injection E as <-; exact I].
    apply obind_some in E as (R0 & E0 & E). set (k := (0, t2, to2, cc, cd)) in *. set (s1 := ensure s k) in *. assert (I1 : Inv P cc cd H s1) by (apply inv_ensure, I).
    set (tri := filter (fun y => negb (rmem (fst (fst y), snd y) R0)) (flat_map (fun x => map (fun y => (fst x, snd x, snd y)) (filter (fun y => bst_eqb (fst y) (snd x)) B)) next)) in *.
    assert (T : forall y, In y tri -> In (fst y) next /\ In (snd (fst y), snd y) B).
    { intros y Hy. apply filter_In in Hy as [Hy _]. apply in_flat_map in Hy as ((s2, p) & H1 & H2). apply in_map_iff in H2 as ((p', q) & <- & H2). apply filter_In in H2 as [H2 H3]. cbn in *. apply bst_eqb_eq in H3. subst p'. auto. }
    destruct (is_zero tri); [injection E as <-; exact I1|]. apply obind_some in E as ((tri', s2) & E2 & E).
    destruct (extra_loop_inv cc cd H to t2 to2 (extras s1 to t2 to2)) with (tri := tri) (s := s1) (tri' := tri') (s' := s2) as (I2 & X2 & Q); auto.
    { intros x X p q W1 W2. apply (v_x _ _ _ _ _ I1). exists X. split; [now apply extras_in|exact W2]. }
    { intros ((s2', p), q) Hy. cbn. apply A. apply (T _ Hy). }
    destruct (is_zero tri'); [injection E as <-; exact I2|]. apply obind_some in E as (R1 & E1 & E). destruct (covered _ R1); [injection E as <-; exact I2|].
    apply obind_some in E as (s3 & E3 & E). apply obind_some in E as (s4 & E4 & E). injection E as <-.
    assert (I3 : Inv P cc cd H s3).
    { eapply inv_add0; [exact I2|exact E3|]. intros p0 q0 W. apply in_map_iff in W as (((s', p), q) & W & Hy). cbn in W. injection W as <- <-. destruct (Q _ Hy) as [Q1 Q2]. cbn in Q2. destruct (T _ Q1) as [T1 T2]. cbn in T1, T2.
      assert (M : em s to t2 to2 lc ld (p, q)) by (exists B; auto). destruct (v_int _ _ _ _ _ I to t2 to2 lc ld p q NZ M) as [(x & X)|J].
      - exfalso. assert (X1 : xm s1 to t2 to2 x (p, q)) by (apply (x_xm _ _ _ _ (ext_ensure cc cd s k)); exact X). apply extras_all in X1 as (X0 & W1 & W2). exact (Q2 x X0 W1 W2).
      - replace cc with (cc + 0) by lia. eapply jump_ok; [exact J|auto]. }
    destruct (add_q_inv P _ _ _ _ _ _ _ _ _ _ E4 I3) as [I4 _]. eapply inv_q; [exact I4|reflexivity|reflexivity|reflexivity|apply (v_ab _ _ _ _ _ I4)|apply (v_pr _ _ _ _ _ I4)].
  Qed.

  Lemma inv_eps cc cd H s v c d R : Inv P cc cd H s -> (forall s1 q, In (s1, q) R -> afin P H v s1 q c) ->
    Inv P cc cd H (with_eps s (store vkey_eqb (s_eps s) (v, c, d) R)).
  Proof.
    intros [] A. constructor; auto. intros v1 c1 d1 s1 q (R1 & L & I). cbn in L. rewrite (look_store _ vkey_eq) in L. destruct (vkey_eqb (v1, c1, d1) (v, c, d)) eqn:Q; [|apply (v_eps v1 c1 d1); exists R1; auto].
    apply vkey_eq in Q. injection Q as -> -> ->. injection L as <-. auto.
  Qed.

  Lemma do_action_inv cc cd H lc ld a to R s g s' : Inv P cc cd H s -> a < n_actions P -> lc + cost_of P a <= cc -> (forall s1 q, In (s1, q) R -> atask P H to a s1 q lc) ->
    do_action P cc cd lc ld a to R s = Some (g, s') -> Inv P cc cd H s' /\ (g = true -> exists s1 q, afin P H 1 s1 q cc /\ all_bits s1 (p_goal P) = true).
  Proof.
    intros I L C A E. unfold do_action in E. apply obind_some in E as (next & EN & E).
    assert (N : forall s1 q, In (s1, q) next -> afin P H to s1 q cc).
    { intros s1 q Hs. apply (image_of_In P a R next EN) in Hs as (s0 & Hs & ST). destruct (A s0 q Hs) as (g0 & pl & Hg & T & C0). exists g0, (pl ++ [a]). split; [exact Hg|]. split.
      - eapply tail_fin; [exact T|]. now apply fin_act.
      - rewrite plan_cost_app. cbn. lia. }
    destruct (is_zero next) eqn:Z; [injection E as <- <-; split; [exact I|discriminate]|]. apply obind_some in E as (E0 & EE & E). destruct (covered next E0); [injection E as <- <-; split; [exact I|discriminate]|].
    apply obind_some in E as (s1 & E1 & E). injection E as <- <-.
    assert (NZ : to <> 0). { destruct next as [|(s2, q) next]; [discriminate|]. destruct (N s2 q (or_introl eq_refl)) as (g0 & pl & Hg & _). now apply (v_nz _ _ _ _ _ I) in Hg. }
    split.
    - eapply (ofold_inv (Inv P cc cd H)); [|apply (inv_eps cc cd H s to cc cd (union E0 next) I)|exact E1].
      + cbn. intros s2 e s2' _ I2 E2. eapply continue_edge_inv; eauto.
      + intros s2 q Hs. apply union_In in Hs as [Hs|Hs]; [|auto]. apply (v_eps _ _ _ _ _ I to cc cd). exists E0. auto.
    - intros G. apply andb_true_iff in G as [G1 G2]. apply Nat.eqb_eq in G1. apply existsb_exists in G2 as ((s2, q) & Hs & G2). exists s2, q. split; [|exact G2]. rewrite <- G1. auto.
  Qed.

  (** ** Methods *)
  Lemma do_unit_inv cc cd H t me u to R s s' : Inv P cc cd H s -> In me (p_methods P) -> m_task me = t -> m_subs me = [u] -> (forall s1 q, In (s1, q) R -> atask P H to t s1 q cc) ->
    do_unit P cc cd u to R s = Some s' -> Inv P cc cd H s'.
  Proof.
    intros I M ET S A E. unfold do_unit in E. apply obind_some in E as (R0 & E0 & E). assert (I1 := inv_ensure P cc cd H s (0, u, to, cc, cd) I). destruct (covered R R0); [injection E as <-; exact I1|].
    apply obind_some in E as (s1 & E1 & E). assert (I2 : Inv P cc cd H s1).
    { eapply inv_add0; [exact I1|exact E1|]. intros p q W. destruct (A p q W) as (g & pl & Hg & T & C). exists g, pl. split; [exact Hg|]. split; [|exact C].
      eapply tail_unit; eauto. assert (Q := LO me M). rewrite S in Q. exact Q. }
    destruct (add_q_inv P _ _ _ _ _ _ _ _ _ _ E I2) as [I3 _]. exact I3.
  Qed.

  Section Two.
    Variables (cc cd m : nat) (me : method) (t1 t2 to : nat) (H : hist).
    Hypothesis M2 : In (m, me) (twos P).
    Hypothesis ET : tasks_of me = Some (t1, t2).
    Variable mv : nat.
    Hypothesis MV : mv = vertex P m.

    Lemma mv_ne : mv <> 0 /\ mv <> 1. Proof. rewrite MV. unfold vertex. lia. Qed.
    Lemma mv_T : sT P mv = t1. Proof. rewrite MV. exact (sT_vertex P m me t1 t2 M2 ET). Qed.

    Lemma eps_loop_inv gh new_r : (forall p q, In (p, q) new_r -> atask P H to (m_task me) p q cc) ->
      forall times, (forall c d, In (c, d) times -> gh <= c) -> forall sI s s', (forall p g, In p sI -> H mv p g -> gh <= g) -> Inv P cc cd H s ->
      eps_loop P cc cd mv t2 to gh new_r times sI s = Some s' -> Inv P cc cd H s' /\ ext cc cd s s'.
    Proof.
      intros A. induction times as [|(c, d) times IH]; intros TL sI s s' G I E; cbn in E; [injection E as <-; split; [exact I|apply ext_refl]|].
      assert (TL' : forall c d, In (c, d) times -> gh <= c) by (intros c0 d0 Q; apply (TL c0 d0); now right). specialize (IH TL').
      destruct (existsb (vkey_eqb (mv, c, d)) (s_ins s)); [|exact (IH sI s s' G I E)]. apply obind_some in E as (E0 & EE & E).
      destruct (is_zero (filter (fun x => smem (snd x) sI) E0)); [exact (IH sI s s' G I E)|]. apply obind_some in E as (s1 & E1 & E).
      assert (B : Inv P cc cd H s1 /\ ext cc cd s s1).
      { eapply insert_later_inv; [exact E1|exact I|]. intros s2 q W. apply in_flat_map in W as ((s2', p) & W1 & W2). apply in_map_iff in W2 as ((p', q') & W2 & W3). cbn in W2. injection W2 as <- <-.
        apply filter_In in W3 as [W3 W4]. apply bst_eqb_eq in W4. cbn in W4. subst p'. apply filter_In in W1 as [W1 W5]. cbn in W5. apply smem_In in W5.
        assert (F : afin P H mv s2' p c) by (apply (v_eps _ _ _ _ _ I mv c d); exists E0; auto). destruct F as (g & pl1 & Hg & F & C1). rewrite MV in F. destruct (A p q' W3) as (gq & pl & Hq & T & C).
        eapply jump; [exact M2|exact ET|exact Hq|exact T|exact C|exact F|exact C1|]. assert (Q := G p g W5 Hg). specialize (TL c d (or_introl eq_refl)). lia. }
      destruct B as [I1 X1]. destruct (is_zero (filter _ sI)) in E; [injection E as <-; auto|].
      assert (G' : forall p g, In p (filter (fun p => negb (smem p (map snd (filter (fun x => smem (snd x) sI) E0)))) sI) -> H mv p g -> gh <= g) by (intros p g Hp; apply filter_In in Hp as [Hp _]; now apply G).
      destruct (IH _ s1 s' G' I1 E) as [I2 X2]. split; [exact I2|eapply ext_trans; eauto].
    Qed.

    Lemma times_ge s gh lc c d : In (c, d) (times s mv gh lc) -> gh <= c.
    Proof. unfold times. intros I. apply in_flat_map in I as (c' & I1 & I2). apply in_map_iff in I2 as (d' & E & _). injection E as <- <-. apply in_seq in I1. lia. Qed.

    Definition annotated (new_r : rel) (s : sst) (p : bst) : Prop := forall q, In (p, q) new_r -> exists x, xm s mv t2 to x (p, q).

    Lemma inv_annotate gh new_r inter s : Inv P cc cd H s -> gh <= cc -> (forall p q, In (p, q) new_r -> atask P H to (m_task me) p q cc) ->
      (forall p g, In p inter -> H mv p g -> gh <= g) ->
      let add := filter (fun y => smem (fst y) inter) new_r in
      let s' := if is_zero add then s
                else let k := (mv, t2, to, cc - gh) in
                     let X0 := match look xkey_eqb (s_extra s) k with Some X0 => X0 | None => [] end in
                     with_extra s (store xkey_eqb (s_extra s) k (union X0 add)) in
      Inv P cc cd H s' /\ ext cc cd s s' /\ forall p, In p inter -> annotated new_r s' p.
    Proof.
      intros I LG A G add s'. destruct (is_zero add) eqn:Z.
      - split; [exact I|]. split; [apply ext_refl|]. intros p Hp q Hq. apply is_zero_nil in Z. assert (W : In (p, q) add) by (apply filter_In; split; [exact Hq|]; now apply smem_In). rewrite Z in W. destruct W.
      - subst s'. cbn zeta. set (k := (mv, t2, to, cc - gh)). set (X0 := match look xkey_eqb (s_extra s) k with Some X0 => X0 | None => [] end). set (s' := with_extra s (store xkey_eqb (s_extra s) k (union X0 add))).
        assert (XX : forall v t to' x y, xm s' v t to' x y <-> xm s v t to' x y \/ ((v, t, to', x) = k /\ In y add)).
        { intros v t to' x y. unfold xm, s'. cbn. rewrite (look_store _ xkey_eq). destruct (xkey_eqb (v, t, to', x) k) eqn:Q.
          - apply xkey_eq in Q. rewrite Q. unfold X0. split.
            + intros (R & E & W). injection E as <-. apply union_In in W as [W|W]; [left|now right]. destruct (look xkey_eqb (s_extra s) k) as [R|]; [eauto|destruct W].
            + intros [(R & E & W)|[_ W]]; (eexists; split; [reflexivity|]); apply union_In; [left; now rewrite E|now right].
          - split; [now left|]. intros [W|[W _]]; [exact W|]. apply xkey_eq in W. congruence. }
        split; [|split].
        + destruct I. constructor; auto.
          * intros v t to' c d p q NZ Q. destruct (v_int v t to' c d p q NZ Q) as [(x & X)|J]; [left; exists x; apply XX; now left|now right].
          * intros v t to' x p q Q. apply XX in Q as [Q|[Q W]]; [now apply v_x|]. injection Q as -> -> -> ->. apply filter_In in W as [W1 W2]. cbn in W2. apply smem_In in W2.
            destruct (A p q W1) as (gq & pl & Hq & T & C). exists m, me, t1, gq, pl, cc. repeat (split; [assumption || reflexivity|]). intros g Hg. assert (Q := G p g W2 Hg). lia.
        + constructor; auto. intros v t to' x y Q. apply XX. now left.
        + intros p Hp q Hq. exists (cc - gh). apply XX. right. split; [reflexivity|]. apply filter_In. split; [exact Hq|]. now apply smem_In.
    Qed.
    Lemma annotated_ext new_r s s' p : ext cc cd s s' -> annotated new_r s p -> annotated new_r s' p.
    Proof. intros X A q Hq. destruct (A q Hq) as (x & Q). exists x. now apply (x_xm _ _ _ _ X). Qed.

    Lemma here_loop_inv lc gh new_r : gh <= cc -> (forall p q, In (p, q) new_r -> atask P H to (m_task me) p q cc) ->
      forall n d0 known s known' s', Inv P cc cd H s -> (forall p c d, In p known -> c < gh -> ~ em s 0 t1 mv c d (p, p)) ->
      (forall p d, In p known -> d < d0 -> gh < cc \/ d < cd -> ~ em s 0 t1 mv gh d (p, p)) ->
      here_loop P cc cd mv t1 t2 to lc gh new_r (seq d0 n) known s = Some (known', s') ->
      Inv P cc cd H s' /\ ext cc cd s s' /\ incl known' known /\ (forall p, In p known -> In p known' \/ annotated new_r s' p) /\
      (forall p d, In p known' -> d < d0 + n -> gh < cc \/ d < cd -> ~ em s' 0 t1 mv gh d (p, p)).
    Proof.
      intros LG A. induction n as [|n IH]; intros d0 known s known' s' I K D E; cbn in E.
      - injection E as <- <-. split; [exact I|]. split; [apply ext_refl|]. split; [apply incl_refl|]. split; [auto|]. intros p d Hp L. apply D; auto. lia.
      - apply obind_some in E as (X & EX & E). set (k := (0, t1, mv, gh, d0)) in *. set (s1 := ensure s k) in *. assert (I1 : Inv P cc cd H s1) by (apply inv_ensure, I). assert (X1 : ext cc cd s s1) by apply ext_ensure.
        assert (SAME : forall f t to' c d x, em s1 f t to' c d x -> em s f t to' c d x) by (intros f t to' c d x; destruct (ensure_spec s k) as (e & Q & _ & W & _); unfold s1; rewrite Q; apply W).
        set (inter := filter (fun p => rmem (p, p) X) known) in *.
        assert (HERE : forall p, In p known -> ~ In p inter -> ~ em s1 0 t1 mv gh d0 (p, p)).
        { intros p Hp N (X' & EX' & W). unfold k in EX. rewrite EX in EX'. injection EX' as <-. apply N. apply filter_In. split; [exact Hp|]. now apply rmem_In. }
        assert (G : forall p g, In p known -> H mv p g -> gh <= g).
        { intros p g Hp Hg. destruct (v_h _ _ _ _ _ I mv p g Hg (proj2 mv_ne)) as (_ & _ & d & W). rewrite mv_T in W. destruct (Nat.lt_ge_cases g gh) as [L|L]; [|exact L]. exfalso. exact (K p g d Hp L W). }
        destruct (is_zero inter) eqn:Z.
        + apply is_zero_nil in Z. destruct (IH (S d0) known s1 known' s' I1) as (I' & X' & C & AN & D'); auto.
          * intros p c d Hp L W. exact (K p c d Hp L (SAME _ _ _ _ _ _ W)).
          * intros p d Hp L F W. destruct (Nat.eq_dec d d0) as [->|N]; [|apply (D p d Hp); [lia|exact F|now apply SAME]]. apply (HERE p Hp); [rewrite Z; intros []|exact W].
          * repeat (split; [assumption || (eapply ext_trans; eauto)|]). intros p d Hp L. apply D'; auto. lia.
        + apply obind_some in E as (s2 & E2 & E).
          destruct (eps_loop_inv gh new_r A (times s1 mv gh lc) (fun c d => times_ge s1 gh lc c d) inter s1 s2) as [I2 X2]; auto.
          { intros p g Hp. apply filter_In in Hp as [Hp _]. now apply G. }
          destruct (inv_annotate gh new_r inter s2 I2 LG A) as (I3 & X3 & AN3). { intros p g Hp. apply filter_In in Hp as [Hp _]. now apply G. }
          cbv zeta in E. set (s3 := if is_zero (filter (fun y => smem (fst y) inter) new_r) then s2 else _) in E, I3, X3, AN3.
          assert (X13 : ext cc cd s1 s3) by (eapply ext_trans; eauto). assert (X03 : ext cc cd s s3) by (eapply ext_trans; eauto).
          set (known1 := filter (fun p => negb (smem p inter)) known) in *.
          assert (K1 : forall p, In p known1 -> In p known /\ ~ In p inter) by (intros p Hp; apply filter_In in Hp as [Hp N]; split; [exact Hp|now apply smem_out]).
          assert (SPLIT : forall p, In p known -> In p known1 \/ In p inter). { intros p Hp. destruct (smem p inter) eqn:Q; [right; now apply smem_In|left]. apply filter_In. split; [exact Hp|]. now rewrite Q. }
          destruct (is_zero known1) eqn:Z1.
          * injection E as <- <-. apply is_zero_nil in Z1. split; [exact I3|]. split; [exact X03|]. split; [intros p Hp; now apply K1|]. split.
            -- intros p Hp. destruct (SPLIT p Hp) as [Q|Q]; [now left|right; now apply AN3].
            -- rewrite Z1. intros p d [].
          * destruct (IH (S d0) known1 s3 known' s' I3) as (I' & X' & C & AN & D'); auto.
            -- intros p c d Hp L W. apply (K p c d (proj1 (K1 p Hp)) L). apply (x_frz _ _ _ _ X03); [lia|exact W].
            -- intros p d Hp L F W. destruct (K1 p Hp) as [Hp1 Hp2]. destruct (Nat.eq_dec d d0) as [->|N].
               ++ apply (HERE p Hp1 Hp2). apply (x_frz _ _ _ _ X13); [lia|exact W].
               ++ apply (D p d Hp1); [lia|exact F|]. apply (x_frz _ _ _ _ X03); [lia|exact W].
            -- split; [exact I'|]. split; [eapply ext_trans; eauto|]. split; [intros p Hp; apply K1; auto|]. split.
               ++ intros p Hp. destruct (SPLIT p Hp) as [Q|Q]; [now apply AN|right]. eapply annotated_ext; [exact X'|now apply AN3].
               ++ intros p d Hp L. apply D'; auto. lia.
    Qed.

    Lemma last_depth_spec s f t to' c : match last_depth s f t to' c with
      | None => forall d R, ~ In ((f, t, to', c, d), R) (s_edges s)
      | Some D => forall d R, In ((f, t, to', c, d), R) (s_edges s) -> d <= D end.
    Proof.
      unfold last_depth. set (F := fun (o : option nat) (e : ekey * rel) => let '(a, b, c0, d, e0) := fst e in
        if (a =? f) && (b =? t) && (c0 =? to') && (d =? c) then Some match o with Some m0 => Nat.max m0 e0 | None => e0 end else o).
      assert (Q : forall l o, match fold_left F l o with None => o = None /\ forall d R, ~ In ((f, t, to', c, d), R) l | Some D => (forall m0, o = Some m0 -> m0 <= D) /\ forall d R, In ((f, t, to', c, d), R) l -> d <= D end).
      { induction l as [|(k, R0) l IH]; intros o; cbn [fold_left].
        - destruct o as [m0|]; (split; [|intros d R []]); [intros m1 E; injection E as ->; lia|reflexivity].
        - specialize (IH (F o (k, R0))). destruct (fold_left F l (F o (k, R0))) as [D|].
          + destruct IH as [IH1 IH2]. unfold F in IH1. cbn in IH1. destruct k as [[[[a b] c0] d0] e0]. destruct ((a =? f) && (b =? t) && (c0 =? to') && (d0 =? c)) eqn:B.
            * specialize (IH1 _ eq_refl). split; [intros m0 ->; lia|]. intros d R [W|W]; [|now apply (IH2 d R)]. injection W. intros. subst. destruct o; lia.
            * split; [exact IH1|]. intros d R [W|W]; [|now apply (IH2 d R)]. exfalso. injection W. intros. subst. rewrite !Nat.eqb_refl in B. discriminate.
          + destruct IH as [IH1 IH2]. unfold F in IH1. cbn in IH1. destruct k as [[[[a b] c0] d0] e0]. destruct ((a =? f) && (b =? t) && (c0 =? to') && (d0 =? c)) eqn:B; [discriminate|].
            split; [exact IH1|]. intros d R [W|W]; [|now apply (IH2 d R)]. injection W. intros. subst. rewrite !Nat.eqb_refl in B. discriminate. }
      specialize (Q (s_edges s) None). change (match fold_left F (s_edges s) None with None => forall d R, ~ In ((f, t, to', c, d), R) (s_edges s) | Some D => forall d R, In ((f, t, to', c, d), R) (s_edges s) -> d <= D end).
      destruct (fold_left F (s_edges s) None); apply Q.
    Qed.

    Lemma known_loop_inv new_r : cd <> 0 -> (forall p q, In (p, q) new_r -> atask P H to (m_task me) p q cc) ->
      forall n a known s s', a + n = S cc -> Inv P cc cd H s -> (forall p c d, In p known -> c < a -> c < cc \/ d < cd -> ~ em s 0 t1 mv c d (p, p)) ->
      (forall p, In p known -> em s 0 t1 mv cc (cd - 1) (p, p)) ->
      known_loop P cc cd mv t1 t2 to cc new_r (seq a n) known s = Some s' -> Inv P cc cd H s' /\ ext cc cd s s' /\ forall p, In p known -> annotated new_r s' p.
    Proof.
      intros CD A. induction n as [|n IH]; intros a known s s' EA I K T E; cbn in E.
      - injection E as <-. split; [exact I|]. split; [apply ext_refl|]. intros p Hp. exfalso. apply (K p cc (cd - 1) Hp); [lia|lia|now apply T].
      - assert (LD := last_depth_spec s 0 t1 mv a). destruct (last_depth s 0 t1 mv a) as [D|].
        + apply obind_some in E as ((known1, s1) & E1 & E). change (0 :: seq 1 (if a =? cc then cd else D)) with (seq 0 (S (if a =? cc then cd else D))) in E1.
          destruct (here_loop_inv cc a new_r ltac:(lia) A (S (if a =? cc then cd else D)) 0 known s known1 s1 I) as (I1 & X1 & C1 & AN1 & D1); auto; [intros p c d Hp L; apply K; auto; left; lia|intros; lia|].
          destruct (IH (S a) known1 s1 s') as (I2 & X2 & AN2); [lia|exact I1| | |exact E|].
          * intros p c d Hp L F W. destruct (Nat.eq_dec c a) as [->|N].
            -- apply (D1 p d Hp); [|exact F|exact W]. destruct (a =? cc) eqn:Q; [apply Nat.eqb_eq in Q; lia|]. apply Nat.eqb_neq in Q. assert (W' : em s 0 t1 mv a d (p, p)) by (apply (x_frz _ _ _ _ X1); [lia|exact W]).
               destruct W' as (R & W1 & _). apply (look_in _ ekey_eq) in W1. specialize (LD d R W1). lia.
            -- apply (K p c d (C1 p Hp)); [lia|exact F|]. apply (x_frz _ _ _ _ X1); [lia|exact W].
          * intros p Hp. apply (x_em _ _ _ _ X1). apply T. now apply C1.
          * split; [exact I2|]. split; [eapply ext_trans; eauto|]. intros p Hp. destruct (AN1 p Hp) as [Q|Q]; [now apply AN2|eapply annotated_ext; eauto].
        + apply (IH (S a) known s s'); [lia|exact I| |exact T|exact E]. intros p c d Hp L F W. destruct (Nat.eq_dec c a) as [->|N]; [|apply (K p c d Hp); auto; lia].
          destruct W as (R & W & _). apply (look_in _ ekey_eq) in W. exact (LD d R W).
    Qed.

    (** The states of [R] are pushed at the current cost. *)
    Definition pushed (R : rel) : hist := fun v q g => H v q g \/ (v = mv /\ g = cc /\ In q (map fst R)).
    Lemma atask_pushed R to' t s q c : atask P H to' t s q c -> atask P (pushed R) to' t s q c.
    Proof. intros (g & pl & A & B). exists g, pl. split; [now left|exact B]. Qed.
    Lemma jmp_pushed R v t to' p q x : jmp P cc H v t to' p q x -> jmp P cc (pushed R) v t to' p q x.
    Proof.
      intros (m' & me' & a & gq & pl & cp & I & V & E & Hq & T & C & L & G). exists m', me', a, gq, pl, cp. repeat (split; [assumption || now left|]). intros g [Hg|(_ & -> & _)]; [now apply G|lia].
    Qed.
    Lemma inv_push R s s' : Inv P cc cd H s -> add_edge s (0, t1, mv, cc, cd) (map (fun x => (fst x, fst x)) R) = Some s' -> Inv P cc cd (pushed R) s'.
    Proof.
      intros I E. destruct (add_edge_spec s 0 t1 mv cc cd _ s' E) as (e & -> & N & W). destruct I. constructor; auto.
      - intros t to' c d s1 q M. apply W in M as [M|[M Q]]; [apply atask_pushed; eauto|]. injection M as -> -> -> ->. apply in_map_iff in Q as (x & Q & Hx). injection Q as <- <-.
        exists cc, []. split; [right; split; [reflexivity|]; split; [reflexivity|]; now apply in_map|]. split; [|cbn; lia]. rewrite MV, (sT_vertex P m me t1 t2 M2 ET), sS_vertex. constructor.
      - intros v c d s1 q M. destruct (v_eps v c d s1 q M) as (g & pl & A & B). exists g, pl. split; [now left|exact B].
      - intros v t to' c d p q NZ M. apply W in M as [M|[M Q]]; [|injection M as M; contradiction]. destruct (v_int v t to' c d p q NZ M) as [X|J]; [now left|right; now apply jmp_pushed].
      - intros v t to' x p q X. apply jmp_pushed. now apply v_x.
      - intros q. left. apply v_one.
      - intros v q g [Hv|(-> & _)]; [eauto|apply mv_ne].
      - intros v p g [Hv|(-> & -> & Hp)] N1.
        + destruct (v_h v p g Hv N1) as (A & B & d & C). split; [apply W; now left|]. split; [exact B|]. exists d. apply W. now left.
        + rewrite mv_T. assert (Z : em (with_edges s e) 0 t1 mv cc cd (p, p)) by (apply W; right; split; [reflexivity|]; apply in_map_iff in Hp as (x & <- & Hx); apply in_map_iff; exists x; auto). split; [exact Z|]. split; [lia|]. now exists cd.
      - intros v p g C [Hv|(-> & -> & Hp)] N1; [|now left]. destruct (v_h2 v p g C Hv N1) as [Q|Q]; [now left|right; apply W; now left].
    Qed.

    Lemma do_two_inv R s s' : cd <> 0 -> Inv P cc cd H s -> (forall p q, In (p, q) R -> atask P H to (m_task me) p q cc) ->
      do_two P cc cd cc (cd - 1) m me to R s = Some s' -> exists H', Inv P cc cd H' s' /\ forall to' t s1 q c, atask P H to' t s1 q c -> atask P H' to' t s1 q c.
    Proof.
      intros CD I A E. unfold do_two in E. rewrite ET in E. cbn [obind] in E. rewrite <- MV in E. set (ki := (mv, t2, to, cc, cd)) in *. apply obind_some in E as (I0 & EI & E). set (s1 := ensure s ki) in *.
      assert (I1 : Inv P cc cd H s1) by (apply inv_ensure, I). set (kl := (0, t1, mv, cc, cd - 1)) in *. apply obind_some in E as (L & EL & E). set (s2 := ensure s1 kl) in *. assert (I2 : Inv P cc cd H s2) by (apply inv_ensure, I1).
      set (known := filter (fun p => rmem (p, p) L) (map fst R)) in *. set (new_r := rminus R I0) in *.
      assert (AN : forall p q, In (p, q) new_r -> atask P H to (m_task me) p q cc) by (intros p q W; apply filter_In in W as [W _]; auto).
      apply obind_some in E as (s3 & E3 & E).
      assert (B : Inv P cc cd H s3 /\ ext cc cd s2 s3 /\ forall p, In p known -> annotated new_r s3 p).
      { destruct (is_zero known) eqn:Z; [injection E3 as <-; apply is_zero_nil in Z; rewrite Z; split; [exact I2|]; split; [apply ext_refl|intros p []]|].
        apply (known_loop_inv new_r CD AN (S cc) 0 known s2 s3); auto; [intros p c d _ Q; lia|]. intros p Hp. apply filter_In in Hp as [_ Hp]. apply rmem_In in Hp. exists L. auto. }
      destruct B as (I3 & X3 & AN3). apply obind_some in E as (s4 & E4 & E).
      assert (I4 : Inv P cc cd H s4).
      { eapply inv_addi; [exact I3|apply mv_ne|exact E4|]. intros p q W. destruct (rmem (p, q) I0) eqn:Q0.
        - apply rmem_In in Q0. assert (M : em s1 mv t2 to cc cd (p, q)) by (exists I0; auto). destruct (v_int _ _ _ _ _ I1 mv t2 to cc cd p q (proj1 mv_ne) M) as [(x & X)|J]; [left|now right].
          exists x. apply (x_xm _ _ _ _ X3). apply (x_xm _ _ _ _ (ext_ensure cc cd s1 kl)). exact X.
        - assert (NEW : In (p, q) new_r) by (apply filter_In; split; [exact W|]; now rewrite Q0). destruct (rmem (p, p) L) eqn:QL.
          + left. apply AN3; [|exact NEW]. apply filter_In. split; [|exact QL]. apply in_map_iff. exists (p, q). auto.
          + right. destruct (A p q W) as (gq & pl & Hq & T & C). exists m, me, t1, gq, pl, cc. repeat (split; [assumption || reflexivity|]). intros g Hg.
            destruct (v_h2 _ _ _ _ _ I2 mv p g CD Hg (proj2 mv_ne)) as [->|Q]; [lia|]. exfalso. rewrite mv_T in Q. destruct Q as (L' & EL' & Q). unfold kl in EL. fold s2 in EL'. rewrite EL in EL'. injection EL' as <-. apply rmem_In in Q. congruence. }
      apply obind_some in E as (C0 & EC & E). set (kc := (0, t1, mv, cc, cd)) in *. assert (I5 : Inv P cc cd H (ensure s4 kc)) by (apply inv_ensure, I4). destruct (covered _ C0).
      - exists H. split; [eapply add_q_inv; eauto|auto].
      - apply obind_some in E as (s6 & E6 & E). exists (pushed R). split; [|intros; now apply atask_pushed]. eapply add_q_inv; [exact E|]. eapply inv_push; eauto.
    Qed.
  End Two.

  Lemma do_method_inv cc cd H t to R s im s' : cd <> 0 -> Inv P cc cd H s -> In im (methods_of P t) -> (forall p q, In (p, q) R -> atask P H to t p q cc) ->
    do_method P cc cd cc (cd - 1) to R s im = Some s' -> exists H', Inv P cc cd H' s' /\ forall p q, In (p, q) R -> atask P H' to t p q cc.
  Proof.
    intros CD I IM A E. destruct im as [m me]. apply filter_In in IM as [IM ET]. cbn in ET. apply Nat.eqb_eq in ET. unfold do_method in E. cbn [fst snd] in E.
    destruct (m_subs me) as [|u [|w [|z l]]] eqn:S; [injection E as <-; eauto| | |discriminate].
    - exists H. split; [|exact A]. eapply do_unit_inv; eauto. eapply in_combine_r, IM.
    - assert (M2 : In (m, me) (twos P)) by (apply filter_In; split; [exact IM|]; cbn; now rewrite S). assert (E' := E). unfold do_two in E'. destruct (tasks_of me) as [[t1 t2]|] eqn:TO; [|discriminate].
      clear E'. destruct (do_two_inv cc cd m me t1 t2 to H M2 TO _ eq_refl R s s' CD I) as (H' & I' & W); auto; [rewrite ET; exact A|]. exists H'. split; [exact I'|]. auto.
  Qed.
End Step.
