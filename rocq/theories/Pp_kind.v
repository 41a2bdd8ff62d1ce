(** The ordering graphs of the nodes of a partially ordered decomposition tree. *)
From Coq Require Import Sorting.Sorted Relation_Operators.
From Verif Require Import Base Htn_problem Htn_spec Sog_model Sog_spec Sog_proof Posog_model Posog_spec Posog_order Posog_thm Pdt_model Pdt_spec Pdt_tree Pdt_expand Pp_model Pp_spec.
From Verif Require Order_model.

Lemma chain_edge n u w : edge (chain_adj n) u w <-> u < w < n.
Proof.
  unfold edge, chain_adj. split.
  - intros (l & E & I). apply map_seq_nth in E as [L ->]. apply in_seq in I. lia.
  - intros H. exists (seq (S u) (n - S u)). split; [apply map_seq_nth; split; auto; lia|apply in_seq; lia].
Qed.
Lemma chain_back n u w : edge (chain_bdj n) w u <-> u < w < n.
Proof.
  unfold edge, chain_bdj. split.
  - intros (l & E & I). apply map_seq_nth in E as [L ->]. apply in_seq in I. lia.
  - intros H. exists (seq 0 w). split; [apply map_seq_nth; split; auto; lia|apply in_seq; lia].
Qed.
Lemma rows_edge n a u w : edge (rows n a) u w <-> u < n /\ w < n /\ a u w = true.
Proof.
  unfold edge, rows. split.
  - intros (l & E & I). apply map_seq_nth in E as [L ->]. apply filter_In in I as [I A]. apply in_seq in I. split; auto. split; [lia|auto].
  - intros (L & L' & A). eexists. split; [apply map_seq_nth; split; [auto|reflexivity]|]. apply filter_In. split; auto. apply in_seq. lia.
Qed.
Lemma flip_converse a b : (forall x y, edge b y x <-> edge a x y) -> converse a b.
Proof.
  intros H x y. split; intros Q.
  - induction Q as [y x E|y z x _ I1 _ I2]; [apply t_step; now apply H|eapply t_trans; eauto].
  - induction Q as [y x E|y z x _ I1 _ I2]; [apply t_step; now apply H|eapply t_trans; eauto].
Qed.
Lemma chain_dag n : dag (chain_adj n).
Proof.
  intros x H. assert (G : forall x y, precedes (chain_adj n) x y -> x < y). { clear. intros x y H. induction H as [x y E|x y z _ I1 _ I2]; [apply chain_edge in E; lia|lia]. } apply G in H. lia.
Qed.

Lemma consec_ord me : (forall a b c, In (a, b) (m_ord me) -> In (b, c) (m_ord me) -> In (a, c) (m_ord me)) -> forall o, Order_model.consecutive (succs_of me) o = true ->
  forall x y i j, x < y -> nth_error o x = Some i -> nth_error o y = Some j -> In (i, j) (m_ord me).
Proof.
  intros TR. assert (SU : forall a b, memb b (succs_of me a) = true -> In (a, b) (m_ord me)). { intros a b H. apply memb_In in H. unfold succs_of in H. apply in_map_iff in H as ([a' b'] & E & H). cbn in E. subst b'. apply filter_In in H as [H E]. cbn in E. apply Nat.eqb_eq in E. now subst a'. }
  induction o as [|a o IH]; intros CO x y i j L Ex Ey; [destruct x; discriminate|]. destruct o as [|b r].
  - destruct y as [|y]; [lia|]. destruct y; discriminate.
  - assert (CO' : Order_model.consecutive (succs_of me) (b :: r) = true /\ In (a, b) (m_ord me)). { cbn [Order_model.consecutive] in CO. destruct (memb b (succs_of me a)) eqn:E; [split; auto|discriminate]. } destruct CO' as [CO' AB].
    destruct y as [|y]; [lia|]. cbn [nth_error] in Ey. destruct x as [|x].
    + cbn in Ex. injection Ex as <-. destruct y as [|y]; [cbn in Ey; injection Ey as <-; auto|]. apply (TR a b j); auto. apply (IH CO' 0 (S y) b j); auto; lia.
    + cbn [nth_error] in Ex. apply (IH CO' x y i j); auto. lia.
Qed.

(** Sorting the subtasks by their vertices. *)
Lemma sort_by (f : nat -> nat) : forall l, NoDup (map f l) -> exists o, Permutation o l /\ StronglySorted (fun a b => f a < f b) o.
Proof.
  induction l as [|a l IH]; intros ND; [exists []; split; constructor|]. cbn in ND. inversion ND as [|? ? N1 N2]; subst. destruct (IH N2) as (o & PM & SS).
  assert (NE : forall b, In b o -> f b <> f a). { intros b Hb E. apply N1. rewrite <- E. apply in_map. eapply Permutation_in; eauto. }
  assert (X : exists o', Permutation o' (a :: o) /\ StronglySorted (fun a b => f a < f b) o').
  { clear PM. induction SS as [|b r SS IHs F]; [exists [a]; split; auto; constructor; constructor|]. destruct (lt_dec (f a) (f b)) as [L|L].
    - exists (a :: b :: r). split; auto. constructor; [constructor; auto|]. constructor; auto. rewrite Forall_forall in F |- *. intros c Hc. specialize (F c Hc). lia.
    - destruct IHs as (o' & P1 & P2); [intros c Hc; apply NE; now right|]. exists (b :: o'). split; [rewrite P1; constructor|]. constructor; auto. apply Forall_forall. intros c Hc. apply (Permutation_in _ P1) in Hc as [<-|Hc].
      + specialize (NE b (or_introl eq_refl)). lia.
      + rewrite Forall_forall in F. auto. }
  destruct X as (o' & P1 & P2). exists o'. split; auto. rewrite P1. now constructor.
Qed.
Lemma sorted_nth (f : nat -> nat) o : StronglySorted (fun a b => f a < f b) o -> forall i j, i < j -> j < length (map f o) -> nth i (map f o) 0 < nth j (map f o) 0.
Proof.
  intros SS. induction SS as [|a r SS IH F]; intros i j L L'; [cbn in L'; lia|]. cbn [map length] in L'. destruct j as [|j]; [lia|]. destruct i as [|i]; cbn [map nth].
  - assert (I : In (nth j (map f r) 0) (map f r)) by (apply nth_In; lia). apply in_map_iff in I as (b & <- & I). rewrite Forall_forall in F. auto.
  - apply IH; lia.
Qed.

Section Kind.
  Variables (P : problem) (C : sconf) (uord : list nat -> list nat).
  Hypothesis WF : wf_problem P.
  Hypothesis CO : po_conf P C uord.

  (** What is known about the graph of a node. *)
  Record graph_ok (adj bdj : list (list nat)) : Prop := {
    go_ne : 0 < length adj;
    go_len : length bdj = length adj;
    go_wf : wf_graph adj;
    go_wf' : wf_graph bdj;
    go_conv : converse adj bdj }.

  (** The merged graph orders the subtasks of a method only as the method does. *)
  Definition exact_at (abs : list nat) : Prop := forall adj bdj asgs k m asg me i j, node_sog P C abs = Some (adj, bdj, asgs) ->
    nth_error (map (fun '(m, _, _) => m) (s_sort C (gather P abs))) k = Some m -> nth_error asgs k = Some asg -> nth_error (p_methods P) m = Some me ->
    i < length (m_subs me) -> j < length (m_subs me) -> precedes adj (nth i asg 0) (nth j asg 0) -> m_lt me i j.

  (** Partially ordered problems: [o] lists the subtasks, and the orderings of the method are edges of the graph. *)
  Definition po_kind : kind := fun abs me o n vs => exists adj bdj asgs, node_sog P C abs = Some (adj, bdj, asgs) /\ graph_ok adj bdj /\ length adj = n /\
    NoDup o /\ (forall j, In j o <-> j < length (m_subs me)) /\
    (forall x y i j u w, nth_error o x = Some i -> nth_error vs x = Some u -> nth_error o y = Some j -> nth_error vs y = Some w -> In (i, j) (m_ord me) -> edge adj u w) /\
    (exact_at abs -> forall x y i j u w, nth_error o x = Some i -> nth_error vs x = Some u -> nth_error o y = Some j -> nth_error vs y = Some w -> precedes adj u w -> m_lt me i j).

  Lemma known : effects_known P.
  Proof.
    intros t H. assert (E : nth_error (p_prim P) t = Some true). { destruct (nth_error (p_prim P) t) as [b|] eqn:E; [apply (nth_error_nth _ _ false) in E; congruence|]. apply nth_error_None in E. rewrite nth_overflow in H by auto. discriminate. }
    apply (wf_prim _ WF) in E. rewrite (wf_add _ WF), (wf_del _ WF). auto.
  Qed.

  Lemma total_some ms : (forall m, In m ms -> meth_ok P (s_mto C) m) -> exists bs, omap (method_total P C) ms = Some bs /\ length bs = length ms /\
    forall k m b, nth_error ms k = Some m -> nth_error bs k = Some b -> method_total P C m = Some b.
  Proof.
    induction ms as [|m ms IH]; intros H; [exists []; split; auto; split; auto; intros [|k]; discriminate|]. destruct IH as (bs & E & L & K); [intros x Hx; apply H; now right|]. destruct (H m (or_introl eq_refl)) as (me & o & E1 & _ & E2 & _).
    assert (E3 : method_total P C m = Some (Order_model.consecutive (succs_of me) o)) by (unfold method_total, get; rewrite E1; cbn [obind]; rewrite E2; reflexivity).
    exists (Order_model.consecutive (succs_of me) o :: bs). cbn [omap]. rewrite E3. cbn [obind]. rewrite E. split; auto. split; [cbn; lia|]. intros [|k] m' b; cbn; [intros [= <-] [= <-]; auto|apply K].
  Qed.

  Lemma node_sog_ok d : tasks_ok P d -> pn_abs d <> [] -> let ms := map (fun '(m, _, _) => m) (s_sort C (gather P (pn_abs d))) in
    exists adj bdj asgs, node_sog P C (pn_abs d) = Some (adj, bdj, asgs) /\ graph_ok adj bdj /\ Forall2 (fits P (length adj)) ms asgs /\
      forall k m asg me i j, nth_error ms k = Some m -> nth_error asgs k = Some asg -> nth_error (p_methods P) m = Some me -> In (i, j) (m_ord me) -> edge adj (nth i asg 0) (nth j asg 0).
  Proof.
    intros TO NA ms. unfold node_sog. fold ms. set (ts := s_sort C (gather P (pn_abs d))) in *. destruct (pc_sort P C uord CO (gather P (pn_abs d))) as [PM SO]. fold ts in PM, SO.
    assert (MI : forall m a mi, In (m, a, mi) ts <-> exists t, nth_error (pn_abs d) a = Some t /\ nth_error (methods_of P t) mi = Some m).
    { intros m a mi. rewrite <- gather_in. split; apply Permutation_in; auto. now apply Permutation_sym. }
    assert (MM : forall m, In m ms -> exists me, nth_error (p_methods P) m = Some me /\ In me (p_methods P)).
    { intros m H. unfold ms in H. apply in_map_iff in H as ([[m' a] mi] & E & H). subst m'. apply MI in H as (t & _ & H). apply nth_error_In in H. apply methods_in in H as (me & E & _). exists me. split; auto. eapply nth_error_In; eauto. }
    assert (MO : forall m, In m ms -> meth_ok P (s_mto C) m). { intros m H. destruct (MM m H) as (me & E & _). exact (pc_meth _ _ _ CO m me E). }
    destruct (total_some ms MO) as (bs & Eb & Lb & Kb). rewrite Eb. cbn [obind].
    destruct ts as [|[[m0 a0] mi0] r0] eqn:Ets; [exfalso; apply (gather_some P d TO NA (pc_covered _ _ _ CO)); now apply Permutation_nil|].
    destruct (gather_first P WF d ((m0, a0, mi0) :: r0) m0 a0 mi0 NA PM eq_refl) as (me0 & Eme0 & L0).
    assert (EM : exists r1, ms = m0 :: r1) by (unfold ms; cbn; eauto). destruct EM as (r1 & EM). rewrite EM. rewrite <- EM.
    destruct (forallb (fun b => b) bs) eqn:FB.
    - destruct (to_sog_ok P (s_mto C) ms) as (n & asgs & Es & PL & En).
      { intros m Hm. destruct (MM m Hm) as (me & Em & Im). destruct (MO m Hm) as (me' & o & E1 & _ & E2 & PO). assert (me' = me) by congruence. subst me'. exists me, o. split; auto. split; auto. split; [|split].
        - split; [eapply Permutation_NoDup; [apply Permutation_sym; exact PO|apply seq_NoDup]|]. intros j. split; intros H; [apply (Permutation_in _ PO) in H; apply in_seq in H; lia|apply (Permutation_in _ (Permutation_sym PO)); apply in_seq; lia].
        - exact (pc_small _ _ _ CO me Im).
        - intros m' me' H0 E0. rewrite EM in H0. cbn in H0. injection H0 as <-. unfold ms in Hm. apply in_map_iff in Hm as ([[m' a] mi] & E & Hm). subst m'.
          assert (Q := sorted_head P ((m0, a0, mi0) :: r0) (m0, a0, mi0) (m, a, mi) eq_refl Hm SO). cbn in Q. unfold subs_len in Q. unfold get in E0. rewrite Em, E0 in Q. exact Q. }
      rewrite Es. cbn [obind]. exists (chain_adj n), (chain_bdj n), asgs.
      assert (LN : length (chain_adj n) = n) by (unfold chain_adj; now rewrite map_length, seq_length). assert (LB : length (chain_bdj n) = n) by (unfold chain_bdj; now rewrite map_length, seq_length).
      assert (N0 : n = length (m_subs me0)) by (rewrite EM in En; apply En; exact Eme0). rewrite LN.
      assert (PP : forall m asg, In m ms -> placed P (s_mto C) n m asg -> exists me o, nth_error (p_methods P) m = Some me /\ closed_order me /\ nth_error (s_mto C) m = Some o /\ Permutation o (seq 0 (length (m_subs me))) /\ length asg = length (m_subs me) /\
         (forall x i, nth_error o x = Some i -> nth i asg 0 < n) /\ forall x y i j, x < y -> nth_error o x = Some i -> nth_error o y = Some j -> nth i asg 0 < nth j asg 0).
      { intros m asg Hm (me & o & E1 & E2 & E3 & (Z1 & Z2 & Z3)). destruct (MO m Hm) as (me' & o' & F1 & F2 & F3 & F4). unfold get in *. assert (me' = me) by congruence. assert (o' = o) by congruence. subst me' o'. exists me, o. do 5 (split; [auto|]). split.
        - intros x i Hx. apply Z2. apply in_map_iff. exists i. split; auto. now apply nth_error_In in Hx.
        - intros x y i j L Hx Hy. specialize (Z3 x y L). rewrite map_length in Z3. assert (Ly : y < length o) by (apply nth_error_Some; congruence). specialize (Z3 Ly).
          assert (G : forall z k, nth_error o z = Some k -> nth z (map (fun j => nth j asg 0) o) 0 = nth k asg 0). { intros z k H. apply nth_error_nth. now rewrite nth_error_map, H. } rewrite (G x i Hx), (G y j Hy) in Z3. exact Z3. }
      split; auto. split; [constructor|split].
      + lia. + lia.
      + intros x y H. apply chain_edge in H. lia. + intros x y H. apply chain_back in H. lia.
      + apply flip_converse. intros x y. now rewrite chain_edge, chain_back.
      + assert (FF : forall l as', incl l ms -> Forall2 (placed P (s_mto C) n) l as' -> Forall2 (fits P n) l as'); [|apply FF; auto; apply incl_refl].
        clear -PP. induction l as [|m l IH]; intros as' IL PL; inversion PL as [|? asg ? as2 H1 H2]; subst; constructor; [|apply IH; auto; intros x Hx; apply IL; now right].
        destruct (PP m asg (IL m (or_introl eq_refl)) H1) as (me & o & E1 & E2 & E3 & PO & LA & RG & MN). exists me. split; auto. split; auto.
        assert (POS : forall i, i < length asg -> exists x, nth_error o x = Some i). { intros i Li. apply In_nth_error. apply (Permutation_in _ (Permutation_sym PO)). apply in_seq. lia. }
        split.
        * intros v Hv. apply In_nth with (d := 0) in Hv as (i & Li & <-). destruct (POS i Li) as (x & Hx). eauto.
        * apply NoDup_nth with (d := 0). intros i j Li Lj E. destruct (POS i Li) as (x & Hx). destruct (POS j Lj) as (y & Hy). destruct (lt_eq_lt_dec x y) as [[L|L]|L].
          -- specialize (MN x y i j L Hx Hy). lia. -- subst y. congruence. -- specialize (MN y x j i L Hy Hx). lia.
      + intros k m asg me i j Hk Ha Em IJ. assert (Hm : In m ms) by (eapply nth_error_In; eauto). assert (PLC := forall2_nth _ _ _ _ _ _ PL Hk Ha). destruct (PP m asg Hm PLC) as (me' & o & E1 & CL & E3 & PO & LA & RG & MN). assert (me' = me) by congruence. subst me'.
        assert (POS : forall i, i < length (m_subs me) -> exists x, nth_error o x = Some i). { intros z Li. apply In_nth_error. apply (Permutation_in _ (Permutation_sym PO)). apply in_seq. lia. }
        destruct (co_rng _ CL i j IJ) as [Li Lj]. destruct (POS i Li) as (x & Hx). destruct (POS j Lj) as (y & Hy).
        assert (CS : Order_model.consecutive (succs_of me) o = true).
        { assert (Lk : k < length bs) by (rewrite Lb; apply nth_error_Some; congruence). apply get_some in Lk as (b & Hb). assert (b = true) by (rewrite forallb_forall in FB; apply FB; eapply nth_error_In; exact Hb). subst b. assert (Q := Kb k m true Hk Hb). unfold method_total, get in Q. rewrite Em in Q. cbn [obind] in Q. rewrite E3 in Q. cbn [obind] in Q. congruence. }
        apply chain_edge. split; [|eauto]. destruct (lt_eq_lt_dec x y) as [[L|L]|L]; [eauto| |].
        * subst y. assert (i = j) by congruence. subst j. elim (co_irr _ CL i IJ).
        * elim (co_irr _ CL i). apply (co_trans _ CL i j i IJ). apply (consec_ord me (co_trans _ CL) o CS y x j i L Hy Hx).
    - assert (NE : ms <> []) by (rewrite EM; discriminate). destruct (methods_embedded P false (s_mto C) ms known NE MO) as (g & mps & Eg & LM & EMB & _ & _ & _ & _ & CV & RG). rewrite Eg. cbn [obind].
      exists (rows (g_n g) (g_adj g)), (rows (g_n g) (g_bdj g)), mps.
      assert (LA : forall a, length (rows (g_n g) a) = g_n g) by (intros a; unfold rows; now rewrite map_length, seq_length).
      assert (FT : forall k m asg, nth_error ms k = Some m -> nth_error mps k = Some asg -> exists me, nth_error (p_methods P) m = Some me /\ embedded (g_n g) (g_labels g) (fun x y => g_adj g x y = true) me asg).
      { intros k m asg Hk Ha. destruct (MM m (nth_error_In _ _ Hk)) as (me & Em & _). exists me. split; auto. exact (EMB k m me asg Hk Em Ha). }
      split; auto. split; [constructor|split].
      + rewrite LA. assert (K0 : nth_error ms 0 = Some m0) by (rewrite EM; reflexivity). destruct (nth_error mps 0) as [asg|] eqn:Ea; [|apply nth_error_None in Ea; rewrite LM, EM in Ea; cbn in Ea; lia]. destruct (FT 0 m0 asg K0 Ea) as (me & Em & EB). assert (me = me0) by congruence. subst me.
        assert (LL := em_len _ _ _ _ _ EB). destruct asg as [|v asg]; [cbn in LL; lia|]. assert (v < g_n g) by (apply (em_rng _ _ _ _ _ EB); now left). lia.
      + now rewrite !LA.
      + intros x y H. apply rows_edge in H. rewrite LA. lia. + intros x y H. apply rows_edge in H. rewrite LA. lia.
      + apply flip_converse. intros x y. rewrite !rows_edge, CV. tauto.
      + rewrite LA. clear -FT LM. revert FT LM. generalize mps as l'. induction ms as [|m l IH]; intros [|asg l'] FT LM; try discriminate; constructor.
        * destruct (FT 0 m asg eq_refl eq_refl) as (me & Em & EB). exists me. split; auto. split; [apply (em_len _ _ _ _ _ EB)|]. split; [apply (em_rng _ _ _ _ _ EB)|apply (em_inj _ _ _ _ _ EB)].
        * apply IH; [|cbn in LM; lia]. intros k. apply (FT (S k)).
      + intros k m asg me i j Hk Ha Em IJ. destruct (FT k m asg Hk Ha) as (me' & Em' & EB). assert (me' = me) by congruence. subst me'. destruct (MO m (nth_error_In _ _ Hk)) as (me' & o & F1 & CL & _). assert (me' = me) by congruence. subst me'.
        destruct (co_rng _ CL i j IJ) as [Li Lj]. assert (LL := em_len _ _ _ _ _ EB). assert (Hi : nth_error asg i = Some (nth i asg 0)) by (apply nth_error_nth'; lia). assert (Hj : nth_error asg j = Some (nth j asg 0)) by (apply nth_error_nth'; lia).
        assert (A : g_adj g (nth i asg 0) (nth j asg 0) = true) by (apply (em_ord _ _ _ _ _ EB i j _ _ Hi Hj); auto). apply rows_edge. destruct (RG _ _ A) as (R1 & R2 & _). auto.
  Qed.

  Existing Instance po_kind.
  Lemma po_expand_ok d : tasks_ok P d -> pn_abs d <> [] -> exists d' us, po_expand_node P C d = Some (d', map (fun u => PNode u []) us) /\ expanded P d d' us.
  Proof.
    intros TO NA. destruct (node_sog_ok d TO NA) as (adj & bdj & asgs & E & GO & FT & ED). unfold po_expand_node. rewrite E. cbn [obind]. apply expand_with_ok; auto.
    - apply (pc_sort _ _ _ CO).
    - exact (go_ne _ _ GO).
    - intros m a mi asg me I Em. apply combine_in in I as (x & Hx & Ha). assert (Hx' : nth_error (map (fun '(m, _, _) => m) (s_sort C (gather P (pn_abs d)))) x = Some m) by (rewrite nth_error_map, Hx; reflexivity).
      destruct (forall2_nth _ _ _ _ _ _ FT Hx' Ha) as (me' & Em' & LA & RG & ND). assert (me' = me) by congruence. subst me'.
      destruct (sort_by (fun j => nth j asg 0) (seq 0 (length (m_subs me)))) as (o & PO & SS).
      { rewrite <- LA. replace (map (fun j => nth j asg 0) (seq 0 (length asg))) with asg; auto. apply nth_ext with (d := 0) (d' := 0); [now rewrite map_length, seq_length|]. intros n Ln. symmetry. apply nth_error_nth. apply map_seq_nth. auto. }
      assert (OI : forall j, In j o <-> j < length (m_subs me)). { intros j. split; intros H; [apply (Permutation_in _ PO) in H; apply in_seq in H; lia|apply (Permutation_in _ (Permutation_sym PO)); apply in_seq; lia]. }
      exists o. split; auto. split.
      + exists adj, bdj, asgs. split; auto. split; auto. split; auto. split; [eapply Permutation_NoDup; [apply Permutation_sym; exact PO|apply seq_NoDup]|]. split; auto.
        split.
        * intros x' y i j u w H1 H2 H3 H4 IJ. rewrite nth_error_map, H1 in H2. rewrite nth_error_map, H3 in H4. injection H2 as <-. injection H4 as <-. eapply ED; eauto.
        * intros EX x' y i j u w H1 H2 H3 H4 PR. rewrite nth_error_map, H1 in H2. rewrite nth_error_map, H3 in H4. injection H2 as <-. injection H4 as <-.
          apply (EX adj bdj asgs x m asg me i j); auto; apply OI; eapply nth_error_In; eauto.
      + split; [now rewrite map_length|]. split; [|apply sorted_nth; auto]. intros p Hp. apply in_map_iff in Hp as (j & <- & Hj). apply OI in Hj. apply RG. apply nth_In. lia.
  Qed.
End Kind.
