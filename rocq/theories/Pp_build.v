(** What the true variables of a partially ordered decomposition tree spell: a decomposition of the initial task. *)
From Coq Require Import Sorting.Sorted Relation_Operators.
From Verif Require Import Base Htn_problem Htn_spec Sat_spec Sog_spec Sf_proof Posog_spec.
From Verif Require Import Pdt_model Pdt_spec Pdt_tree Pdt_expand Pdt_prune Pdt_leafs Pdt_vars Pdt_clause Pdt_dec Pdt_sound Pp_model Pp_spec Pp_kind Pp_sem.

Lemma nth_error_ext' {A} : forall l l' : list A, (forall i, nth_error l i = nth_error l' i) -> l = l'.
Proof.
  induction l as [|x l IH]; intros [|y l'] H; auto; try (specialize (H 0); discriminate). assert (H0 := H 0). injection H0 as <-. f_equal. apply IH. intros i. exact (H (S i)).
Qed.
Lemma choice_list {A} n (R : nat -> A -> Prop) : (forall j, j < n -> exists x, R j x) -> exists l, length l = n /\ forall j x, nth_error l j = Some x -> R j x.
Proof.
  induction n as [|n IH]; intros H; [exists []; split; auto; intros [|j]; discriminate|]. destruct IH as (l & L & K); [intros j Lj; apply H; lia|]. destruct (H n) as (x & Hx); [lia|]. exists (l ++ [x]). rewrite app_length. cbn. split; [lia|].
  intros j y E. destruct (lt_dec j (length l)) as [Lj|Lj]; [rewrite nth_error_app1 in E by auto; auto|]. rewrite nth_error_app2 in E by lia. destruct (j - length l) as [|k] eqn:D; [|destruct k; discriminate]. injection E as <-. replace j with n by lia. auto.
Qed.
Lemma pos_of {A B} (R : A -> B -> Prop) l l' : Forall2 R l l' -> forall a, In a l -> exists x b, nth_error l x = Some a /\ nth_error l' x = Some b /\ R a b.
Proof. induction 1 as [|a b l l' H _ IH]; intros z Hz; [destruct Hz|]. destruct Hz as [<-|Hz]; [exists 0, b; auto|]. destruct (IH z Hz) as (x & c & H1 & H2 & H3). exists (S x), c. auto. Qed.
Lemma pos_of' {A B} (R : A -> B -> Prop) l l' : Forall2 R l l' -> forall b, In b l' -> exists x a, nth_error l x = Some a /\ nth_error l' x = Some b /\ R a b.
Proof. induction 1 as [|a b l l' H _ IH]; intros z Hz; [destruct Hz|]. destruct Hz as [<-|Hz]; [exists 0, a; auto|]. destruct (IH z Hz) as (x & c & H1 & H2 & H3). exists (S x), c. auto. Qed.
Lemma sorted_inj vs : StronglySorted lt vs -> forall x y (c : nat), nth_error vs x = Some c -> nth_error vs y = Some c -> x = y.
Proof.
  induction 1 as [|a l S IH F]; intros [|x] [|y] c E1 E2; cbn in E1, E2; try discriminate; auto.
  - injection E1 as ->. rewrite Forall_forall in F. apply nth_error_In in E2. specialize (F c E2). lia.
  - injection E2 as ->. rewrite Forall_forall in F. apply nth_error_In in E1. specialize (F c E1). lia.
  - f_equal. eauto.
Qed.

Section Build.
  Variables (P : problem) (C : sconf) (T : pdt) (v : assignment).
  Instance KI : kind := po_kind P C.
  Hypothesis WF : wf_problem P.
  Hypothesis TO : tree_ok P T.
  Hypothesis FI : forall q t, at_node T q t -> filled P [] q (dat t).
  Hypothesis VC : tall vcond T.
  Hypothesis NODE : forall q d ch, at_node T q (PNode d ch) -> pn_exp d = true -> task_vars d <> [] -> unique_task v d /\ unique_meth v d /\ sem v [] q d ch.
  Hypothesis ROOT : pn_prims (dat T) = [] /\ length (pn_abs (dat T)) = 1.
  Hypothesis NOABS : forall q d a, at_node T q (PNode d []) -> ~ on v false d a.

  (** The action [a] is chosen at a leaf. *)
  Definition acts (d : pnode) (a : nat) : Prop := exists i, on v true d i /\ nth_error (pn_prims d) i = Some a.
  (** [p] is before [p'] in the graph of the node where the paths separate *)
  Definition pbefore (p p' : list nat) : Prop := exists r i j p1 p2 d ch adj bdj asgs, p = r ++ i :: p1 /\ p' = r ++ j :: p2 /\ subtree T r = Some (PNode d ch) /\ ch <> [] /\
    node_sog P C (pn_abs d) = Some (adj, bdj, asgs) /\ precedes adj i j.

  (** [w] decomposes the tasks below the node [t] at [q]. *)
  Record covers (q : list nat) (t : pdt) (w : dtr) : Prop := {
    cv_leaf : forall y p a, dsub w y = Some (DA p a) -> exists p' d, p = rev q ++ p' /\ subtree t p' = Some (PNode d []) /\ acts d a;
    cv_all : forall p' d a, subtree t p' = Some (PNode d []) -> acts d a -> exists y, dsub w y = Some (DA (rev q ++ p') a);
    cv_inj : forall y y' p a a', dsub w y = Some (DA p a) -> dsub w y' = Some (DA p a') -> y = y';
    cv_ord : forall y y' p p' a a', dsub w y = Some (DA p a) -> dsub w y' = Some (DA p' a') -> dt_before w y y' -> pbefore p p' }.

  Lemma below q t : at_node T q t -> forall p' u pr i, subtree t p' = Some u -> on v pr (dat u) i -> exists pr' i', on v pr' (dat t) i'.
  Proof.
    intros A p'. induction p' as [|c p' IH] using rev_ind; intros u pr i E O; [cbn in E; injection E as <-; eauto|].
    rewrite subtree_app in E. destruct (subtree t p') as [[d ch]|] eqn:Em; [|discriminate]. cbn [obind subtree kids] in E. destruct (get ch c) as [u'|] eqn:Ec; [|discriminate]. cbn [obind] in E. injection E as ->.
    assert (A' : at_node T (rev p' ++ q) (PNode d ch)). { unfold at_node in *. rewrite rev_app_distr, rev_involutive, subtree_app, A. exact Em. }
    destruct (child_on P [] T v TO VC NODE _ d ch c u pr i A' Ec O) as (_ & _ & _ & [(p & j & O' & _)|(a & m & j & _ & O' & _)]); apply (IH (PNode d ch) _ _ eq_refl O').
  Qed.

  Lemma build : forall t q, at_node T q t -> forall pr i x, on v pr (dat t) i -> nth_error (ctasks pr (dat t)) i = Some x -> exists w, good P w /\ dlab w = x /\ covers q t w.
  Proof.
    induction t as [d ch IH] using pdt_rect'. intros q A pr i x O Hx. cbn [dat] in *. assert (UQ := unique_all P [] T v TO FI VC NODE ROOT q _ A). cbn [dat] in UQ. assert (FL := FI q _ A). cbn [dat] in FL.
    assert (TK := at_ok P T TO q _ A). apply tree_ok_node in TK as (TK & _ & _).
    destruct ch as [|u0 r0] eqn:Ech.
    - destruct pr; [|elim (NOABS q d i A O)]. cbn [ctasks] in Hx. exists (DA (rev q) x). split; [constructor; apply (to_prims _ _ TK); now apply nth_error_In in Hx|]. split; auto.
      assert (D0 : forall y p a, dsub (DA (rev q) x) y = Some (DA p a) -> y = [] /\ p = rev q /\ a = x). { intros [|j y] p a E; [|discriminate]. cbn in E. injection E as <- <-. auto. }
      constructor.
      + intros y p a E. apply D0 in E as (-> & -> & ->). exists [], d. rewrite app_nil_r. split; auto. split; auto. exists i. auto.
      + intros p' d' a E (i' & O' & Ha). destruct p' as [|c p']; [|cbn in E; destruct c; discriminate]. cbn in E. injection E as <-. destruct (UQ _ _ _ _ O O') as [_ <-]. rewrite app_nil_r. exists []. cbn. congruence.
      + intros y y' p a a' E E'. apply D0 in E as (-> & _). apply D0 in E' as (-> & _). auto.
      + intros y y' p p' a a' E _ (r & j & k & x' & y2 & m & kids & E1 & _). apply D0 in E as (-> & _). destruct r; discriminate.
    - assert (NE : ch <> []) by (rewrite Ech; discriminate). rewrite <- Ech in *. clear Ech u0 r0.
      destruct (at_kids P T TO q d ch A NE) as [Ee NO]. rewrite Forall_forall in IH.
      assert (CH : forall c u, nth_error ch c = Some u -> at_node T (c :: q) u) by (intros c u Hc; exact (at_child T q _ c u A Hc)).
      assert (RV : forall c p, rev (c :: q) ++ p = rev q ++ c :: p) by (intros c p; cbn [rev]; rewrite <- app_assoc; reflexivity).
      assert (SP : forall p' d', subtree (PNode d ch) p' = Some (PNode d' []) -> exists c u p2, p' = c :: p2 /\ nth_error ch c = Some u /\ subtree u p2 = Some (PNode d' [])).
      { intros [|c p2] d' E; [cbn in E; injection E as _ E; congruence|]. cbn [subtree kids] in E. unfold get in E. destruct (nth_error ch c) as [u|] eqn:Hc; [|discriminate]. cbn [obind] in E. eauto 6. }
      destruct pr.
      + (* an inherited action *)
        cbn [ctasks] in Hx. destruct (NODE q d ch A Ee (on_vars v _ _ _ O)) as (_ & _ & (S1 & _)). assert (Lp : i < length (pn_pos d)) by (rewrite (no_pos _ _ _ NO); now apply get_lt in Hx). destruct (nth_error (pn_pos d) i) as [[[c i'] j]|] eqn:Ep; [|apply nth_error_None in Ep; lia].
        destruct (no_pos_ok _ _ _ NO i c i' j Ep) as (u' & cs & K1 & K2 & _). rewrite nth_error_map in K1. destruct (nth_error ch c) as [u|] eqn:Hc; [|discriminate]. injection K1 as <-. destruct (S1 i c i' j u O Ep Hc) as [Oi _].
        destruct (IH u (nth_error_In _ _ Hc) (c :: q) (CH c u Hc) true i' x Oi) as (w & G & LB & [V1 V2 V3 V4]); [cbn [ctasks]; congruence|]. exists w. split; auto. split; auto. constructor; auto.
        * intros y p a E. destruct (V1 y p a E) as (p' & d' & -> & E2 & Ha). exists (c :: p'), d'. rewrite RV. split; auto. split; auto. cbn [subtree kids]. unfold get. now rewrite Hc.
        * intros p' d' a E Ha. destruct (SP p' d' E) as (c' & u' & p2 & -> & Hc' & E'). assert (c' = c).
          { destruct Ha as (k & Ok & Hk). destruct (below (c' :: q) u' (CH c' u' Hc') p2 _ _ _ E' Ok) as (pr' & k' & O').
            destruct (child_on P [] T v TO VC NODE q d ch c' u' pr' k' A Hc' O') as (_ & _ & _ & [(p' & j' & O2 & _ & E2)|(a' & m & j' & _ & O2 & _)]); destruct (UQ _ _ _ _ O O2) as [X Y]; [|discriminate]. subst p'. rewrite Ep in E2. injection E2 as -> _ _. auto. }
          subst c'. assert (u' = u) by congruence. subst u'. destruct (V2 p2 d' a E' Ha) as (y & Hy). rewrite RV in Hy. eauto.
      + (* an abstract task *)
        cbn [ctasks] in Hx. rename i into a. destruct (NODE q d ch A Ee (on_vars v _ _ _ O)) as (_ & UM & (_ & [S2 S4] & _)). destruct (S4 a O) as (m & OM). destruct (S2 a m OM) as [_ SM].
        destruct (fl_meth _ _ _ _ FL Ee) as [_ FM']. destruct (FM' a x Hx) as (mvs & M1 & M2 & _). assert (Lm : m < nmeth P x). { destruct OM as (mvs' & y & Y1 & Y2 & _). rewrite M1 in Y1. injection Y1 as <-. apply get_lt in Y2. lia. }
        assert (XM : exists mi, nth_error (methods_of P x) m = Some mi). { unfold nmeth in Lm. destruct (nth_error (methods_of P x) m) eqn:E; eauto. apply nth_error_None in E. lia. } destruct XM as (mi & Hmi).
        destruct (no_meth _ _ _ NO a x m mi Hx Hmi) as (me & o & vs & Q1 & Q2 & Q3 & Q4 & Q5 & Q6). rewrite map_length in Q4. destruct (placement_sorted _ _ _ Q4) as [SS IN].
        destruct Q3 as (adj & bdj & asgs & ES & GO & LN & NDo & Io & EDG & _).
        assert (INM : In me (p_methods P)) by (now apply nth_error_In in Q1).
        (* the decomposition of each subtask *)
        assert (KID : forall j, j < length (m_subs me) -> exists w, exists y c u k t, nth_error o y = Some j /\ nth_error vs y = Some c /\ nth_error ch c = Some u /\ find_ptr d a m c = Some k /\ nth_error (m_subs me) j = Some t /\
           on v (cp_prim k) (dat u) (cp_task k) /\ good P w /\ dlab w = t /\ covers (c :: q) u w).
        { intros j Lj. apply Io in Lj. destruct (pos_of _ _ _ Q5 j Lj) as (y & c & Y1 & Y2 & (u' & k & t & K1 & K2 & K3 & K4)). rewrite nth_error_map in K1. destruct (nth_error ch c) as [u|] eqn:Hc; [|discriminate]. injection K1 as <-.
          assert (Z := SM c u Hc). rewrite K2 in Z. destruct (IH u (nth_error_In _ _ Hc) (c :: q) (CH c u Hc) (cp_prim k) (cp_task k) t) as (w & G & LB & CV); [exact Z|exact K4|]. exists w, y, c, u, k, t. auto 12. }
        destruct (choice_list _ _ KID) as (kids & LK & HK). exists (DN me kids).
        assert (GK : good P (DN me kids)).
        { constructor; auto.
          - apply nth_error_ext'. intros j. rewrite nth_error_map. destruct (nth_error kids j) as [w|] eqn:E; cbn.
            + destruct (HK j w E) as (y & c & u & k & t & _ & _ & _ & _ & Et & _ & _ & LB & _). congruence.
            + apply nth_error_None in E. symmetry. apply nth_error_None. lia.
          - apply Forall_forall. intros w Hw. apply In_nth_error in Hw as (j & Hj). destruct (HK j w Hj) as (y & c & u & k & t & _ & _ & _ & _ & _ & _ & G & _). auto. }
        split; auto. split; auto.
        assert (DS : forall y p b, dsub (DN me kids) y = Some (DA p b) -> exists j y' w, y = j :: y' /\ nth_error kids j = Some w /\ dsub w y' = Some (DA p b)).
        { intros [|j y] p b E; [discriminate|]. cbn [dsub] in E. destruct (nth_error kids j) as [w|] eqn:Ej; [|discriminate]. eauto 6. }
        constructor.
        * intros y p b E. destruct (DS y p b E) as (j & y' & w & -> & Ej & E'). destruct (HK j w Ej) as (z & c & u & k & t & _ & _ & Hc & _ & _ & _ & _ & _ & CV). destruct (cv_leaf _ _ _ CV y' p b E') as (p' & d' & -> & E2 & Ha). exists (c :: p'), d'. rewrite RV. split; auto. split; auto. cbn [subtree Pdt_model.kids]. unfold get. now rewrite Hc.
        * intros p' d' b E Ha. destruct (SP p' d' E) as (c & u & p2 & -> & Hc & E'). assert (VS : In c vs).
          { destruct Ha as (k & Ok & Hk). destruct (below (c :: q) u (CH c u Hc) p2 _ _ _ E' Ok) as (pr' & k' & O').
            destruct (child_on P [] T v TO VC NODE q d ch c u pr' k' A Hc O') as (_ & _ & _ & [(p' & j' & O2 & _ & E2)|(a' & m' & j' & OM' & O2 & E2)]); [destruct (UQ _ _ _ _ O O2) as [X Y]; discriminate|]. destruct (UM _ _ _ _ OM OM') as [<- <-]. exact (Q6 c _ E2). }
          destruct (pos_of' _ _ _ Q5 c VS) as (z & j & Z1 & Z2 & _). assert (Lj : j < length kids) by (rewrite LK; apply Io; now apply nth_error_In in Z1). apply get_some in Lj as (w & Ej). unfold get in Ej.
          destruct (HK j w Ej) as (z' & c' & u' & k & t & Z1' & Z2' & Hc' & _ & _ & _ & _ & _ & CV). assert (z' = z). { apply (proj1 (NoDup_nth_error o) NDo); [apply nth_error_Some; congruence|congruence]. } subst z'. assert (c' = c) by congruence. subst c'. assert (u' = u) by congruence. subst u'.
          destruct (cv_all _ _ _ CV p2 d' b E' Ha) as (y & Hy). exists (j :: y). cbn [dsub]. rewrite Ej, Hy. now rewrite RV.
        * intros y y' p b b' E E'. destruct (DS y p b E) as (j & y1 & w & -> & Ej & E1). destruct (DS y' p b' E') as (j' & y2 & w' & -> & Ej' & E2).
          destruct (HK j w Ej) as (z & c & u & k & t & Z1 & Z2 & Hc & _ & _ & _ & _ & _ & CV). destruct (HK j' w' Ej') as (z' & c' & u' & k' & t' & Z1' & Z2' & Hc' & _ & _ & _ & _ & _ & CV').
          destruct (cv_leaf _ _ _ CV y1 p b E1) as (p1 & d1 & Ep1 & _). destruct (cv_leaf _ _ _ CV' y2 p b' E2) as (p2 & d2 & Ep2 & _). rewrite Ep1, !RV in Ep2. apply app_inv_head in Ep2. injection Ep2 as Ec _. subst c'.
          assert (z' = z) by exact (sorted_inj vs SS z' z c Z2' Z2). subst z'. assert (j' = j) by congruence. subst j'. assert (w' = w) by congruence. subst w'. f_equal. exact (cv_inj _ _ _ CV y1 y2 p b b' E1 E2).
        * intros y y' p p' b b' E E' (r & j0 & k0 & x' & y0 & mr & kr & Ey & Ey' & Er & LT). destruct (DS y p b E) as (j & y1 & w & -> & Ej & E1). destruct (DS y' p' b' E') as (j' & y2 & w' & -> & Ej' & E2).
          destruct (HK j w Ej) as (z & c & u & k & t & Z1 & Z2 & Hc & _ & _ & _ & _ & _ & CV). destruct (HK j' w' Ej') as (z' & c' & u' & k' & t' & Z1' & Z2' & Hc' & _ & _ & _ & _ & _ & CV').
          destruct r as [|r0 r].
          -- cbn in Ey, Ey', Er. injection Ey as <- <-. injection Ey' as <- <-. injection Er as <- <-.
             assert (PR : forall j j', m_lt me j j' -> forall z z' c c', nth_error o z = Some j -> nth_error vs z = Some c -> nth_error o z' = Some j' -> nth_error vs z' = Some c' -> precedes adj c c').
             { clear -Q5 EDG NDo WF INM Io. intros j j' LT. induction LT as [j j' H|j l j' H1 I1 H2 I2]; intros z z' c c' O1 O2 O3 O4; [apply t_step; exact (EDG z z' j j' c c' O1 O2 O3 O4 H)|].
               assert (Ll : l < length (m_subs me)). { clear -H1 WF INM. assert (W := wf_methods _ WF me INM). induction H1 as [j l H|]; auto. apply (wfm_ord _ _ W) in H. tauto. }
               apply Io in Ll. destruct (pos_of _ _ _ Q5 l Ll) as (z2 & c2 & W1 & W2 & _). apply t_trans with c2; [exact (I1 z z2 c c2 O1 O2 W1 W2)|exact (I2 z2 z' c2 c' W1 W2 O3 O4)]. }
             destruct (cv_leaf _ _ _ CV y1 p b E1) as (p1 & d1 & -> & _). destruct (cv_leaf _ _ _ CV' y2 p' b' E2) as (p2 & d2 & -> & _). rewrite !RV. exists (rev q), c, c', p1, p2, d, ch, adj, bdj, asgs. split; auto. split; auto. split; [exact A|]. split; auto. split; auto. exact (PR j j' LT z z' c c' Z1 Z2 Z1' Z2').
          -- cbn in Ey, Ey'. injection Ey as <- ->. injection Ey' as -> ->. assert (w' = w) by congruence. subst w'. cbn [dsub] in Er. rewrite Ej in Er. apply (cv_ord _ _ _ CV _ _ p p' b b' E1 E2). exists r, j0, k0, x', y0, mr, kr. auto.
  Qed.
End Build.
