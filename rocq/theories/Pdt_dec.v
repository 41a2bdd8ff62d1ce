(** The clauses of the whole tree. *)
From Verif Require Import Base Htn_problem Htn_spec Sat_model Sat_spec Sat_proof Sf_proof Tab_proof Pdt_model Pdt_spec Pdt_tree Pdt_expand Pdt_prune Pdt_leafs Pdt_vars Pdt_clause.
Local Open Scope Z_scope.

Definition node_cond (v : assignment) (F : flags) (q : list nat) (d : pnode) (ch : list pdt) : Prop :=
  (count_true v (task_vars d) <= 1)%nat /\ (forall ma, method_atoms q F d = Some ma -> (count_true v ma <= 1)%nat) /\ (forall c, plain q F d ch = Some c -> satisfies v c).
Fixpoint dec_cond (v : assignment) (F : flags) (t : pdt) (q : list nat) {struct t} : Prop :=
  match t with
  | PNode d ch => if negb (pn_exp d) then True else
      match somes (pn_pvar d) ++ somes (pn_avar d) with
      | [] => True
      | _ => node_cond v F q d ch /\ (fix go (l : list pdt) (i : nat) {struct l} : Prop := match l with [] => True | u :: r => dec_cond v F u (i :: q) /\ go r (S i) end) ch O
      end
  end.
Lemma go_all (R : pdt -> nat -> Prop) : forall l b, (fix go (l : list pdt) (i : nat) {struct l} : Prop := match l with [] => True | u :: r => R u i /\ go r (S i) end) l b <-> forall k u, nth_error l k = Some u -> R u (b + k)%nat.
Proof.
  induction l as [|u r IH]; intros b; [split; auto; intros _ [|k]; discriminate|]. rewrite IH. split.
  - intros [H1 H2] [|k] w E; cbn [nth_error] in E; [injection E as <-; now rewrite Nat.add_0_r|]. rewrite <- Nat.add_succ_comm. auto.
  - intros H. split; [rewrite <- (Nat.add_0_r b); exact (H O u eq_refl)|]. intros k w E. rewrite Nat.add_succ_comm. exact (H (S k) w E).
Qed.
Lemma dec_alive v F d ch q : pn_exp d = true -> task_vars d <> [] -> (dec_cond v F (PNode d ch) q <-> node_cond v F q d ch /\ forall k u, nth_error ch k = Some u -> dec_cond v F u (k :: q)).
Proof.
  intros E N. cbn [dec_cond]. rewrite E. cbn [negb]. unfold task_vars in N. destruct (somes (pn_pvar d) ++ somes (pn_avar d)) eqn:Es; [congruence|]. rewrite (go_all (fun u i => dec_cond v F u (i :: q))). reflexivity.
Qed.
Lemma dec_dead v F d ch q : pn_exp d = false \/ task_vars d = [] -> dec_cond v F (PNode d ch) q.
Proof. intros [E|E]; cbn [dec_cond]; [rewrite E; exact I|]. unfold task_vars in E. rewrite E. destruct (negb (pn_exp d)); exact I. Qed.
Lemma tall_at R : forall path t u, tall R t -> subtree t path = Some u -> tall R u.
Proof.
  induction path as [|c path IH]; intros [d ch] u H E; cbn [subtree] in E; [injection E as <-; auto|]. apply obind_some in E as (w & E1 & E2). apply tall_node in H as [_ H]. rewrite Forall_forall in H. apply (IH w u); auto. apply H. eapply nth_error_In; exact E1.
Qed.

Section Dec.
  Context {KI : kind}.
  Variables (P : problem) (C : sconf) (F : flags) (T : pdt) (n0 : Z).
  Hypothesis TO : tree_ok P T.
  Hypothesis CL : forall q t, at_node T q t -> closed P F q t.
  Hypothesis FI : forall q t, at_node T q t -> filled P F q (dat t).
  Hypothesis BD : forall x, In x (avars T) -> 1 <= x <= n0.
  Hypothesis POS : 1 <= n0.
  Hypothesis BITS : bits_ok (s_bits C).
  Hypothesis VC : tall vcond T.

  Lemma node_clauses_ok q d ch nv : at_node T q (PNode d ch) -> pn_exp d = true -> n0 <= nv -> exists c nv', node_clauses C q F d ch nv = Some (c, nv') /\ encodes nv nv' c (fun v => node_cond v F q d ch) /\
    (forall v v', agree n0 v v' -> node_cond v F q d ch -> node_cond v' F q d ch).
  Proof.
    intros At Ee Ln. unfold node_clauses. destruct (atMostOne (s_bits C) nv (somes (pn_pvar d) ++ somes (pn_avar d))) as [c1 nv1] eqn:E1.
    destruct (method_atoms_ok P F T CL FI q d ch At Ee) as (ma & Em & HM). rewrite Em. cbn [obind].
    destruct (match ma with [] => ([], nv1) | _ => atMostOne (s_bits C) nv1 ma end) as [c2 nv2] eqn:E2.
    destruct (plain_clauses P F T n0 TO CL FI BD q d ch At Ee) as (cp & Ep & Vp & _). assert (Ep' := Ep). unfold plain in Ep'. apply obind_some in Ep' as (c3 & -> & Ep'). cbn [obind]. apply obind_some in Ep' as (c4 & -> & Ep'). cbn [obind]. apply obind_some in Ep' as (c5 & -> & Ep'). cbn [obind]. apply obind_some in Ep' as (c6 & -> & Ep'). cbn [obind]. apply some_eq in Ep'.
    assert (OK1 : forall x, In x (somes (pn_pvar d) ++ somes (pn_avar d)) -> lit_ok n0 x). { intros x Hx. apply pos_ok. apply task_vars_in in Hx as (pr & i & Hi). exact (var_bound T n0 BD _ _ pr i x At Hi). }
    assert (OK2 : forall x, In x ma -> lit_ok n0 x). { intros x Hx. apply pos_ok. apply HM in Hx as (a & mvs & m & M1 & M2). exact (meth_bound T n0 BD _ _ a mvs m x At Ee M1 M2). }
    assert (LK : forall n x, n0 <= n -> lit_ok n0 x -> lit_ok n x) by (clear; unfold lit_ok; intros; lia).
    assert (Z0 : 0 <= nv) by lia. assert (X1 := amo_encodes _ _ _ _ _ BITS Z0 (fun x Hx => LK nv x Ln (OK1 x Hx)) E1).
    assert (L1 := e_le _ _ _ _ X1).
    assert (X2 : encodes nv1 nv2 c2 (fun v => (count_true v ma <= 1)%nat)).
    { destruct ma as [|m0 mr] eqn:Eq; [apply pair_equal_spec in E2 as [<- <-]; apply encodes_nil; [lia|intros v; cbn; lia]|]. assert (Z1 : 0 <= nv1) by lia. assert (Z2 : n0 <= nv1) by lia. exact (amo_encodes _ _ _ _ _ BITS Z1 (fun x Hx => LK nv1 x Z2 (OK2 x Hx)) E2). }
    assert (L2 := e_le _ _ _ _ X2).
    assert (X3 : encodes nv2 nv2 cp (fun v => satisfies v cp)). { apply encodes_plain; [|lia|intros v; reflexivity]. eapply vars_mono; [|exact Vp]. lia. }
    assert (AG : forall n (v v' : assignment), n0 <= n -> agree n v v' -> agree n0 v v') by (intros n v v' L A x Hx; apply A; lia).
    exists (c1 ++ c2 ++ c3 ++ c4 ++ concat c5 ++ c6), nv2. split; auto. rewrite <- Ep'.
    assert (EQ : forall v, (count_true v (somes (pn_pvar d) ++ somes (pn_avar d)) <= 1)%nat /\ (count_true v ma <= 1)%nat /\ satisfies v cp <-> node_cond v F q d ch).
    { intros v. unfold node_cond, task_vars. rewrite Em, Ep. split; [intros (H1 & H2 & H3); split; auto; split; intros z Ez; apply some_eq in Ez; subst z; auto|]. intros (H1 & H2 & H3). auto. }
    assert (ST : forall v v', agree n0 v v' -> node_cond v F q d ch -> node_cond v' F q d ch).
    { intros v v' A H. apply EQ in H as (H1 & H2 & H3). apply EQ. rewrite <- (count_agree n0 v v' _ OK1 A), <- (count_agree n0 v v' _ OK2 A). split; auto. split; auto. eapply sat_agree; eauto. }
    split; [|exact ST]. eapply encodes_weaken; [exact EQ|]. apply (encodes_app nv nv1 nv2 c1 (c2 ++ cp) _ _ X1); [eapply encodes_app; [exact X2|exact X3|]|].
    - intros v v' A. apply (sat_agree n0); auto. apply (AG nv1); [lia|auto].
    - intros v v' A [H2 H3]. assert (A0 := AG nv v v' Ln A). rewrite <- (count_agree n0 v v' _ OK2 A0). split; auto. eapply sat_agree; eauto.
  Qed.

  Lemma dec_encodes : forall t q nv, at_node T q t -> n0 <= nv -> exists cl nv', decomposition C F t q nv = Some (cl, nv') /\ encodes nv nv' cl (fun v => dec_cond v F t q) /\ (forall v v', agree n0 v v' -> dec_cond v F t q -> dec_cond v' F t q).
  Proof.
    induction t as [d ch IH] using pdt_rect'. intros q nv At Ln. cbn [decomposition dec_cond]. destruct (pn_exp d) eqn:Ee; cbn [negb].
    2: { exists [], nv. split; auto. split; [|auto]. apply encodes_nil; [lia|auto]. }
    destruct (somes (pn_pvar d) ++ somes (pn_avar d)) as [|x0 xr] eqn:Es.
    { exists [], nv. split; auto. split; [|auto]. apply encodes_nil; [lia|auto]. }
    destruct (node_clauses_ok q d ch nv At Ee Ln) as (c & nv1 & -> & X1 & S1). cbn [obind]. assert (L1 := e_le _ _ _ _ X1).
    assert (G : forall l b nv, (forall k u, nth_error l k = Some u -> nth_error ch (b + k)%nat = Some u) -> Forall (fun t => forall q nv, at_node T q t -> n0 <= nv -> exists cl nv', decomposition C F t q nv = Some (cl, nv') /\ encodes nv nv' cl (fun v => dec_cond v F t q) /\ (forall v v', agree n0 v v' -> dec_cond v F t q -> dec_cond v' F t q)) l -> n0 <= nv ->
      exists cs nv2, (fix go (l : list pdt) (i : nat) (nv : Z) {struct l} : option (list clause * Z) :=
                   match l with [] => Some ([], nv) | u :: r => '(x, nv') <- decomposition C F u (i :: q) nv ;; '(y, nv'') <- go r (S i) nv' ;; Some (x ++ y, nv'') end) l b nv = Some (cs, nv2) /\
        encodes nv nv2 cs (fun v => (fix go (l : list pdt) (i : nat) {struct l} : Prop := match l with [] => True | u :: r => dec_cond v F u (i :: q) /\ go r (S i) end) l b) /\
        (forall v v', agree n0 v v' -> (fix go (l : list pdt) (i : nat) {struct l} : Prop := match l with [] => True | u :: r => dec_cond v F u (i :: q) /\ go r (S i) end) l b -> (fix go (l : list pdt) (i : nat) {struct l} : Prop := match l with [] => True | u :: r => dec_cond v' F u (i :: q) /\ go r (S i) end) l b)).
    { clear - At POS. induction l as [|u r IHl]; intros b nv Hl IH Ln.
      - exists [], nv. split; auto. split; auto. apply encodes_nil; [lia|auto].
      - inversion IH as [|? ? IH1 IH2]; subst. assert (Au : at_node T (b :: q) u) by (apply (at_child T q _ b u At); rewrite <- (Nat.add_0_r b); apply (Hl O u eq_refl)).
        destruct (IH1 (b :: q) nv Au Ln) as (x & nv' & -> & X1 & S1). cbn [obind]. assert (L1 := e_le _ _ _ _ X1). destruct (IHl (S b) nv') as (y & nv'' & E2 & X2 & S2); auto; [|lia|].
        { intros k w Hk. rewrite Nat.add_succ_comm. apply (Hl (S k) w Hk). }
        rewrite E2. cbn [obind]. exists (x ++ y), nv''. split; auto. split.
        + eapply encodes_app; [exact X1|exact X2|]. intros v v' A. apply S2. intros z Hz. apply A. lia.
        + intros v v' A [H1 H2]. split; [eapply S1; eauto|eapply S2; eauto]. }
    destruct (G ch O nv1 (fun k u H => H) IH ltac:(lia)) as (cs & nv2 & E2 & X2 & S2). rewrite E2. cbn [obind]. exists (c ++ cs), nv2. split; auto. split.
    - eapply encodes_app; [exact X1|exact X2|]. intros v v' A. apply S2. intros z Hz. apply A. lia.
    - intros v v' A [H1 H2]. split; [eapply S1; eauto|eapply S2; eauto].
  Qed.

  Lemma vcond_at q d ch : at_node T q (PNode d ch) -> vcond d ch.
  Proof. intros A. assert (H := tall_at vcond (rev q) T _ VC A). now apply tall_node in H as [H _]. Qed.
  Lemma alive_mother c q u d ch : at_node T (c :: q) u -> at_node T q (PNode d ch) -> task_vars (dat u) <> [] -> task_vars d <> [].
  Proof.
    intros A A' N E. apply N. apply at_mother in A as (t & At & G). assert (Z := at_fun T q _ _ At A'). subst t. apply (proj2 (vcond_at q d ch A') E). eapply nth_error_In; exact G.
  Qed.
  Lemma dec_all v : dec_cond v F T [] <-> forall q d ch, at_node T q (PNode d ch) -> pn_exp d = true -> task_vars d <> [] -> node_cond v F q d ch.
  Proof.
    split.
    - intros H. assert (G : forall q t, at_node T q t -> task_vars (dat t) <> [] -> dec_cond v F t q).
      { induction q as [|c q IH]; intros t A N; [assert (Z : T = t) by (unfold at_node in A; cbn in A; congruence); now subst t|]. destruct (at_mother T c q t A) as ([d ch] & A' & G). cbn [kids] in G. assert (N' := alive_mother c q t d ch A A' N). specialize (IH _ A' N').
        destruct (at_child_data P T TO q d ch c t A' G) as (Ee & _). apply (dec_alive v F d ch q Ee N') in IH as [_ IH]. exact (IH c t G). }
      intros q d ch A Ee N. specialize (G q _ A N). now apply (dec_alive v F d ch q Ee N) in G as [G _].
    - intros H. assert (G : forall t q, at_node T q t -> dec_cond v F t q).
      { induction t as [d ch IH] using pdt_rect'. intros q A. destruct (pn_exp d) eqn:Ee; [|apply dec_dead; auto]. destruct (list_eq_dec Z.eq_dec (task_vars d) []) as [N|N]; [apply dec_dead; auto|]. apply dec_alive; auto. split; auto. intros k u Hk. rewrite Forall_forall in IH. apply (IH u); [eapply nth_error_In; eauto|]. exact (at_child T q _ k u A Hk). }
      apply G. reflexivity.
  Qed.

  (** ** Pruned variables *)
  Lemma pruned_in c : forall t q, In c (pruned_clauses F t q) <-> exists path u, subtree t path = Some u /\ In c (pruned_node (rev path ++ q) F (dat u)).
  Proof.
    induction t as [d ch IH] using pdt_rect'. intros q. cbn [pruned_clauses]. rewrite in_app_iff, (in_go (fun u i => pruned_clauses F u (i :: q))). rewrite Forall_forall in IH. split.
    - intros [H|(k & u & E & H)]; [exists [], (PNode d ch); auto|]. apply (IH u (nth_error_In _ _ E)) in H as (path & w & E' & H). exists (k :: path), w. cbn [subtree kids]. unfold get. rewrite E. cbn [obind rev]. rewrite <- app_assoc. auto.
    - intros ([|k path] & w & E & H); cbn [subtree] in E; [injection E as <-; auto|]. right. apply obind_some in E as (u & E1 & E2). exists k, u. split; auto. apply IH; [eapply nth_error_In; exact E1|]. exists path, w. split; auto. cbn [rev] in H. now rewrite <- app_assoc in H.
  Qed.
  Lemma pruned_list_in f l c : In c (pruned_list f l) <-> exists i x, nth_error l i = Some (Some x) /\ f i = true /\ c = [- x].
  Proof.
    unfold pruned_list. rewrite in_flat_map. split.
    - intros ([i [x|]] & H1 & H2); [|destruct H2]. apply enum_in in H1. destruct (f i) eqn:E; [|destruct H2]. destruct H2 as [<-|[]]. exists i, x. auto.
    - intros (i & x & H1 & H2 & ->). exists (i, Some x). split; [now apply enum_in|]. rewrite H2. now left.
  Qed.
  Lemma pruned_node_in q d ch c : at_node T q (PNode d ch) -> (In c (pruned_node q F d) <-> exists pr i x, nth_error (cvars pr d) i = Some (Some x) /\ In (itask pr q i) F /\ c = [- x]).
  Proof.
    intros A. unfold pruned_node. rewrite !in_app_iff, !pruned_list_in. split.
    - intros [(i & x & H1 & H2 & ->)|[(i & x & H1 & H2 & ->)|H]].
      + exists true, i, x. split; auto. split; auto. now apply marked_in.
      + exists false, i, x. split; auto. split; auto. now apply marked_in.
      + exfalso. destruct (pn_exp d) eqn:Ee; [|destruct H]. apply in_flat_map in H as ([a mvs] & Ha & H). apply enum_in in Ha. apply pruned_list_in in H as (m & x & H1 & H2 & _). apply marked_in in H2. destruct (mvar_used P F T CL FI q d ch A Ee a mvs m x Ha H1) as (_ & _ & _ & NM & _). contradiction.
    - intros ([|] & i & x & H1 & H2 & ->); [left|right; left]; exists i, x; (split; [exact H1|]); (split; [now apply marked_in|reflexivity]).
  Qed.
  Lemma pruned_sat v : satisfies v (pruned_clauses F T []) <-> forall q t, at_node T q t -> unpruned v F q (dat t).
  Proof.
    split.
    - intros H q [d ch] A pr i (x & Hx & Tx) HF. assert (IC : In [- x] (pruned_clauses F T [])). { apply pruned_in. exists (rev q), (PNode d ch). split; auto. rewrite rev_involutive, app_nil_r. apply (pruned_node_in q d ch); auto. exists pr, i, x. auto. }
      destruct (H _ IC) as (l & [<-|[]] & Tl). assert (B := var_bound T n0 BD q _ pr i x A Hx). rewrite lit_npos in Tl by lia. rewrite Tx in Tl. discriminate.
    - intros H c Hc. apply pruned_in in Hc as (path & [d ch] & E & Hc). assert (A : at_node T (rev path ++ []) (PNode d ch)) by (unfold at_node; now rewrite app_nil_r, rev_involutive). apply (pruned_node_in _ d ch _ A) in Hc as (pr & i & x & Hx & HF & ->). exists (- x). split; [now left|]. assert (B := var_bound T n0 BD _ _ pr i x A Hx). rewrite lit_npos by lia.
      destruct (v x) eqn:Ex; auto. exfalso. apply (H _ _ A pr i); auto. exists x. auto.
  Qed.
  Lemma pruned_vars : vars_le n0 (pruned_clauses F T []).
  Proof.
    intros c l Hc Hl. apply pruned_in in Hc as (path & [d ch] & E & Hc). assert (A : at_node T (rev path ++ []) (PNode d ch)) by (unfold at_node; now rewrite app_nil_r, rev_involutive). apply (pruned_node_in _ d ch _ A) in Hc as (pr & i & x & Hx & HF & ->). destruct Hl as [<-|[]]. assert (B := var_bound T n0 BD _ _ pr i x A Hx). unfold lit_ok. lia.
  Qed.

  (** ** Meaning of the conditions *)
  Hypothesis ND : NoDup (avars T).
  Lemma nodup_at path : forall t u, NoDup (avars t) -> subtree t path = Some u -> NoDup (avars u).
  Proof.
    induction path as [|c path IH]; intros [d ch] u H E; cbn [subtree] in E; [injection E as <-; auto|]. apply obind_some in E as (w & E1 & E2). apply (IH w u); auto. cbn [avars kids] in *. apply nodup_app_iff in H as (_ & H & _). apply nodup_app_iff in H as (_ & H & _).
    clear -H E1. revert c E1. induction ch as [|x r IH]; intros [|c] E; cbn in E; try discriminate; cbn [flat_map] in H; apply nodup_app_iff in H as (H1 & H2 & _); [injection E as <-; auto|eauto].
  Qed.
  Lemma somes_nodup {A} (l : list (option A)) i j x : NoDup (somes l) -> nth_error l i = Some (Some x) -> nth_error l j = Some (Some x) -> i = j.
  Proof.
    revert i j. induction l as [|o l IH]; intros i j ND' Hi Hj; [destruct i; discriminate|]. cbn [somes flat_map] in ND'. apply nodup_app_iff in ND' as (_ & N2 & N3). destruct i as [|i], j as [|j]; cbn [nth_error] in *; [reflexivity| | |].
    - exfalso. injection Hi as ->. apply (N3 x); [now left|]. apply somes_in. eauto.
    - exfalso. injection Hj as ->. apply (N3 x); [now left|]. apply somes_in. eauto.
    - f_equal. eauto.
  Qed.
  Lemma task_var_inj q t pr i pr' i' x : at_node T q t -> nth_error (cvars pr (dat t)) i = Some (Some x) -> nth_error (cvars pr' (dat t)) i' = Some (Some x) -> pr = pr' /\ i = i'.
  Proof.
    intros A H1 H2. assert (N := nodup_at (rev q) T t ND A). destruct t as [d ch]. cbn [avars dat] in *. apply nodup_app_iff in N as (N & _ & _). unfold own_vars in N. apply nodup_app_iff in N as (_ & N & _). unfold task_vars in N. apply nodup_app_iff in N as (Np & Na & Nx).
    destruct pr, pr'; cbn [cvars] in *.
    - split; auto. exact (somes_nodup _ _ _ _ Np H1 H2).
    - exfalso. apply (Nx x); apply somes_in; eauto.
    - exfalso. apply (Nx x); apply somes_in; eauto.
    - split; auto. exact (somes_nodup _ _ _ _ Na H1 H2).
  Qed.
  Lemma concat_somes_nodup {A} (ll : list (list (option A))) a a' l l' m m' x : NoDup (somes (concat ll)) -> nth_error ll a = Some l -> nth_error ll a' = Some l' -> nth_error l m = Some (Some x) -> nth_error l' m' = Some (Some x) -> a = a' /\ m = m'.
  Proof.
    revert a a'. induction ll as [|y r IH]; intros a a' N H1 H2 H3 H4; [destruct a; discriminate|]. cbn [concat] in N. rewrite somes_app in N. apply nodup_app_iff in N as (N1 & N2 & N3).
    assert (G : forall b k n, nth_error r b = Some k -> nth_error k n = Some (Some x) -> In x (somes (concat r))). { intros b k n B1 B2. unfold somes. apply in_flat_map. exists (Some x). split; [|now left]. apply in_concat. exists k. eauto using nth_error_In. }
    destruct a as [|a], a' as [|a']; cbn [nth_error] in *.
    - injection H1 as ->. injection H2 as ->. split; auto. exact (somes_nodup _ _ _ _ N1 H3 H4).
    - exfalso. injection H1 as ->. apply (N3 x); [apply somes_in; eauto|eauto].
    - exfalso. injection H2 as ->. apply (N3 x); [apply somes_in; eauto|eauto].
    - destruct (IH a a' N2 H1 H2 H3 H4) as [-> ->]. auto.
  Qed.
  Lemma meth_var_inj q d ch a m a' m' mvs mvs' x : at_node T q (PNode d ch) -> pn_exp d = true -> nth_error (pn_mvar d) a = Some mvs -> nth_error mvs m = Some (Some x) -> nth_error (pn_mvar d) a' = Some mvs' -> nth_error mvs' m' = Some (Some x) -> a = a' /\ m = m'.
  Proof.
    intros A Ee H1 H2 H3 H4. assert (N := nodup_at (rev q) T _ ND A). cbn [avars] in N. apply nodup_app_iff in N as (_ & N & _). apply nodup_app_iff in N as (N & _ & _). unfold mvars in N. rewrite Ee in N. eapply concat_somes_nodup; eauto.
  Qed.

  (** At most one task and one method of a node. *)
  Definition unique_task (v : assignment) (d : pnode) : Prop := forall pr i pr' i', on v pr d i -> on v pr' d i' -> pr = pr' /\ i = i'.
  Definition unique_meth (v : assignment) (d : pnode) : Prop := forall a m a' m', onm v d a m -> onm v d a' m' -> a = a' /\ m = m'.
  Lemma node_meaning v q d ch : at_node T q (PNode d ch) -> pn_exp d = true -> unpruned v F q d -> (node_cond v F q d ch <-> unique_task v d /\ unique_meth v d /\ sem v F q d ch).
  Proof.
    intros A Ee U. unfold node_cond. destruct (method_atoms_ok P F T CL FI q d ch A Ee) as (ma & Em & HM). destruct (plain_clauses P F T n0 TO CL FI BD q d ch A Ee) as (cp & Ep & _ & Sp). rewrite Em, Ep.
    assert (N := nodup_at (rev q) T _ ND A). cbn [avars] in N. apply nodup_app_iff in N as (N1 & N2 & _). unfold own_vars in N1. apply nodup_app_iff in N1 as (_ & N1 & _).
    assert (X1 : (count_true v (task_vars d) <= 1)%nat <-> unique_task v d).
    { rewrite (count_unique v _ N1). split.
      - intros H pr i pr' i' (x & Hx & Tx) (y & Hy & Ty). assert (Bx := var_bound T n0 BD q _ pr i x A Hx). assert (By := var_bound T n0 BD q _ pr' i' y A Hy). assert (x = y) by (apply H; [apply task_vars_in; eauto|apply task_vars_in; eauto|rewrite lit_pos by lia; auto|rewrite lit_pos by lia; auto]). subst y. exact (task_var_inj q _ pr i pr' i' x A Hx Hy).
      - intros H x y Hx Hy Tx Ty. apply task_vars_in in Hx as (pr & i & Hx). apply task_vars_in in Hy as (pr' & i' & Hy). assert (Bx := var_bound T n0 BD q _ pr i x A Hx). assert (By := var_bound T n0 BD q _ pr' i' y A Hy). rewrite lit_pos in Tx, Ty by lia.
        destruct (H pr i pr' i') as [-> ->]; [exists x; auto|exists y; auto|]. congruence. }
    assert (NM : NoDup ma).
    { clear X1 Sp Ep N1. unfold mvars in N2. rewrite Ee in N2. apply nodup_app_iff in N2 as (N2 & _). unfold method_atoms in Em. apply obind_some in Em as (xs & E1 & E2). apply some_eq in E2. subst ma. apply omap_some in E1.
      destruct (fl_meth _ _ _ _ (FI _ _ A) Ee) as [L _]. cbn [dat] in L.
      assert (G : forall (abs : list nat) (b : nat) xs, Forall2 (fun '(a, _) y => (if marked F (IA q a) then Some [] else mvs <- get (pn_mvar d) a ;; Some (somes mvs)) = Some y) (combine (seq b (length abs)) abs) xs -> forall ms, (forall k l, nth_error ms k = Some l -> nth_error (pn_mvar d) (b + k)%nat = Some l) -> length ms = length abs -> NoDup (somes (concat ms)) -> NoDup (concat xs) /\ incl (concat xs) (somes (concat ms))).
      { clear. induction abs as [|t abs IH]; intros b xs H ms Hms L N; cbn [length seq combine] in H; inversion H as [|? y ? ys H1 H2]; subst; [split; [constructor|intros x []]|]. destruct ms as [|l ms]; [discriminate|]. cbn [concat] in *. rewrite somes_app in *. apply nodup_app_iff in N as (N1 & N2 & N3).
        destruct (IH (S b) ys H2 ms) as [I1 I2]; auto; [intros k l' Hk; rewrite Nat.add_succ_comm; apply (Hms (S k) l' Hk)|]. assert (Hl := Hms O l eq_refl). rewrite Nat.add_0_r in Hl.
        assert (Y : y = [] \/ y = somes l). { destruct (marked F (IA q b)); [injection H1 as <-; auto|]. unfold get in H1. rewrite Hl in H1. cbn [obind] in H1. injection H1 as <-. auto. }
        destruct Y as [-> | ->]; cbn [app]; [split; auto; intros x Hx; apply in_or_app; auto|]. split; [apply nodup_app_iff; split; auto; split; auto; intros x X1 X2; exact (N3 x X1 (I2 x X2))|]. intros x Hx. apply in_or_app. apply in_app_or in Hx as [Hx|Hx]; auto. }
      unfold enum in E1. apply (G (pn_abs d) O xs) with (ms := pn_mvar d); auto. clear -E1. induction E1 as [|[a t] y]; constructor; auto. }
    assert (X2 : (count_true v ma <= 1)%nat <-> unique_meth v d).
    { rewrite (count_unique v _ NM). split.
      - intros H a m a' m' (mvs & x & M1 & M2 & Tx) (mvs' & y & M3 & M4 & Ty). assert (Bx := meth_bound T n0 BD q _ a mvs m x A Ee M1 M2). assert (By := meth_bound T n0 BD q _ a' mvs' m' y A Ee M3 M4).
        assert (x = y) by (apply H; [apply HM; exists a, mvs, m; auto|apply HM; exists a', mvs', m'; auto|rewrite lit_pos by lia; auto|rewrite lit_pos by lia; auto]). subst y. exact (meth_var_inj q d ch a m a' m' mvs mvs' x A Ee M1 M2 M3 M4).
      - intros H x y Hx Hy Tx Ty. apply HM in Hx as (a & mvs & m & M1 & M2). apply HM in Hy as (a' & mvs' & m' & M3 & M4). assert (Bx := meth_bound T n0 BD q _ a mvs m x A Ee M1 M2). assert (By := meth_bound T n0 BD q _ a' mvs' m' y A Ee M3 M4). rewrite lit_pos in Tx, Ty by lia.
        destruct (H a m a' m') as [-> ->]; [exists mvs, x; auto|exists mvs', y; auto|]. congruence. }
    rewrite <- X1, <- X2, <- (Sp v U). split; [intros (H1 & H2 & H3); auto|]. intros (H1 & H2 & H3). split; auto. split; intros z Ez; apply some_eq in Ez; subst z; auto.
  Qed.
End Dec.
