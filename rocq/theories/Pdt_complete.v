(** A derivation gives an assignment of the variables of the tree. *)
From Verif Require Import Base Htn_problem Htn_spec To_spec Sat_model Sat_spec Sat_proof Sf_model Sf_spec Sf_proof Tab_proof Pdt_model Pdt_spec Pdt_tree Pdt_expand Pdt_prune Pdt_leafs Pdt_vars Pdt_clause Pdt_dec Pdt_sound Pdt_round Pdt_choice.

Section Used.
  Context {KI : kind}.
  Variables (P : problem) (T : pdt) (sel : choice) (me : mchoice).
  Hypothesis WF : wf_problem P.
  Hypothesis TO : tree_ok P T.
  Hypothesis GOOD : good P T sel me.
  Definition at_sel (q : list nat) := sel (rev q).
  Definition at_me (q : list nat) := me (rev q).
  Lemma loc q d ch : at_node T q (PNode d ch) -> local P d (length ch) (at_sel q) (at_me q) (fun c => at_sel (c :: q)).
  Proof. intros A. exact (GOOD (rev q) (PNode d ch) A). Qed.

  (** What the choice uses. *)
  Definition used_cause (q : list nat) (k : cause) : Prop := match k with (None, p) => at_sel q = Some (true, p) | (Some a, m) => at_sel q = Some (false, a) /\ at_me q = Some m end.
  Definition used_by (pr : bool) (q : list nat) (i j : nat) : Prop := at_sel q = Some (pr, i) /\
    exists c q' t cs k, q = c :: q' /\ at_node T q t /\ nth_error (ccauses pr (dat t)) i = Some cs /\ nth_error cs j = Some k /\ used_cause q' k.
  Definition used (x : item) : Prop :=
    match x with
    | IP q p => at_sel q = Some (true, p)
    | IA q a => at_sel q = Some (false, a)
    | IM q a m => at_sel q = Some (false, a) /\ at_me q = Some m
    | ICP q i j => used_by true q i j
    | ICA q i j => used_by false q i j
    end.
  Lemma used_itask pr q i : used (itask pr q i) <-> at_sel q = Some (pr, i).
  Proof. destruct pr; reflexivity. Qed.
  Lemma used_icause pr q i j : used (icause pr q i j) <-> used_by pr q i j.
  Proof. destruct pr; reflexivity. Qed.
  Lemma used_cause_item q k : used (cause_item q k) <-> used_cause q k.
  Proof. destruct k as [[a|] m]; reflexivity. Qed.

  (** The chosen task of a child comes from the choice at the mother. *)
  Lemma sel_cause c q d ch u pr i cs : at_node T q (PNode d ch) -> nth_error ch c = Some u -> at_sel (c :: q) = Some (pr, i) -> nth_error (ccauses pr (dat u)) i = Some cs -> exists j k, nth_error cs j = Some k /\ used_cause q k.
  Proof.
    intros A Hc E Hcs. destruct (at_child_data P T TO q d ch c u A Hc) as (Ee & NO & E'). assert (L := loc q d ch A). assert (Lc := get_lt _ _ _ Hc). unfold local in L. destruct (at_sel q) as [[[|] p]|] eqn:Eq.
    - destruct L as [_ L]. destruct (L ltac:(lia)) as (c' & i' & j' & K1 & K2 & K3). destruct (Nat.eq_dec c c') as [<-|N]; [|rewrite K3 in E by auto; discriminate]. assert (pr = true /\ i = i') as [-> ->] by (split; congruence).
      destruct (no_pos_ok _ _ _ NO p c i' j' K1) as (u' & cs' & U1 & _ & U3 & U4). assert (u' = dat u) by congruence. subst u'. exists j', (None, p). cbn [ccauses] in Hcs. assert (cs' = cs) by congruence. subst cs'. auto.
    - destruct L as (x & m & L1 & L2 & L3 & L4 & L5). rewrite L5 in E by auto. destruct (find_ptr d p m c) as [k|] eqn:Ek; [|discriminate]. cbn [option_map] in E. injection E as <- <-. destruct (no_ptr _ _ _ NO p m c k Ek) as (u' & cs' & U1 & U2 & U3). assert (u' = dat u) by congruence. subst u'. assert (cs' = cs) by congruence. subst cs'. exists (cp_cause k), (Some p, m). split; auto. split; auto.
    - rewrite L in E by auto. discriminate.
  Qed.
  Lemma cause_sel c q d ch u pr i cs j k : at_node T q (PNode d ch) -> nth_error ch c = Some u -> nth_error (ccauses pr (dat u)) i = Some cs -> nth_error cs j = Some k -> used_cause q k -> at_sel (c :: q) = Some (pr, i).
  Proof.
    intros A Hc Hcs Hk U. destruct (at_child_data P T TO q d ch c u A Hc) as (Ee & NO & E'). assert (L := loc q d ch A). assert (Lc := get_lt _ _ _ Hc). assert (Z := no_cause _ _ _ NO c (dat u) pr i cs j k E' Hcs Hk). destruct k as [[a|] m]; cbn [used_cause] in U; unfold local in L.
    - destruct U as [U1 U2]. rewrite U1 in L. destruct L as (x & m' & L1 & L2 & L3 & L4 & L5). assert (m' = m) by congruence. subst m'. rewrite L5 by auto. destruct Z as [-> _]. reflexivity.
    - rewrite U in L. destruct L as [_ L]. destruct (L ltac:(lia)) as (c' & i' & j' & K1 & K2 & K3). destruct Z as [-> Z]. rewrite Z in K1. injection K1 as <- <- <-. exact K2.
  Qed.
  Lemma used_supports : supports P T used.
  Proof.
    constructor.
    - intros q [d ch] a x A Hx U. cbn [dat] in *. cbn [used] in U. assert (L := loc q d ch A). rewrite U in L. cbn [local] in L. destruct L as (x' & m & L1 & L2 & L3 & L4 & L5). split; auto. exists m. assert (x' = x) by congruence. subst x'. split; auto. cbn [used]. auto.
    - intros q t pr i cs NQ A Hcs U. apply used_itask in U. destruct q as [|c q]; [congruence|]. destruct (at_mother T c q t A) as ([d ch] & A' & G). destruct (sel_cause c q d ch t pr i cs A' G U Hcs) as (j & k & J1 & J2). exists j. split; [now apply get_lt in J1|]. apply used_icause. split; auto. exists c, q, t, cs, k. auto.
    - intros q t a m A U. exact (proj1 U).
    - intros q t pr i c A U. apply used_icause in U as [U _]. now apply used_itask.
    - intros c q t pr i cs j k A Hcs Hk U. apply used_cause_item in U. apply used_itask. destruct (at_mother T c q t A) as ([d ch] & A' & G). exact (cause_sel c q d ch t pr i cs j k A' G Hcs Hk U).
    - intros q [d ch] p c i j A Lc Hp (U & c' & q' & t & cs & k & E & A' & Hcs & Hk & UC). cbn [kids dat] in *. injection E as <- <-. destruct (get_some _ _ Lc) as (u & Hu). destruct (at_child_data P T TO q d ch c u A Hu) as (Ee & NO & E').
      assert (Z := at_fun T (c :: q) _ _ A' (at_child T q _ c u A Hu)). subst t. destruct (no_pos_ok _ _ _ NO p c i j Hp) as (u' & cs' & U1 & _ & U3 & U4). assert (u' = dat u) by congruence. subst u'. cbn [ccauses] in Hcs. assert (cs' = cs) by congruence. subst cs'. assert (k = (None, p)) by congruence. subst k. exact UC.
    - intros q [d ch] a m c k A Lc Hp U. cbn [kids dat] in *. assert (U' : used_by (cp_prim k) (c :: q) (cp_task k) (cp_cause k)). { unfold ptr_item in U. destruct (cp_prim k); exact U. } destruct U' as (U0 & c' & q' & t & cs & k' & E & A' & Hcs & Hk & UC). injection E as <- <-. destruct (get_some _ _ Lc) as (u & Hu). destruct (at_child_data P T TO q d ch c u A Hu) as (Ee & NO & E').
      assert (Z := at_fun T (c :: q) _ _ A' (at_child T q _ c u A Hu)). subst t. destruct (no_ptr _ _ _ NO a m c k Hp) as (u' & cs' & U1 & U3 & U4). assert (u' = dat u) by congruence. subst u'. assert (cs' = cs) by congruence. subst cs'. assert (k' = (Some a, m)) by congruence. subst k'. exact UC.
  Qed.
  Lemma used_leaf q d a : at_node T q (PNode d []) -> ~ used (IA q a).
  Proof.
    intros A U. cbn [used] in U. assert (L := loc q d [] A). rewrite U in L. cbn [local] in L. destruct L as (x' & m & L1 & L2 & L3 & L4 & L5). apply (at_ok P T TO) in A. apply tree_ok_node in A as (_ & A & _). rewrite L4 in A. now apply A.
  Qed.
  Lemma used_prune ff F : (ff = true -> executable P (initial_state P) (cplan T sel)) -> prune P ff T = Some F -> avoids used F.
  Proof.
    intros EX. apply (prune_avoids P T WF TO ff used (lsel sel)); auto using used_supports; [exact used_leaf| |].
    - intros q d i _. cbn [used]. unfold lsel, at_sel. destruct (sel (rev q)) as [[[|] j]|]; split; intros H; try congruence; injection H as <-; auto.
    - intros E. rewrite cplan_leafs. cbn [rev app]. auto.
  Qed.
End Used.

(** The assignment on the tree with variables. *)
Section Val.
  Context {KI : kind}.
  Variables (P : problem) (F : flags) (T : pdt) (n0 : Z) (sel : choice) (me : mchoice).
  Hypothesis TO : tree_ok P T.
  Hypothesis FI : forall q t, at_node T q t -> filled P F q (dat t).
  Hypothesis ND : NoDup (avars T).
  Hypothesis GOOD : good P T sel me.
  Hypothesis AV : avoids (used T sel me) F.

  Definition vget (l : list (option Z)) (i : nat) : list Z := match nth_error l i with Some (Some x) => [x] | _ => [] end.
  Definition used_node (q : list nat) (d : pnode) : list Z :=
    match at_sel sel q with
    | None => somes [pn_none d]
    | Some (pr, i) => vget (cvars pr d) i ++ (if pr then [] else match at_me me q, nth_error (pn_mvar d) i with Some m, Some l => vget l m | _, _ => [] end)
    end.
  Fixpoint used_tree (t : pdt) (q : list nat) {struct t} : list Z :=
    match t with PNode d ch => used_node q d ++ (fix go (l : list pdt) (i : nat) {struct l} := match l with [] => [] | u :: r => used_tree u (i :: q) ++ go r (S i) end) ch 0 end.
  Definition val : assignment := fun x => if in_dec Z.eq_dec x (used_tree T []) then true else false.
  Lemma used_tree_in x : forall t q, In x (used_tree t q) <-> exists path u, subtree t path = Some u /\ In x (used_node (rev path ++ q) (dat u)).
  Proof.
    induction t as [d ch IH] using pdt_rect'. intros q. cbn [used_tree]. rewrite in_app_iff.
    assert (G : forall l b, Forall (fun t => forall q, In x (used_tree t q) <-> exists path u, subtree t path = Some u /\ In x (used_node (rev path ++ q) (dat u))) l -> (In x ((fix go (l : list pdt) (i : nat) {struct l} := match l with [] => [] | u :: r => used_tree u (i :: q) ++ go r (S i) end) l b) <->
      exists c u path w, nth_error l c = Some u /\ subtree u path = Some w /\ In x (used_node (rev path ++ (b + c) :: q) (dat w)))).
    { induction l as [|u r IHl]; intros b FA; [split; [intros []|intros (c & u & _ & _ & E & _); destruct c; discriminate]|]. inversion FA as [|? ? F1 F2]; subst. rewrite in_app_iff, F1, (IHl (S b) F2). split.
      - intros [(path & w & W1 & W2)|(c & w & path & w' & W1 & W2 & W3)]; [exists 0, u, path, w; rewrite Nat.add_0_r; auto|]. exists (S c), w, path, w'. rewrite <- Nat.add_succ_comm. auto.
      - intros ([|c] & w & path & w' & W1 & W2 & W3); cbn [nth_error] in W1; [injection W1 as <-; left; rewrite Nat.add_0_r in W3; eauto|]. right. exists c, w, path, w'. rewrite Nat.add_succ_comm. auto. }
    rewrite (G ch 0 IH). split.
    - intros [H|(c & u & path & w & W1 & W2 & W3)]; [exists [], (PNode d ch); auto|]. exists (c :: path), w. cbn [subtree kids rev]. unfold get. rewrite W1. cbn [obind]. rewrite <- app_assoc. auto.
    - intros ([|c path] & w & W1 & W2); cbn [subtree kids] in W1; [injection W1 as <-; auto|]. right. apply obind_some in W1 as (u & U1 & U2). exists c, u, path, w. cbn [rev] in W2. rewrite <- app_assoc in W2. auto.
  Qed.
  Lemma val_true x : val x = true <-> exists q t, at_node T q t /\ In x (used_node q (dat t)).
  Proof.
    unfold val. destruct (in_dec Z.eq_dec x (used_tree T [])) as [H|H]; split; auto; try discriminate.
    - intros _. apply used_tree_in in H as (path & u & U1 & U2). exists (rev path), u. unfold at_node. rewrite rev_involutive. rewrite app_nil_r in U2. auto.
    - intros (q & t & A & U). exfalso. apply H. apply used_tree_in. exists (rev q), t. rewrite rev_involutive, app_nil_r. auto.
  Qed.
  Lemma vget_in l i x : In x (vget l i) <-> nth_error l i = Some (Some x).
  Proof. unfold vget. destruct (nth_error l i) as [[y|]|]; cbn; split; intros H; try tauto; try congruence; [destruct H as [->|[]]; auto|injection H as ->; auto]. Qed.
  Definition node_vars (d : pnode) := own_vars d ++ mvars d.
  Lemma loc_exp q d ch a : at_node T q (PNode d ch) -> at_sel sel q = Some (false, a) -> pn_exp d = true.
  Proof. intros A E. assert (L := loc P T sel me GOOD q d ch A). rewrite E in L. cbn [local] in L. destruct L as (x & m & _ & _ & _ & L & _). exact L. Qed.
  Lemma used_node_vars q t x : at_node T q t -> In x (used_node q (dat t)) -> In x (node_vars (dat t)).
  Proof.
    intros A H. destruct t as [d ch]. cbn [dat] in *. unfold used_node in H. unfold node_vars, own_vars. destruct (at_sel sel q) as [[pr i]|] eqn:E; [|apply in_or_app; left; apply in_or_app; auto]. apply in_app_or in H as [H|H].
    - apply vget_in in H. apply in_or_app. left. apply in_or_app. right. apply task_vars_in. eauto.
    - apply in_or_app. right. destruct pr; [destruct H|]. unfold mvars. rewrite (loc_exp q d ch i A E). destruct (at_me me q) as [m|]; [|destruct H]. destruct (nth_error (pn_mvar d) i) as [l|] eqn:El; [|destruct H]. apply vget_in in H. apply somes_in.
      assert (Z : In (Some x) (concat (pn_mvar d))) by (apply in_concat; exists l; eauto using nth_error_In). apply In_nth_error in Z. exact Z.
  Qed.
  Lemma nodup_sub t : forall path u path' u' x, NoDup (avars t) -> subtree t path = Some u -> subtree t path' = Some u' -> In x (node_vars (dat u)) -> In x (node_vars (dat u')) -> path = path'.
  Proof.
    induction t as [d ch IH] using pdt_rect'. intros path u path' u' x N E E' H H'. cbn [avars] in N. rewrite app_assoc in N. apply nodup_app_iff in N as (N1 & N2 & N3).
    assert (SUB : forall path u, subtree (PNode d ch) path = Some u -> In x (node_vars (dat u)) -> path = [] /\ In x (node_vars d) \/ exists c w r, path = c :: r /\ nth_error ch c = Some w /\ subtree w r = Some u /\ In x (avars w)).
    { intros p w Ep Hw. destruct p as [|c p]; cbn [subtree kids] in Ep; [injection Ep as <-; auto|]. right. apply obind_some in Ep as (w0 & W1 & W2). exists c, w0, p. split; auto. split; auto. split; auto. apply (avars_at p w0 w x W2). destruct w as [dw cw]. cbn [avars dat] in *. rewrite app_assoc. apply in_or_app. auto. }
    assert (FM : forall c w, nth_error ch c = Some w -> In x (avars w) -> In x (flat_map avars ch)) by (intros c w Hc Hw; apply in_flat_map; eauto using nth_error_In).
    destruct (SUB _ _ E H) as [[-> S1]|(c & w & r & -> & S1 & S2 & S3)], (SUB _ _ E' H') as [[-> S1']|(c' & w' & r' & -> & S1' & S2' & S3')]; auto.
    - exfalso. apply (N3 x); eauto.
    - exfalso. apply (N3 x); eauto.
    - assert (c = c').
      { clear -N2 S1 S1' S3 S3'. revert c c' S1 S1'. induction ch as [|y l IHl]; intros c c' S1 S1'; [destruct c; discriminate|]. cbn [flat_map] in N2. apply nodup_app_iff in N2 as (M1 & M2 & M3). destruct c as [|c], c' as [|c']; cbn [nth_error] in *; auto.
        - exfalso. injection S1 as ->. apply (M3 x S3). apply in_flat_map. eauto using nth_error_In.
        - exfalso. injection S1' as ->. apply (M3 x S3'). apply in_flat_map. eauto using nth_error_In. }
      subst c'. assert (w' = w) by congruence. subst w'. f_equal. rewrite Forall_forall in IH. apply (IH w (nth_error_In _ _ S1) r u r' u' x); auto. clear -N2 S1. revert c S1. induction ch as [|y l IHl]; intros c S1; [destruct c; discriminate|]. cbn [flat_map] in N2. apply nodup_app_iff in N2 as (M1 & M2 & M3). destruct c as [|c]; cbn in S1; [injection S1 as ->; auto|eauto].
  Qed.
  Lemma val_node q t x : at_node T q t -> In x (node_vars (dat t)) -> (val x = true <-> In x (used_node q (dat t))).
  Proof.
    intros A H. rewrite val_true. split; [|eauto]. intros (q' & t' & A' & U). assert (E : rev q = rev q') by (eapply (nodup_sub T); eauto; now apply used_node_vars in U). apply (f_equal (@rev nat)) in E. rewrite !rev_involutive in E. subst q'. now rewrite (at_fun T q _ _ A A').
  Qed.
  Lemma node_nodup q t : at_node T q t -> NoDup (node_vars (dat t)).
  Proof. intros A. assert (N := nodup_at (rev q) T t ND A). destruct t as [d ch]. cbn [avars] in N. rewrite app_assoc in N. apply nodup_app_iff in N as (N & _). exact N. Qed.
  Lemma task_in d pr i x : nth_error (cvars pr d) i = Some (Some x) -> In x (task_vars d).
  Proof. intros H. apply task_vars_in. eauto. Qed.
  Lemma meth_in d i l m x : pn_exp d = true -> nth_error (pn_mvar d) i = Some l -> nth_error l m = Some (Some x) -> In x (mvars d).
  Proof. intros Ee H1 H2. unfold mvars. rewrite Ee. apply somes_in. assert (Z : In (Some x) (concat (pn_mvar d))) by (apply in_concat; exists l; eauto using nth_error_In). now apply In_nth_error in Z. Qed.
  Lemma sel_task q t pr i : at_node T q t -> at_sel sel q = Some (pr, i) -> exists x, nth_error (ctasks pr (dat t)) i = Some x.
  Proof. destruct t as [d ch]. intros A E. assert (L := loc P T sel me GOOD q d ch A). rewrite E in L. cbn [dat]. destruct pr; cbn [local ctasks] in *; [apply L|]. destruct L as (x & m & _ & L & _). eauto. Qed.
  Lemma not_flag x : used T sel me x -> ~ In x F.
  Proof. intros U H. exact (AV x H U). Qed.
  Lemma on_val q t pr i : at_node T q t -> (on val pr (dat t) i <-> at_sel sel q = Some (pr, i)).
  Proof.
    intros A. assert (NN := node_nodup q t A). unfold node_vars, own_vars in NN. apply nodup_app_iff in NN as (N1 & N2 & N3). apply nodup_app_iff in N1 as (_ & N4 & N5). split.
    - intros (x & Hx & Tx). assert (XT := task_in _ _ _ _ Hx). assert (XO : In x (own_vars (dat t))) by (unfold own_vars; apply in_or_app; auto). apply (val_node q t x A) in Tx; [|unfold node_vars; apply in_or_app; auto]. unfold used_node in Tx. destruct (at_sel sel q) as [[pr' i']|] eqn:Es; [|exfalso; exact (N5 x Tx XT)]. apply in_app_or in Tx as [Tx|Tx].
      + apply vget_in in Tx. destruct (task_var_inj T ND q t pr i pr' i' x A Hx Tx) as [<- <-]. reflexivity.
      + exfalso. destruct pr'; [destruct Tx|]. destruct (at_me me q) as [m|]; [|destruct Tx]. destruct (nth_error (pn_mvar (dat t)) i') as [l|] eqn:El; [|destruct Tx]. apply vget_in in Tx. apply (N3 x XO). destruct t as [d ch]. eapply meth_in; eauto. eapply loc_exp; eauto.
    - intros Es. destruct (sel_task q t pr i A Es) as (y & Hy). destruct (fl_get _ _ _ _ (FI q t A) pr i y Hy) as (x & Hx); [apply not_flag, used_itask; exact Es|]. exists x. split; auto. apply (val_node q t x A); [unfold node_vars, own_vars; apply in_or_app; left; apply in_or_app; right; eapply task_in; eauto|]. unfold used_node. rewrite Es. apply in_or_app. left. now apply vget_in.
  Qed.
  Lemma none_val q t : at_node T q t -> (noneon val (dat t) <-> at_sel sel q = None).
  Proof.
    intros A. assert (NN := node_nodup q t A). unfold node_vars, own_vars in NN. apply nodup_app_iff in NN as (N1 & N2 & N3). apply nodup_app_iff in N1 as (_ & N4 & N5). split.
    - intros (x & Hx & Tx). assert (XS : In x (somes [pn_none (dat t)])) by (rewrite Hx; now left). assert (XO : In x (own_vars (dat t))) by (unfold own_vars; apply in_or_app; auto). apply (val_node q t x A) in Tx; [|unfold node_vars; apply in_or_app; auto]. unfold used_node in Tx. destruct (at_sel sel q) as [[pr' i']|] eqn:Es; auto. exfalso. apply in_app_or in Tx as [Tx|Tx].
      + apply vget_in in Tx. exact (N5 x XS (task_in _ _ _ _ Tx)).
      + destruct pr'; [destruct Tx|]. destruct (at_me me q) as [m|]; [|destruct Tx]. destruct (nth_error (pn_mvar (dat t)) i') as [l|] eqn:El; [|destruct Tx]. apply vget_in in Tx. apply (N3 x XO). destruct t as [d ch]. eapply meth_in; eauto. eapply loc_exp; eauto.
    - intros Es. destruct (fl_none _ _ _ _ (FI q t A)) as (z & Hz). exists z. split; auto. assert (XS : In z (somes [pn_none (dat t)])) by (rewrite Hz; now left). apply (val_node q t z A); [unfold node_vars, own_vars; apply in_or_app; left; apply in_or_app; auto|]. unfold used_node. now rewrite Es.
  Qed.
  Lemma meth_val q d ch a m : at_node T q (PNode d ch) -> pn_exp d = true -> (onm val d a m <-> at_sel sel q = Some (false, a) /\ at_me me q = Some m).
  Proof.
    intros A Ee. assert (NN := node_nodup q _ A). cbn [dat] in NN. unfold node_vars in NN. apply nodup_app_iff in NN as (N1 & N2 & N3). split.
    - intros (l & x & H1 & H2 & Tx). assert (XM := meth_in d a l m x Ee H1 H2). apply (val_node q _ x A) in Tx; [|unfold node_vars; apply in_or_app; auto]. cbn [dat] in Tx. unfold used_node in Tx. destruct (at_sel sel q) as [[pr' i']|] eqn:Es; [|exfalso; apply (N3 x); auto; unfold own_vars; apply in_or_app; auto]. apply in_app_or in Tx as [Tx|Tx].
      + exfalso. apply vget_in in Tx. apply (N3 x); auto. unfold own_vars. apply in_or_app. right. eapply task_in; eauto.
      + destruct pr'; [destruct Tx|]. destruct (at_me me q) as [m'|]; [|destruct Tx]. destruct (nth_error (pn_mvar d) i') as [l'|] eqn:El; [|destruct Tx]. apply vget_in in Tx. destruct (meth_var_inj T ND q d ch a m i' m' l l' x A Ee H1 H2 El Tx) as [<- <-]. auto.
    - intros [Es Em]. assert (L := loc P T sel me GOOD q d ch A). rewrite Es in L. cbn [local] in L. destruct L as (y & m' & L1 & L2 & L3 & _). assert (m' = m) by congruence. subst m'. destruct (fl_meth _ _ _ _ (FI q _ A) Ee) as [_ FM]. cbn [dat] in FM. destruct (FM a y L2) as (l & H1 & _ & H3). destruct (proj2 (H3 m L3)) as (x & Hx); [apply not_flag; cbn [used]; auto|]. exists l, x. split; auto. split; auto.
      apply (val_node q _ x A); [unfold node_vars; apply in_or_app; right; cbn [dat]; eapply meth_in; eauto|]. cbn [dat]. unfold used_node. rewrite Es, Em, H1. apply in_or_app. right. now apply vget_in.
  Qed.
  Lemma val_unpruned q t : at_node T q t -> unpruned val F q (dat t).
  Proof. intros A pr i O. apply (on_val q t pr i A) in O. apply not_flag, used_itask. exact O. Qed.
  Lemma val_nodes q d ch : at_node T q (PNode d ch) -> pn_exp d = true -> unique_task val d /\ unique_meth val d /\ sem val F q d ch.
  Proof.
    intros A Ee. assert (L := loc P T sel me GOOD q d ch A). assert (CH : forall c u, nth_error ch c = Some u -> at_node T (c :: q) u) by (intros c u Hc; exact (at_child T q _ c u A Hc)).
    assert (NO : node_ok P d (map dat ch)). { assert (Z := at_ok P T TO q _ A). apply tree_ok_node in Z as (_ & Z & _). rewrite Ee in Z. apply Z. }
    assert (ON : forall pr i, on val pr d i <-> at_sel sel q = Some (pr, i)) by (intros pr i; exact (on_val q _ pr i A)).
    split; [|split; [|split; [|split; [|split]]]].
    - intros pr i pr' i' O1 O2. apply ON in O1. apply ON in O2. split; congruence.
    - intros a m a' m' O1 O2. apply (meth_val q d ch a m A Ee) in O1 as [? ?]. apply (meth_val q d ch a' m' A Ee) in O2 as [? ?]. split; congruence.
    - intros p c i j u O Hp Hc. apply ON in O. rewrite O in L. cbn [local] in L. destruct L as [_ L]. destruct L as (c' & i' & j' & K1 & K2 & K3); [apply get_lt in Hc; lia|]. rewrite Hp in K1. injection K1 as <- <- <-. split; [now apply (on_val (c :: q) u true i (CH c u Hc))|]. intros c' u' Hc' N. apply (none_val (c' :: q) u' (CH c' u' Hc')). apply K3; auto. now apply get_lt in Hc'.
    - split.
      + intros a m O. apply (meth_val q d ch a m A Ee) in O as [O1 O2]. split; [now apply ON|]. rewrite O1 in L. cbn [local] in L. destruct L as (x & m' & L1 & L2 & L3 & L4 & L5). assert (m' = m) by congruence. subst m'. intros c u Hc. specialize (L5 c (get_lt _ _ _ Hc)). destruct (find_ptr d a m c) as [k|]; cbn [option_map] in L5; [now apply (on_val (c :: q) u _ _ (CH c u Hc))|now apply (none_val (c :: q) u (CH c u Hc))].
      + intros a O. apply ON in O. rewrite O in L. cbn [local] in L. destruct L as (x & m' & L1 & L2 & L3 & L4 & L5). exists m'. apply (meth_val q d ch a m' A Ee). auto.
    - intros c u pr i Hc O. apply (on_val (c :: q) u pr i (CH c u Hc)) in O. assert (E' : nth_error (map dat ch) c = Some (dat u)) by now rewrite nth_error_map, Hc. destruct (sel_task (c :: q) u pr i (CH c u Hc) O) as (x & Hx).
      assert (Lc : i < length (ccauses pr (dat u))) by (rewrite (no_len _ _ _ NO (dat u) pr (nth_error_In _ _ E')); now apply get_lt in Hx). apply get_some in Lc as (cs & Hcs). unfold get in Hcs. destruct (sel_cause P T sel me TO GOOD c q d ch u pr i cs A Hc O Hcs) as (j & k & J1 & J2). exists cs, j, k. split; auto. split; auto. split.
      + apply not_flag, used_icause. split; auto. exists c, q, u, cs, k. auto.
      + destruct k as [[a|] m]; cbn [used_cause oncause] in *; [now apply (meth_val q d ch a m A Ee)|now apply ON].
    - intros NN. apply (none_val q _ A) in NN. split; [intros pr i O; apply ON in O; congruence|]. intros u Hu. apply In_nth_error in Hu as (c & Hc). rewrite NN in L. cbn [local] in L. apply (none_val (c :: q) u (CH c u Hc)). apply L. now apply get_lt in Hc.
  Qed.
  Lemma val_plan : sat_plan val T = cplan T sel.
  Proof.
    transitivity (sel_plan (lsel sel) (leafs T [])); [|rewrite cplan_leafs; reflexivity]. unfold sat_plan, sel_plan. rewrite !flat_map_concat_map. f_equal. apply map_ext_in. intros [q d] Hq. apply leafs_at in Hq. change (map snd (filter (fun x => val (fst x)) (leaf_atoms d))) with (plan_at val d).
    unfold sel_at, lsel. cbn [fst snd]. assert (ON : forall pr i, on val pr d i <-> sel (rev q) = Some (pr, i)) by (intros pr i; exact (on_val q _ pr i Hq)). assert (ST := fun pr i => sel_task q _ pr i Hq). unfold at_sel in ST. cbn [dat] in ST.
    destruct (sel (rev q)) as [[[|] i]|] eqn:Es.
    - destruct (ST true i eq_refl) as (x & Hx). cbn [ctasks] in Hx. rewrite Hx. apply (plan_at_one val d i x); auto; [exact (fl_len _ _ _ _ (FI q _ Hq) true)|now apply ON|]. intros j Oj. apply ON in Oj. congruence.
    - apply plan_at_none. intros j Oj. apply ON in Oj. discriminate.
    - apply plan_at_none. intros j Oj. apply ON in Oj. discriminate.
  Qed.
End Val.
Lemma asg_good P F q t t' sel me : asg P F q t t' -> good P t sel me -> good P t' sel me.
Proof.
  intros A G path u' E. destruct (asg_at' P F path q t t' u' A E) as (u & U1 & U2). assert (L := asg_kids _ _ _ _ _ U2). apply asg_data in U2. destruct (core_eq _ _ (na_core _ _ _ _ _ U2)) as (C1 & C2 & _). assert (H := G path u U1). rewrite L.
  assert (FP : forall a m c, find_ptr (dat u') a m c = find_ptr (dat u) a m c) by (intros; unfold find_ptr; now rewrite (na_ptr _ _ _ _ _ U2)). unfold local in *. destruct (sel path) as [[[|] i]|]; auto.
  - rewrite C1, (na_pos _ _ _ _ _ U2). exact H.
  - rewrite C2, (na_exp _ _ _ _ _ U2). destruct H as (x & m & H1 & H2 & H3 & H4 & H5). exists x, m. repeat split; auto. intros c Hc. rewrite FP. auto.
Qed.
Lemma asg_cplan P F : forall t q t' sel, asg P F q t t' -> cplan t' sel = cplan t sel.
Proof.
  induction t as [d ch IH] using pdt_rect'. intros q t' sel A. inversion A as [q0 d0 ch0 d' ch' N L K]; subst. destruct (core_eq _ _ (na_core _ _ _ _ _ N)) as (C1 & _). destruct ch as [|u r].
  - destruct ch' as [|]; [|discriminate]. cbn [cplan pick]. unfold pick. now rewrite C1.
  - rewrite !cplan_kids; [|discriminate|intros ->; discriminate]. rewrite L, !flat_map_concat_map. f_equal. apply map_ext_in. intros c Hc. apply in_seq in Hc. assert (Lc : c < length (u :: r)) by lia. assert (Lc' : c < length ch') by lia. destruct (get_some _ _ Lc) as (w & Hw). destruct (get_some _ _ Lc') as (w' & Hw'). unfold get in *. rewrite Hw, Hw'. rewrite Forall_forall in IH. apply (IH w (nth_error_In _ _ Hw) (c :: q)). eauto.
Qed.
Lemma asg_used P F q0 t t' sel me : asg P F q0 t t' -> forall x, used t' sel me x -> used t sel me x.
Proof.
  intros A x. assert (G : forall pr q i j, used_by t' sel me pr q i j -> used_by t sel me pr q i j).
  { intros pr q i j (U & c & q' & u' & cs & k & E & A' & Hcs & Hk & UC). split; auto. destruct (asg_at' P F (rev q) q0 t t' u' A A') as (u & U1 & U2). exists c, q', u, cs, k. split; auto. split; auto. apply asg_data in U2. destruct (core_eq _ _ (na_core _ _ _ _ _ U2)) as (_ & _ & C3 & C4). split; auto. destruct pr; cbn [ccauses] in *; congruence. }
  destruct x; cbn [used]; auto.
Qed.
