(** The AND/OR graph of LmCausal, its start and the meaning of the computed sets. *)
From Verif Require Import Base Htn_problem Htn_spec Heap_model Heap_proof Arr Pg_model Pg_proof Pg_thm Lm_model Lm_spec Lm_proof.

Record lm_wf (P : problem) (precless : list nat) (dst : list (list nat)) : Prop := {
  lw_prim : forall t, t < length (p_cost P) -> nth_error (p_prim P) t = Some true;
  lw_pl_nd : NoDup precless;
  lw_pl : forall a, In a precless <-> nth_error (p_prec P) a = Some [];
  lw_dst : forall m md, nth_error (p_methods P) m = Some md -> forall t, In t (nth m dst []) <-> In t (m_subs md) }.

Section G.
Variables (P : problem) (precless : list nat) (dst : list (list nat)).
Hypothesis WP : wf_problem P.
Hypothesis WT : lm_wf P precless dst.

Lemma na_le : length (p_cost P) <= length (p_prim P).
Proof. destruct (Nat.le_gt_cases (length (p_cost P)) (length (p_prim P))) as [L|L]; auto. exfalso. pose proof (lw_prim _ _ _ WT _ L) as Q. assert (X : nth_error (p_prim P) (length (p_prim P)) <> None) by congruence. apply nth_error_Some in X. lia. Qed.

Inductive edge : nat -> nat -> Prop :=
| e_pre : forall a f, precs P a f -> edge (code P (EF f)) (code P (ET a))
| e_add : forall a f, adds P a f -> edge (code P (ET a)) (code P (EF f))
| e_task : forall m md, nth_error (p_methods P) m = Some md -> edge (code P (EM m)) (code P (ET (m_task md)))
| e_sub : forall m md t, nth_error (p_methods P) m = Some md -> In t (m_subs md) -> edge (code P (ET t)) (code P (EM m)).

Lemma in_combine_seq {A} (l : list A) a i x : In (i, x) (combine (seq a (length l)) l) <-> a <= i /\ nth_error l (i - a) = Some x.
Proof.
  revert a. induction l as [|y l IH]; intros a; cbn [length seq combine].
  - split; [easy|]. intros [_ H]. destruct (i - a); discriminate.
  - cbn [In]. rewrite IH. split.
    + intros [E|[L E]]; [injection E as -> ->; rewrite Nat.sub_diag; auto|]. split; [lia|]. replace (i - a) with (S (i - S a)) by lia. auto.
    + intros [L E]. destruct (Nat.eq_dec i a) as [->|N]; [left; rewrite Nat.sub_diag in E; cbn in E; congruence|right]. split; [lia|]. replace (i - a) with (S (i - S a)) in E by lia. auto.
Qed.

Lemma nth_list_iff (l : list (list nat)) a f n : length l = n -> (a < n /\ In f (nth a l [])) <-> exists k, nth_error l a = Some k /\ In f k.
Proof.
  intros L. split.
  - intros [La Hf]. exists (nth a l []). split; auto. apply nth_error_nth'. lia.
  - intros (k & E & Hf). split; [rewrite <- L; apply nth_error_Some; congruence|]. now rewrite (nth_error_nth _ _ _ E).
Qed.

Lemma edges_ok u v : In (u, v) (ao_edges P dst) <-> edge u v.
Proof.
  unfold ao_edges, fNode, tNode, mNode. rewrite in_app_iff, !in_flat_map. split.
  - intros [(a & Ha & H)|((m & md) & Hm & H)].
    + apply in_seq in Ha. apply in_app_or in H as [H|H]; apply in_map_iff in H as (f & E & Hf); injection E as <- <-.
      * apply e_pre. apply (nth_list_iff (p_prec P) a f _ (wf_prec _ WP)). split; auto; lia.
      * apply e_add. apply (nth_list_iff (p_add P) a f _ (wf_add _ WP)). split; auto; lia.
    + apply in_combine_seq in Hm as [_ Hm]. rewrite Nat.sub_0_r in Hm. cbn [fst snd] in H. destruct H as [E|H].
      * injection E as <- <-. now apply (e_task m).
      * apply in_map_iff in H as (t & E & Ht). injection E as <- <-. apply (e_sub m md t Hm). now apply (lw_dst _ _ _ WT m md Hm).
  - intros E. destruct E as [a f H|a f H|m md H|m md t H Ht]; cbn [code].
    + left. apply (nth_list_iff (p_prec P) a f _ (wf_prec _ WP)) in H as [La Hf]. exists a. split; [apply in_seq; lia|]. apply in_or_app. left. apply in_map_iff. exists f. auto.
    + left. apply (nth_list_iff (p_add P) a f _ (wf_add _ WP)) in H as [La Hf]. exists a. split; [apply in_seq; lia|]. apply in_or_app. right. apply in_map_iff. exists f. auto.
    + right. exists (m, md). split; [apply in_combine_seq; rewrite Nat.sub_0_r; split; auto; lia|]. now left.
    + right. exists (m, md). split; [apply in_combine_seq; rewrite Nat.sub_0_r; split; auto; lia|]. right. apply in_map_iff. exists t. split; auto. now apply (lw_dst _ _ _ WT m md H).
Qed.

Lemma precs_ex a f : precs P a f -> exists_elem P (EF f) /\ a < length (p_cost P).
Proof. intros (l & E & Hf). split; [apply (wf_facts _ WP l); auto; left; eapply nth_error_In; eauto|]. rewrite <- (wf_prec _ WP). apply nth_error_Some. congruence. Qed.
Lemma adds_ex a f : adds P a f -> exists_elem P (EF f) /\ a < length (p_cost P).
Proof. intros (l & E & Hf). split; [apply (wf_facts _ WP l); auto; right; left; eapply nth_error_In; eauto|]. rewrite <- (wf_add _ WP). apply nth_error_Some. congruence. Qed.
Lemma meth_ex m md : nth_error (p_methods P) m = Some md -> exists_elem P (EM m) /\ nth_error (p_prim P) (m_task md) = Some false /\ (forall t, In t (m_subs md) -> exists_elem P (ET t)) /\ m_subs md <> [].
Proof.
  intros E. assert (W : wf_method P md) by (apply (wf_methods _ WP); eapply nth_error_In; eauto). split; [cbn; apply nth_error_Some; congruence|]. split; [apply (wfm_task _ _ W)|]. split; [apply (wfm_subs _ _ W)|apply (wfm_nonempty _ _ W)].
Qed.
Lemma abs_ge md : nth_error (p_prim P) (m_task md) = Some false -> length (p_cost P) <= m_task md < length (p_prim P).
Proof.
  intros E. split; [|apply nth_error_Some; congruence]. destruct (Nat.le_gt_cases (length (p_cost P)) (m_task md)) as [L|L]; auto. rewrite (lw_prim _ _ _ WT _ L) in E. discriminate.
Qed.

Lemma code_lt x : exists_elem P x -> code P x < numNodes P.
Proof. unfold numNodes. destruct x; cbn; lia. Qed.
Lemma code_inj x y : exists_elem P x -> exists_elem P y -> code P x = code P y -> x = y.
Proof. destruct x, y; cbn; intros; try lia; f_equal; lia. Qed.
Lemma code_surj i : i < numNodes P -> exists x, exists_elem P x /\ code P x = i.
Proof.
  unfold numNodes. intros L. destruct (Nat.lt_ge_cases i (p_nfacts P)) as [L1|L1]; [exists (EF i); auto|]. destruct (Nat.lt_ge_cases i (p_nfacts P + length (p_prim P))) as [L2|L2].
  - exists (ET (i - p_nfacts P)). cbn. lia.
  - exists (EM (i - p_nfacts P - length (p_prim P))). cbn. lia.
Qed.

Lemma edge_ex u v : edge u v -> exists x y, u = code P x /\ v = code P y /\ exists_elem P x /\ exists_elem P y.
Proof.
  pose proof na_le. intros [a f Q|a f Q|m md Q|m md t Q Ht].
  - destruct (precs_ex a f Q). exists (EF f), (ET a). repeat split; auto. cbn. lia.
  - destruct (adds_ex a f Q). exists (ET a), (EF f). repeat split; auto. cbn. lia.
  - destruct (meth_ex m md Q) as (Q1 & Q2 & _). apply abs_ge in Q2. exists (EM m), (ET (m_task md)). repeat split; auto. cbn. lia.
  - destruct (meth_ex m md Q) as (Q1 & _ & Q3 & _). exists (ET t), (EM m). repeat split; auto.
Qed.

(** ** Pushing the edges *)
Lemma push_ok N i v : i < length N -> exists N', push N i v = Some N' /\ length N' = length N /\ forall j, nth j N' [] = if j =? i then nth j N [] ++ [v] else nth j N [].
Proof.
  intros L. unfold push. rewrite (get_d []) by auto. cbn [obind]. destruct (set_some N i (nth i N [] ++ [v]) L) as (N' & E). exists N'. split; auto. split; [apply (set_length _ _ _ _ E)|].
  intros j. destruct (Nat.eqb_spec j i) as [->|Nj]; [apply (nth_get []), (get_set_eq _ _ _ _ E)|]. destruct (Nat.lt_ge_cases j (length N)) as [Lj|Lj].
  - pose proof (get_set_neq _ _ j _ _ E ltac:(congruence)) as Q. rewrite (get_d []), (get_d []) in Q by (rewrite ?(set_length _ _ _ _ E); auto). congruence.
  - rewrite !nth_overflow; auto. rewrite (set_length _ _ _ _ E); auto.
Qed.

Lemma pushes_ok l : forall N I n, length N = n -> length I = n -> (forall u v, In (u, v) l -> u < n /\ v < n) ->
  exists N' I', ofold (fun '(N, Ninv) '(u, v) => N' <- push N u v ;; Ninv' <- push Ninv v u ;; Some (N', Ninv')) l (N, I) = Some (N', I') /\ length N' = n /\ length I' = n /\
    (forall u v, In v (nth u N' []) <-> In v (nth u N []) \/ In (u, v) l) /\ (forall u v, In u (nth v I' []) <-> In u (nth v I []) \/ In (u, v) l).
Proof.
  induction l as [|(u & v) l IH]; intros N I n LN LI H; cbn [ofold].
  - exists N, I. split; auto. split; auto. split; auto. split; intros a b; cbn; tauto.
  - destruct (H u v (or_introl eq_refl)) as [Lu Lv].
    destruct (push_ok N u v) as (N1 & E1 & L1 & Q1); [lia|]. rewrite E1. cbn [obind]. destruct (push_ok I v u) as (I1 & E2 & L2 & Q2); [lia|]. rewrite E2. cbn [obind].
    destruct (IH N1 I1 n) as (N' & I' & E & LN' & LI' & R1 & R2); [lia|lia|intros; apply H; now right|]. exists N', I'. split; auto. split; auto. split; auto. split; intros a b.
    + rewrite R1, Q1. cbn [In]. destruct (Nat.eqb_spec a u) as [->|Na]; [rewrite in_app_iff; cbn [In]|]; split.
      * intros [[?|[->|[]]]|?]; auto.
      * intros [?|[E'|?]]; auto. left. right. left. congruence.
      * intros [?|?]; auto.
      * intros [?|[E'|?]]; auto. congruence.
    + rewrite R2, Q2. cbn [In]. destruct (Nat.eqb_spec b v) as [->|Na]; [rewrite in_app_iff; cbn [In]|]; split.
      * intros [[?|[->|[]]]|?]; auto.
      * intros [?|[E'|?]]; auto. left. right. left. congruence.
      * intros [?|?]; auto.
      * intros [?|[E'|?]]; auto. congruence.
Qed.

Lemma nth_repeat_nil {A} k j : nth j (repeat (@nil A) k) [] = [].
Proof. revert j. induction k as [|k IH]; intros [|j]; cbn; auto. Qed.

Lemma graph_built : exists g, ao_graph P precless dst = Some g /\ length (g_by g) = numNodes P /\ length (g_aff g) = numNodes P /\
  (forall i c, In c (nth i (g_by g) []) <-> edge c i) /\ (forall i c, In i (nth c (g_aff g) []) <-> edge c i) /\ g_ty g = map (base_type P precless) (seq 0 (numNodes P)).
Proof.
  unfold ao_graph. destruct (pushes_ok (ao_edges P dst) (repeat [] (numNodes P)) (repeat [] (numNodes P)) (numNodes P)) as (N & I & E & L1 & L2 & Q1 & Q2); [apply repeat_length|apply repeat_length| |].
  - intros u v H. apply edges_ok, edge_ex in H as (x & y & -> & -> & Hx & Hy). split; now apply code_lt.
  - rewrite E. cbn [obind]. eexists. split; [reflexivity|]. cbn [g_by g_aff g_ty]. split; auto. split; auto. split; [|split; auto]; intros i c.
    + rewrite Q2, nth_repeat_nil, edges_ok. cbn. tauto.
    + rewrite Q1, nth_repeat_nil, edges_ok. cbn. tauto.
Qed.

(** ** Types *)
Lemma nth_map_seq {A} (f : nat -> A) n i d : i < n -> nth i (map f (seq 0 n)) d = f i.
Proof. intros L. rewrite nth_indep with (d' := f 0) by (rewrite map_length, seq_length; auto). rewrite map_nth, seq_nth by auto. reflexivity. Qed.

Lemma combine_map {A B} (f : A -> B) l : combine l (map f l) = map (fun i => (i, f i)) l.
Proof. induction l as [|a l IH]; cbn; congruence. Qed.

Lemma run_ty s g i : g_ty g = map (base_type P precless) (seq 0 (numNodes P)) -> i < numNodes P ->
  ty (run_type P s g) i = if (i <? p_nfacts P) && bat s i then INIT else base_type P precless i.
Proof. intros E L. unfold ty, run_type. cbn [g_ty]. rewrite E, combine_map, map_map, nth_map_seq by auto. reflexivity. Qed.

Lemma ty_elem s g x : g_ty g = map (base_type P precless) (seq 0 (numNodes P)) -> exists_elem P x ->
  ty (run_type P s g) (code P x) = match x with
    | EF f => if bat s f then INIT else OR
    | ET t => if memb t precless then INIT else if t <? length (p_cost P) then AND else OR
    | EM _ => AND end.
Proof.
  intros E X. rewrite (run_ty s g _ E (code_lt _ X)). unfold base_type, tNode. destruct x as [f|t|m]; cbn [code exists_elem] in *.
  - destruct (Nat.ltb_spec f (p_nfacts P)); [|lia]. cbn [andb]. auto.
  - destruct (Nat.ltb_spec (p_nfacts P + t) (p_nfacts P)); [lia|]. cbn [andb]. destruct (Nat.ltb_spec (p_nfacts P + t) (p_nfacts P + length (p_prim P))); [|lia].
    replace (p_nfacts P + t - p_nfacts P) with t by lia. destruct (memb t precless); auto.
    destruct (Nat.ltb_spec (p_nfacts P + t) (p_nfacts P + length (p_cost P))), (Nat.ltb_spec t (length (p_cost P))); auto; lia.
  - destruct (Nat.ltb_spec (p_nfacts P + length (p_prim P) + m) (p_nfacts P)); [lia|]. cbn [andb]. destruct (Nat.ltb_spec (p_nfacts P + length (p_prim P) + m) (p_nfacts P + length (p_prim P))); [lia|]. auto.
Qed.

Lemma run_graph_ok s g : length (g_by g) = numNodes P -> length (g_aff g) = numNodes P -> (forall i c, In c (nth i (g_by g) []) <-> edge c i) -> (forall i c, In i (nth c (g_aff g) []) <-> edge c i) ->
  g_ty g = map (base_type P precless) (seq 0 (numNodes P)) -> graph_ok (numNodes P) (run_type P s g).
Proof.
  intros L1 L2 Q1 Q2 E. constructor; cbn [run_type g_by g_aff g_ty]; auto.
  - rewrite E, combine_map, !map_length, seq_length. auto.
  - intros i c H. apply Q1, edge_ex in H as (x & y & -> & -> & Hx & Hy). now apply code_lt.
  - intros i c. rewrite Q1, Q2. tauto.
  - intros i H. apply Q1 in H. inversion H as [a f Q E1 E2|a f Q E1 E2|m md Q E1 E2|m md t Q Ht E1 E2]; cbn in *.
    + destruct (precs_ex a f Q) as [Q1' _]. cbn in Q1'. lia.
    + destruct (adds_ex a f Q) as [Q1' _]. cbn in Q1'. lia.
    + destruct (meth_ex m md Q) as (_ & Q' & _). apply abs_ge in Q'. lia.
    + destruct (meth_ex m md Q) as (_ & _ & Q' & _). specialize (Q' t Ht). cbn in Q'. lia.
Qed.

(** ** Start *)
Section S.
Variables (al : nat -> list Z) (s rch : list bool) (R : nat -> Prop) (scc : list Z) (mm : lm_mem).

Definition key_ok (c : Z) : Prop := (int_min <= c * 10000 /\ c * 10000 + Z.of_nat (numNodes P) <= INT_MAX)%Z.

Record mem_ok : Prop := {
  mo_lms : length (m_lms mm) = numNodes P;
  mo_heap : HInv (m_heap mm);
  mo_soh : HInv (m_soh mm) }.

(** what is required of [reachable] *)
Record rch_ok : Prop := {
  ro_len : length rch = numNodes P;
  ro_act : forall a, a < length (p_cost P) -> bat rch (code P (ET a)) = true -> R a /\ forall f, precs P a f -> bat rch (code P (EF f)) = true \/ bat s f = true;
  ro_meth : forall m md, nth_error (p_methods P) m = Some md -> bat rch (code P (EM m)) = true -> R (m_task md) /\ forall t, In t (m_subs md) -> bat rch (code P (ET t)) = true;
  ro_dvT : forall t W, dv P (holds s) R (ET t) W -> bat rch (code P (ET t)) = true;
  ro_dvM : forall m W, dv P (holds s) R (EM m) W -> bat rch (code P (EM m)) = true }.

Hypothesis AL : forall n, length (al n) = n.
Hypothesis SL : length s = p_nfacts P.
Hypothesis SCL : length scc = numNodes P.
Hypothesis SCB : forall c, In c scc -> key_ok c.
Hypothesis MO : mem_ok.
Hypothesis RO : rch_ok.

Definition start (i : nat) : Prop := (i < p_nfacts P /\ bat s i = true) \/ (exists a, In a precless /\ i = code P (ET a) /\ bat rch i = true).

Lemma start_fold (gd : nat -> option bool) (node : nat -> nat) (b : nat -> bool) l : forall B x, LQ (numNodes P) rch start B x ->
  (forall a, In a l -> gd a = Some (b a)) -> (forall a, In a l -> node a < numNodes P) -> (forall a, In a l -> b a = true -> start (node a)) -> NoDup l -> (forall a a', In a l -> In a' l -> node a = node a' -> a = a') ->
  (forall a, In a l -> ~ In (node a) (map snd B)) ->
  exists B' x', ofold (fun x a => b <- gd a ;; if b : bool then enqueue al 0 (node a) x else Some x) l x = Some x' /\ LQ (numNodes P) rch start B' x' /\ l_nodes x' = l_nodes x /\
    (forall j, In j (map snd B') <-> In j (map snd B) \/ exists a, In a l /\ b a = true /\ node a = j).
Proof.
  induction l as [|a l IH]; intros B x Q G N1 S1 ND IJ NB; cbn [ofold].
  - exists B, x. split; auto. split; auto. split; auto. intros j. split; auto. intros [?|(a & [] & _)]; auto.
  - rewrite (G a (or_introl eq_refl)). cbn [obind]. inversion ND as [|? ? ND1 ND2]; subst. destruct (b a) eqn:Eb.
    + destruct (enqueue_ok al _ rch AL start B x 0 (node a) Q) as (x1 & E1 & Q1 & K1); [apply N1; now left|right; apply S1; auto; now left|apply NB; now left|unfold int_min; lia|]. rewrite E1. cbn [obind].
      destruct (IH _ x1 Q1) as (B' & x' & E' & Q' & K' & I'); auto; try (intros; solve [apply G; now right|apply N1; now right|apply S1; auto; now right|apply IJ; auto; now right]).
      * intros a' Ha'. cbn [map snd In]. intros [E|E]; [|apply (NB a'); auto; now right]. apply IJ in E; [congruence|now left|now right].
      * exists B', x'. split; auto. split; auto. split; [congruence|]. intros j. rewrite I'. cbn [map snd In]. split.
        -- intros [[<-|?]|(c & Hc & Q2)]; auto; right; [exists a|exists c]; auto.
        -- intros [?|(c & [<-|Hc] & Ec & Q2)]; auto. right. exists c. auto.
    + cbn [obind]. destruct (IH B x Q) as (B' & x' & E' & Q' & K' & I'); auto; try (intros; solve [apply G; now right|apply N1; now right|apply S1; auto; now right|apply IJ; auto; now right|apply NB; now right]).
      exists B', x'. split; auto. split; auto. split; auto. intros j. rewrite I'. split.
      * intros [?|(c & Hc & Q2)]; auto. right. exists c. split; auto. now right.
      * intros [?|(c & [<-|Hc] & Ec & Q2)]; auto; [congruence|]. right. exists c. auto.
Qed.

Definition ns0 : list lmnode := map (fun l => {| n_full := true; n_num := 0; n_lms := l |}) (m_lms mm).

Lemma ns0_full i : fullb ns0 i = true /\ n_num (nd ns0 i) = 0.
Proof.
  unfold fullb, nd, ns0. destruct (Nat.lt_ge_cases i (length (m_lms mm))) as [L|L].
  - rewrite nth_indep with (d' := (fun l => {| n_full := true; n_num := 0; n_lms := l |}) []) by (rewrite map_length; auto). rewrite map_nth. auto.
  - rewrite nth_overflow by (rewrite map_length; auto). auto.
Qed.

Lemma pl_lt a : In a precless -> a < length (p_cost P).
Proof. intros H. apply (lw_pl _ _ _ WT) in H. rewrite <- (wf_prec _ WP). apply nth_error_Some. congruence. Qed.

Lemma start_ok : exists B x, lm_start al P precless s rch mm = Some x /\ LQ (numNodes P) rch start B x /\ l_nodes x = ns0 /\ forall j, In j (map snd B) <-> start j.
Proof.
  pose proof na_le as NA. unfold lm_start.
  destruct (start_fold (fun f => get s f) fNode (bat s) (seq 0 (p_nfacts P)) [] {| l_nodes := ns0; l_in := repeat false (numNodes P); l_heap := heap_clear (m_heap mm); l_soh := m_soh mm |}) as (B1 & x1 & E1 & Q1 & N1 & I1).
  - constructor; cbn [l_heap l_in l_soh map]; auto.
    + apply PQz_clear, MO.
    + constructor.
    + apply repeat_length.
    + intros j. unfold bat. assert (nth j (repeat false (numNodes P)) false = false) as ->. { generalize (numNodes P) j. induction n as [|n IH]; intros [|k]; cbn; auto. } split; [discriminate|easy].
    + apply MO.
    + easy.
  - intros a Ha. apply in_seq in Ha. apply get_bat. lia.
  - intros a Ha. apply in_seq in Ha. unfold fNode, numNodes. lia.
  - intros a Ha Q. apply in_seq in Ha. left. unfold fNode. split; auto; lia.
  - apply seq_NoDup.
  - auto.
  - easy.
  - fold ns0. rewrite E1. cbn [obind].
    destruct (start_fold (fun a => get rch (tNode P a)) (tNode P) (fun a => bat rch (tNode P a)) precless B1 x1) as (B2 & x2 & E2 & Q2 & N2 & I2); auto.
    + intros a Ha. apply pl_lt in Ha. apply get_bat. rewrite (ro_len RO). unfold tNode, numNodes. lia.
    + intros a Ha. apply pl_lt in Ha. unfold tNode, numNodes. lia.
    + intros a Ha Q. right. exists a. auto.
    + apply WT.
    + intros a a' _ _. unfold tNode. lia.
    + intros a Ha. rewrite I1. intros [[]|(f & Hf & _ & E)]. apply in_seq in Hf. unfold fNode, tNode in E. lia.
    + exists B2, x2. split; auto. split; auto. split; [rewrite N2, N1; auto|]. intros j. rewrite I2, I1. unfold start. split.
      * intros [[[]|(f & Hf & Q & <-)]|(a & Ha & Q & <-)]; [left|right]; [apply in_seq in Hf; unfold fNode; split; auto; lia|]. exists a. auto.
      * intros [[L Q]|(a & Ha & -> & Q)]; [left; right; exists j|right; exists a]; auto. split; [apply in_seq; lia|auto].
Qed.

Lemma calc_ok : exists g x, calcLMs al P precless dst scc s rch mm = Some x /\ graph_ok (numNodes P) (run_type P s g) /\ g_ty g = map (base_type P precless) (seq 0 (numNodes P)) /\
  (forall i c, In c (kids (run_type P s g) i) <-> edge c i) /\ LI (numNodes P) rch (run_type P s g) start (l_nodes x) (fun _ => False) /\
  (forall Dv keep, avoid_ok (numNodes P) rch (run_type P s g) start Dv keep -> CI (numNodes P) Dv keep (l_nodes x)).
Proof.
  pose proof na_le as NA. unfold calcLMs. destruct graph_built as (g & Eg & L1 & L2 & Q1 & Q2 & ET'). rewrite Eg. cbn [obind].
  destruct start_ok as (B & x & Ex & LQx & Nx & Bx). rewrite Ex. cbn [obind]. pose proof (run_graph_ok s g L1 L2 Q1 Q2 ET') as GO.
  assert (STT : forall i, start i -> ty (run_type P s g) i = INIT).
  { intros i [[L Q]|(a & Ha & -> & Q)].
    - change i with (code P (EF i)). rewrite (ty_elem s g (EF i) ET' L). now rewrite Q.
    - rewrite (ty_elem s g (ET a) ET') by (cbn; pose proof (pl_lt a Ha); lia). apply memb_In in Ha. now rewrite Ha. }
  assert (NK : forall i, i < numNodes P -> ty (run_type P s g) i = AND -> kids (run_type P s g) i <> []).
  { intros i L T E. destruct (code_surj i L) as (y & X & <-). rewrite (ty_elem s g y ET' X) in T. unfold kids in E. cbn [run_type g_by] in E.
    assert (NE : forall c, ~ edge c (code P y)) by (intros c Q; apply Q1 in Q; rewrite E in Q; destruct Q). destruct y as [f|t|m].
    - destruct (bat s f); discriminate.
    - destruct (memb t precless) eqn:M; [discriminate|]. destruct (Nat.ltb_spec t (length (p_cost P))); [|discriminate]. apply memb_false in M. apply M. apply (lw_pl _ _ _ WT).
      destruct (nth_error (p_prec P) t) as [l|] eqn:El; [|apply nth_error_None in El; rewrite (wf_prec _ WP) in El; lia]. destruct l as [|f l]; auto.
      exfalso. apply (NE (code P (EF f))), e_pre. exists (f :: l). split; auto. now left.
    - destruct (nth_error (p_methods P) m) as [md|] eqn:Em; [|apply nth_error_None in Em; cbn in X; lia]. destruct (meth_ex m md Em) as (_ & _ & _ & N). destruct (m_subs md) as [|t l] eqn:El; [congruence|].
      apply (NE (code P (ET t))), (e_sub m md t Em). rewrite El. now left. }
  assert (I0 : LI (numNodes P) rch (run_type P s g) start (l_nodes x) (inq B)).
  { rewrite Nx. constructor.
    - unfold ns0. rewrite map_length. apply MO.
    - intros i L. destruct (ns0_full i) as [F Z]. constructor; auto; try (rewrite Z; lia); try (unfold lms, lmof; rewrite Z; cbn); [constructor|easy|congruence].
    - intros i L F. destruct (ns0_full i). congruence.
    - intros i L F. destruct (ns0_full i). congruence.
    - intros i L F. destruct (ns0_full i). congruence.
    - intros i L F. destruct (ns0_full i). congruence.
    - intros i L F NH. unfold undone. pose proof (NK i L) as K. destruct (ty (run_type P s g) i).
      + intros Q. apply NH, Bx, Q.
      + intros _. specialize (K eq_refl). destruct (kids (run_type P s g) i) as [|c l]; [congruence|]. exists c. split; [now left|apply ns0_full].
      + intros _ c _. apply ns0_full. }
  assert (MU : mu (numNodes P) (l_nodes x) = numNodes P * S (numNodes P)).
  { rewrite Nx. unfold mu. rewrite (map_ext (weight (numNodes P) ns0) (fun _ => S (numNodes P))) by (intros i; unfold weight; destruct (ns0_full i) as [-> _]; auto).
    assert (Q : forall c k a, list_sum (map (fun _ : nat => c) (seq a k)) = k * c) by (intros c k; induction k as [|k IH]; intros a; [auto|cbn [seq map list_sum fold_right]; change (fold_right Nat.add 0) with list_sum; rewrite IH; cbn; lia]). apply Q. }
  assert (LB : length B <= numNodes P).
  { rewrite <- (map_length snd). rewrite <- (seq_length (numNodes P) 0). apply NoDup_incl_length; [apply LQx|]. intros j Hj. apply in_seq. destruct (lq_b _ _ _ _ _ LQx j Hj). lia. }
  destruct (loop_ok al (numNodes P) rch (run_type P s g) AL (ro_len RO) GO start STT scc SCL SCB (numNodes P * S (S (numNodes P) * S (numNodes P))) B x LQx I0) as (x' & E' & I' & C'); [rewrite MU; nia|].
  exists g, x'. split; auto. split; auto. split; auto. split; [exact Q1|]. split; auto. intros Dv keep A. apply C'; auto.
  intros j e L F. rewrite Nx in F. destruct (ns0_full j). congruence.
Qed.

(** ** Meaning *)
Lemma dv_ex : (forall x W, dv P (holds s) R x W -> exists_elem P x /\ forall y, In y W -> exists_elem P y) /\ (forall l W, dvs P (holds s) R l W -> (forall x, In x l -> exists_elem P x) /\ forall y, In y W -> exists_elem P y).
Proof.
  pose proof na_le as NA. apply (dv_dvs_ind P (holds s) R (fun x W _ => exists_elem P x /\ forall y, In y W -> exists_elem P y) (fun l W _ => (forall x, In x l -> exists_elem P x) /\ forall y, In y W -> exists_elem P y)).
  - intros f Hf. assert (X : exists_elem P (EF f)) by (cbn; rewrite <- SL; apply nth_error_Some; unfold holds in Hf; congruence). split; auto. intros y [<-|[]]; auto.
  - intros a f W _ [_ IH] A. destruct (adds_ex a f A) as [X _]. split; auto. intros y [<-|Hy]; auto.
  - intros a l W E _ _ [_ IH]. assert (X : exists_elem P (ET a)). { cbn. assert (a < length (p_cost P)) by (rewrite <- (wf_prec _ WP); apply nth_error_Some; congruence). lia. } split; auto. intros y [<-|Hy]; auto.
  - intros m md W E _ [_ IH]. destruct (meth_ex m md E) as (_ & X & _). apply abs_ge in X. split; [cbn; lia|]. intros y [<-|Hy]; auto. cbn. lia.
  - intros m md W E _ _ [_ IH]. destruct (meth_ex m md E) as (X & _). split; auto. intros y [<-|Hy]; auto.
  - split; easy.
  - intros x l W V _ [I1 I2] _ [I3 I4]. split; [intros y [<-|Hy]; auto|]. intros y Hy. apply in_app_or in Hy as [Hy|Hy]; auto.
Qed.

Lemma state_ex f : bat s f = true -> exists_elem P (EF f).
Proof. intros H. cbn. rewrite <- SL. destruct (Nat.lt_ge_cases f (length s)) as [L|L]; auto. unfold bat in H. rewrite nth_overflow in H by auto. discriminate. Qed.

Variables (g : aog) (ns : list lmnode).
Hypothesis GO : graph_ok (numNodes P) (run_type P s g).
Hypothesis GT : g_ty g = map (base_type P precless) (seq 0 (numNodes P)).
Hypothesis GK : forall i c, In c (kids (run_type P s g) i) <-> edge c i.
Hypothesis GI : LI (numNodes P) rch (run_type P s g) start ns (fun _ => False).

Definition found (x : elem) : Prop := fullb ns (code P x) = false.
Definition visible (x : elem) : Prop := match x with EF f => bat rch (code P (EF f)) = true \/ bat s f = true | _ => True end.

Lemma edge_fact c f : exists_elem P (EF f) -> edge c (code P (EF f)) -> exists a, c = code P (ET a) /\ adds P a f.
Proof.
  cbn [exists_elem]. intros L E. remember (code P (EF f)) as v eqn:E2. destruct E as [a' f' Q|a' f' Q|m md Q|m md t Q Ht]; cbn [code] in *; try lia. assert (f' = f) by lia. subst. exists a'. auto.
Qed.
Lemma edge_action c a : a < length (p_cost P) -> edge c (code P (ET a)) -> exists f, c = code P (EF f) /\ precs P a f.
Proof.
  intros L E. pose proof na_le as NA. remember (code P (ET a)) as v eqn:E2. destruct E as [a' f' Q|a' f' Q|m md Q|m md t Q Ht]; cbn [code] in *.
  - assert (a' = a) by lia. subst. exists f'. auto.
  - destruct (adds_ex a' f' Q) as [X _]. cbn in X. lia.
  - destruct (meth_ex m md Q) as (_ & X & _). apply abs_ge in X. lia.
  - destruct (meth_ex m md Q) as (X & _). lia.
Qed.
Lemma edge_abs c t : length (p_cost P) <= t < length (p_prim P) -> edge c (code P (ET t)) -> exists m md, c = code P (EM m) /\ nth_error (p_methods P) m = Some md /\ m_task md = t.
Proof.
  intros L E. remember (code P (ET t)) as v eqn:E2. destruct E as [a' f' Q|a' f' Q|m md Q|m md t' Q Ht]; cbn [code] in *.
  - destruct (precs_ex a' f' Q). lia.
  - destruct (adds_ex a' f' Q) as [X _]. cbn in X. lia.
  - exists m, md. split; auto. split; auto. lia.
  - lia.
Qed.
Lemma edge_meth c m : edge c (code P (EM m)) -> exists md t, nth_error (p_methods P) m = Some md /\ In t (m_subs md) /\ c = code P (ET t).
Proof.
  pose proof na_le as NA. intros E. remember (code P (EM m)) as v eqn:E2. destruct E as [a' f' Q|a' f' Q|m' md Q|m' md t' Q Ht]; cbn [code] in *.
  - destruct (precs_ex a' f' Q). lia.
  - destruct (adds_ex a' f' Q) as [X _]. cbn in X. lia.
  - destruct (meth_ex m' md Q) as (_ & X & _). apply abs_ge in X. lia.
  - assert (m' = m) by lia. subst. exists md, t'. auto.
Qed.

Lemma undone_of x : exists_elem P x -> ~ found x -> undone rch (run_type P s g) start ns (code P x).
Proof.
  intros X N. apply (li_D _ _ _ _ _ _ GI); auto; [now apply code_lt|]. unfold found in N. destruct (fullb ns (code P x)); congruence.
Qed.
Lemma found_dec x : found x \/ ~ found x.
Proof. unfold found. destruct (fullb ns (code P x)); [right; discriminate|auto]. Qed.

(** everything derivable is found *)
Lemma derivable_found : (forall x W, dv P (holds s) R x W -> visible x -> found x) /\ (forall l W, dvs P (holds s) R l W -> forall x, In x l -> visible x -> found x).
Proof.
  pose proof na_le as NA. apply (dv_dvs_ind P (holds s) R (fun x W _ => visible x -> found x) (fun l W _ => forall x, In x l -> visible x -> found x)).
  - intros f Hf _. apply bat_holds in Hf. assert (X : exists_elem P (EF f)) by (now apply state_ex).
    destruct (found_dec (EF f)) as [Q|Q]; auto. apply (undone_of _ X) in Q. unfold undone in Q. rewrite (ty_elem s g _ GT X), Hf in Q. elim Q. left. auto.
  - intros a f W D IH A V. specialize (IH Logic.I). destruct (adds_ex a f A) as [X La]. destruct (found_dec (EF f)) as [Q|Q]; auto. apply (undone_of _ X) in Q. unfold undone in Q. rewrite (ty_elem s g _ GT X) in Q.
    destruct (bat s f) eqn:Ef; [elim Q; left; auto|]. destruct V as [V|V]; [|cbn in V; congruence]. exfalso. specialize (Q V (code P (ET a))). unfold found in IH. rewrite Q in IH; [discriminate|].
    split; [apply GK; now apply e_add|]. eapply (ro_dvT RO); eauto.
  - intros a l W E Ra D IH _. assert (La : a < length (p_cost P)) by (rewrite <- (wf_prec _ WP); apply nth_error_Some; congruence). assert (X : exists_elem P (ET a)) by (cbn; lia).
    assert (RA : bat rch (code P (ET a)) = true) by (eapply (ro_dvT RO); eapply dv_act; eauto).
    destruct (found_dec (ET a)) as [Q|Q]; auto. apply (undone_of _ X) in Q. unfold undone in Q. rewrite (ty_elem s g _ GT X) in Q. destruct (memb a precless) eqn:M.
    + elim Q. right. exists a. split; [now apply memb_In|auto].
    + destruct (Nat.ltb_spec a (length (p_cost P))); [|lia]. destruct (Q RA) as (c & K & Fc). apply GK in K. apply edge_action in K as (f & -> & Hf); auto.
      assert (Hf' : In (EF f) (map EF l)) by (destruct Hf as (l' & E' & Hf); apply in_map; congruence). specialize (IH (EF f) Hf' (proj2 (ro_act RO a La RA) f Hf)). unfold found in IH. congruence.
  - intros m md W E D IH _. specialize (IH Logic.I). destruct (meth_ex m md E) as (_ & Q0 & _). apply abs_ge in Q0. assert (X : exists_elem P (ET (m_task md))) by (cbn; lia).
    destruct (found_dec (ET (m_task md))) as [Q|Q]; auto. apply (undone_of _ X) in Q. unfold undone in Q. rewrite (ty_elem s g _ GT X) in Q.
    destruct (memb (m_task md) precless) eqn:M; [apply memb_In, pl_lt in M; lia|]. destruct (Nat.ltb_spec (m_task md) (length (p_cost P))); [lia|].
    assert (RT : bat rch (code P (ET (m_task md))) = true) by (eapply (ro_dvT RO); eapply dv_task; eauto). unfold found in IH. rewrite (Q RT (code P (EM m))) in IH; [discriminate|].
    split; [apply GK; now apply (e_task m md)|]. eapply (ro_dvM RO); eauto.
  - intros m md W E Rm D IH _. destruct (meth_ex m md E) as (X & _). assert (RM : bat rch (code P (EM m)) = true) by (eapply (ro_dvM RO); eapply dv_meth; eauto).
    destruct (found_dec (EM m)) as [Q|Q]; auto. apply (undone_of _ X) in Q. unfold undone in Q. rewrite (ty_elem s g _ GT X) in Q. destruct (Q RM) as (c & K & Fc). apply GK, edge_meth in K as (md' & t & E' & Ht & ->).
    assert (md' = md) by congruence. subst md'. specialize (IH (ET t) (in_map ET _ _ Ht) Logic.I). unfold found in IH. congruence.
  - easy.
  - intros x l W V D1 I1 D2 I2 y [<-|Hy]; auto.
Qed.

(** the sets only contain landmarks *)
Lemma FM_of x j : exists_elem P x -> In (Z.of_nat j) (lms ns (code P x)) -> FM rch (run_type P s g) ns (code P x) (Z.of_nat j).
Proof.
  intros X Q. apply (li_sub _ _ _ _ _ _ GI); auto; [now apply code_lt|]. destruct (fullb ns (code P x)) eqn:F; auto. rewrite (lms_full _ _ _ (li_ok _ _ _ _ _ _ GI _ (code_lt _ X)) F) in Q. destruct Q.
Qed.

Lemma lms_sound : (forall x W, dv P (holds s) R x W -> forall j, In (Z.of_nat j) (lms ns (code P x)) -> exists y, In y W /\ code P y = j) /\
  (forall l W, dvs P (holds s) R l W -> forall x, In x l -> forall j, In (Z.of_nat j) (lms ns (code P x)) -> exists y, In y W /\ code P y = j).
Proof.
  pose proof na_le as NA. apply (dv_dvs_ind P (holds s) R (fun x W _ => forall j, In (Z.of_nat j) (lms ns (code P x)) -> exists y, In y W /\ code P y = j)
    (fun l W _ => forall x, In x l -> forall j, In (Z.of_nat j) (lms ns (code P x)) -> exists y, In y W /\ code P y = j)).
  - intros f Hf j Q. apply bat_holds in Hf. assert (X : exists_elem P (EF f)) by (now apply state_ex).
    apply (FM_of _ _ X) in Q. unfold FM in Q. rewrite (ty_elem s g _ GT X), Hf in Q. destruct Q as [Q|[]]. exists (EF f). split; [now left|]. lia.
  - intros a f W D IH A j Q. destruct (adds_ex a f A) as [X La]. apply (FM_of _ _ X) in Q. unfold FM in Q. rewrite (ty_elem s g _ GT X) in Q. destruct Q as [Q|Q]; [exists (EF f); split; [now left|lia]|].
    destruct (bat s f); [destruct Q|]. destruct (IH j) as (y & Hy & E).
    + apply Q; [split; [apply GK; now apply e_add|eapply (ro_dvT RO); eauto]|]. apply (proj1 derivable_found _ _ D). exact Logic.I.
    + exists y. split; auto. now right.
  - intros a l W E Ra D IH j Q. assert (La : a < length (p_cost P)) by (rewrite <- (wf_prec _ WP); apply nth_error_Some; congruence). assert (X : exists_elem P (ET a)) by (cbn; lia).
    apply (FM_of _ _ X) in Q. unfold FM in Q. rewrite (ty_elem s g _ GT X) in Q. destruct Q as [Q|Q]; [exists (ET a); split; [now left|lia]|].
    destruct (memb a precless); [destruct Q|]. destruct (Nat.ltb_spec a (length (p_cost P))); [|lia]. destruct Q as (c & [K _] & Hc). apply GK in K. apply edge_action in K as (f & -> & Hf); auto.
    assert (Hf' : In (EF f) (map EF l)) by (destruct Hf as (l' & E' & Hf); apply in_map; congruence). destruct (IH (EF f) Hf' j Hc) as (y & Hy & Ey). exists y. split; auto. now right.
  - intros m md W E D IH j Q. destruct (meth_ex m md E) as (_ & Q0 & _). apply abs_ge in Q0. assert (X : exists_elem P (ET (m_task md))) by (cbn; lia).
    apply (FM_of _ _ X) in Q. unfold FM in Q. rewrite (ty_elem s g _ GT X) in Q. destruct Q as [Q|Q]; [exists (ET (m_task md)); split; [now left|lia]|].
    destruct (memb (m_task md) precless) eqn:M; [apply memb_In, pl_lt in M; lia|]. destruct (Nat.ltb_spec (m_task md) (length (p_cost P))); [lia|].
    destruct (IH j) as (y & Hy & Ey); [|exists y; split; auto; now right].
    apply Q; [split; [apply GK; now apply (e_task m md)|eapply (ro_dvM RO); eauto]|]. apply (proj1 derivable_found _ _ D). exact Logic.I.
  - intros m md W E Rm D IH j Q. destruct (meth_ex m md E) as (X & _). apply (FM_of _ _ X) in Q. unfold FM in Q. rewrite (ty_elem s g _ GT X) in Q. destruct Q as [Q|Q]; [exists (EM m); split; [now left|lia]|].
    destruct Q as (c & [K _] & Hc). apply GK, edge_meth in K as (md' & t & E' & Ht & ->). assert (md' = md) by congruence. subst md'. destruct (IH (ET t) (in_map ET _ _ Ht) j Hc) as (y & Hy & Ey). exists y. split; auto. now right.
  - easy.
  - intros x l W V D1 I1 D2 I2 y [<-|Hy] j Q; [destruct (I1 j Q) as (z & Hz & E)|destruct (I2 y Hy j Q) as (z & Hz & E)]; exists z; (split; [apply in_or_app; auto|auto]).
Qed.

(** and all of them, except for facts of the state that are not considered *)
Definition keep (e : nat) : Prop := ~ (e < p_nfacts P /\ bat s e = true /\ bat rch e = false).
Definition Dv (i e : nat) : Prop := exists x W, exists_elem P x /\ code P x = i /\ dv P (holds s) R x W /\ forall y, In y W -> code P y <> e.

Lemma dvs_avoid e l : (forall x, In x l -> exists W, dv P (holds s) R x W /\ forall y, In y W -> code P y <> e) -> exists W, dvs P (holds s) R l W /\ forall y, In y W -> code P y <> e.
Proof.
  induction l as [|x l IH]; intros H.
  - exists []. split; [constructor|easy].
  - destruct (H x (or_introl eq_refl)) as (W & D & N). destruct IH as (V & D' & N'); [intros; apply H; now right|]. exists (W ++ V). split; [now constructor|]. intros y Hy. apply in_app_or in Hy as [Hy|Hy]; auto.
Qed.

Lemma Dv_inv x e : exists_elem P x -> Dv (code P x) e -> exists W, dv P (holds s) R x W /\ forall y, In y W -> code P y <> e.
Proof. intros X (x' & W & X' & E & D & N). apply code_inj in E; auto. subst x'. exists W. auto. Qed.

Lemma avoid : avoid_ok (numNodes P) rch (run_type P s g) start Dv keep.
Proof.
  pose proof na_le as NA. split; [|split].
  - intros j e L T RS N. destruct (code_surj j L) as (x & X & <-). rewrite (ty_elem s g _ GT X) in T. destruct x as [f|t|m]; [| |discriminate].
    + destruct (bat s f) eqn:Ef; [|discriminate]. exists (EF f), [EF f]. split; auto. split; auto. split; [apply dv_state; now apply bat_holds|]. intros y [<-|[]]. auto.
    + destruct (memb t precless) eqn:M; [|destruct (t <? length (p_cost P)); discriminate]. apply memb_In in M. pose proof (pl_lt t M) as Lt.
      assert (RT : bat rch (code P (ET t)) = true). { destruct RS as [RS|[[RS _]|(a & _ & _ & RS)]]; auto. cbn in RS. lia. }
      apply (lw_pl _ _ _ WT) in M. exists (ET t), [ET t]. split; auto. split; auto. split; [eapply dv_act; [exact M|apply (ro_act RO t Lt RT)|constructor]|]. intros y [<-|[]]. auto.
  - intros j e L T RJ N K H. destruct (code_surj j L) as (x & X & <-). rewrite (ty_elem s g _ GT X) in T. destruct x as [f|t|m].
    + destruct (bat s f); discriminate.
    + destruct (memb t precless); [discriminate|]. destruct (Nat.ltb_spec t (length (p_cost P))) as [Lt|]; [|discriminate].
      destruct (nth_error (p_prec P) t) as [l|] eqn:El; [|apply nth_error_None in El; rewrite (wf_prec _ WP) in El; lia].
      destruct (ro_act RO t Lt RJ) as [RT RF]. destruct (dvs_avoid e (map EF l)) as (W & D & NW).
      * intros y Hy. apply in_map_iff in Hy as (f & <- & Hf). assert (Pf : precs P t f) by (exists l; auto). destruct (precs_ex t f Pf) as [Xf _]. destruct (bat rch (code P (EF f))) eqn:Rf.
        -- apply (Dv_inv _ _ Xf), H. split; auto. apply GK. now apply e_pre.
        -- destruct (RF f Pf) as [Q|Q]; [congruence|]. exists [EF f]. split; [apply dv_state; now apply bat_holds|]. intros y [<-|[]] <-. apply K. auto.
      * exists (ET t), (ET t :: W). split; auto. split; auto. split; [eapply dv_act; eauto|]. intros y [<-|Hy]; auto.
    + destruct (nth_error (p_methods P) m) as [md|] eqn:Em; [|apply nth_error_None in Em; cbn in X; lia]. destruct (ro_meth RO m md Em RJ) as [RT RS]. destruct (meth_ex m md Em) as (_ & _ & XS & _).
      destruct (dvs_avoid e (map ET (m_subs md))) as (W & D & NW).
      * intros y Hy. apply in_map_iff in Hy as (t & <- & Ht). apply (Dv_inv _ _ (XS t Ht)), H. split; auto. apply GK. eapply e_sub; eauto.
      * exists (EM m), (EM m :: W). split; auto. split; auto. split; [eapply dv_meth; eauto|]. intros y [<-|Hy]; auto.
  - intros j c e L T RJ N [K Rc] H. destruct (code_surj j L) as (x & X & <-). rewrite (ty_elem s g _ GT X) in T. apply GK in K. destruct x as [f|t|m]; [| |discriminate].
    + apply (edge_fact c f X) in K as (a & -> & A). destruct (adds_ex a f A) as [_ La]. apply Dv_inv in H as (W & D & NW); [|cbn; lia]. exists (EF f), (EF f :: W). split; auto. split; auto. split; [eapply dv_add; eauto|].
      intros y [<-|Hy]; auto.
    + destruct (memb t precless) eqn:M; [discriminate|]. destruct (Nat.ltb_spec t (length (p_cost P))) as [|Lt]; [discriminate|]. cbn in X. apply edge_abs in K as (m & md & -> & Em & Et); [|lia].
      destruct (meth_ex m md Em) as (Xm & _). apply (Dv_inv _ _ Xm) in H as (W & D & NW). exists (ET t), (ET t :: W). split; auto. split; auto. split; [rewrite <- Et; eapply dv_task; eauto|].
      intros y [<-|Hy]; auto.
Qed.

Lemma lms_complete x y : CI (numNodes P) Dv keep ns -> exists_elem P x -> exists_elem P y -> found x -> keep (code P y) -> landmark P (holds s) R x y -> In (Z.of_nat (code P y)) (lms ns (code P x)).
Proof.
  intros C X Y F K LM. destruct (In_dec_Z (Z.of_nat (code P y)) (lms ns (code P x))) as [Q|Q]; auto. exfalso.
  pose proof (C (code P x) (code P y) (code_lt _ X) F K Q) as H. apply (Dv_inv _ _ X) in H as (W & D & N). apply (N y); auto.
Qed.
Lemma found_derivable x : CI (numNodes P) Dv keep ns -> exists_elem P x -> found x -> derivable P (holds s) R x.
Proof.
  intros C X F. assert (H : Dv (code P x) (numNodes P)). { apply C; auto; [now apply code_lt|unfold keep, numNodes; lia|].
    intros Q. destruct (no_rng _ _ _ (li_ok _ _ _ _ _ _ GI _ (code_lt _ X)) _ Q) as (j & Lj & E & _). lia. }
  apply (Dv_inv _ _ X) in H as (W & D & _). exists W. auto.
Qed.
End S.
End G.
