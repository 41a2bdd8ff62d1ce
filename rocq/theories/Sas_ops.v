(** Translation to SAS+: the operators of the written task. *)
From Verif Require Import Base Htn_problem Htn_spec To_spec Sas_model Sas_spec Sas_proof Sas_sim Sas_act Sas_rep Sas_stack.

Lemma lead_spec P ts : forall f, lead_prims (p_prim P) ts = Some f ->
  (forall t, In t (firstn f ts) -> primitive P t) /\ (forall t r, skipn f ts = t :: r -> ~ primitive P t) /\ f <= length ts.
Proof.
  induction ts as [|t ts IH]; intros f; cbn [lead_prims]; [intros [= <-]; cbn; repeat split; auto; [intros t []|discriminate]|].
  intros H. apply obind_some in H as (b & Eb & H). destruct b.
  - apply obind_some in H as (n & En & H). injection H as <-. destruct (IH n En) as (A & B & C). cbn [firstn skipn length]. split; [|split; [exact B|lia]]. intros u [<-|I]; auto.
  - injection H as <-. cbn. split; [intros u []|]. split; [|lia]. intros u r [= <- <-]. unfold primitive, get in *. congruence.
Qed.
Lemma combine_app_l {A B} (l : list A) : forall (x y : list B), length l = length x -> combine l (x ++ y) = combine l x.
Proof. induction l as [|a l IH]; intros [|b x] y L; cbn in *; try discriminate; auto. f_equal. apply IH. lia. Qed.
Lemma omap_concat {A B} (f : A -> option (list B)) l ll x : omap f l = Some ll -> (In x (concat ll) <-> exists a y, In a l /\ f a = Some y /\ In x y).
Proof.
  intros E. rewrite in_concat. split.
  - intros (y & I & J). destruct (omap_in _ _ _ _ E I) as (a & Ia & Ea). eauto 6.
  - intros (a & y & Ia & Ea & J). destruct (omap_in' _ _ _ _ E Ia) as (y' & I & Ea'). rewrite Ea in Ea'. injection Ea' as <-. eauto.
Qed.
Lemma combine_seq_nth {A} (l : list A) : forall k i x, In (i, x) (combine (seq k (length l)) l) <-> k <= i /\ nth_error l (i - k) = Some x.
Proof.
  induction l as [|a l IH]; intros k i x; cbn [length seq combine]; [split; [intros []|intros [_ H]; destruct (i - k); discriminate]|]. cbn [In]. rewrite IH. split.
  - intros [[= -> ->]|[L E]]; [rewrite Nat.sub_diag; auto|]. split; [lia|]. replace (i - k) with (S (i - S k)) by lia. exact E.
  - intros [L E]. destruct (i - k) as [|n] eqn:Q; [left; cbn in E; assert (i = k) by lia; congruence|right]. split; [lia|]. replace (i - S k) with n by lia. exact E.
Qed.

Lemma map_const_seq {A} (x : A) k : forall a, map (fun _ => x) (seq a k) = repeat x k.
Proof. induction k as [|k IH]; intros a; cbn; [reflexivity|]. now rewrite IH. Qed.

Section Ops.
  Variables (P : problem) (V : list (nat * nat)) (S : sproblem) (pgb : nat) (c : list (option (nat * nat))).
  Hypotheses (WF : wf_problem P) (IV : intervals 0 V (p_nfacts P)) (NV : V <> []) (SP : sp_ok P V S).
  Hypotheses (OV : one_value_reach P V) (PF : prec_functional P V) (SE : single_effects P V).
  Hypotheses (LO : listed_in_order P) (AF : actions_first P) (LA : leading_agree P V) (PG : 1 <= pgb).
  Hypothesis EC : conv_array (tvars P S pgb) = Some c.
  Notation W := (sp_var S).
  Notation nV := (length (sp_var S)).
  Notation tv := (tvars P S pgb).
  Notation cv := (conv c).
  Notation reached := (reached P).
  Notation sim := (sim P V S).

  Lemma head_int : intervals 0 W (head0 S).
  Proof. destruct (so_int _ _ _ SP) as (n & I). assert (X := nbits_intervals _ _ I). unfold nbits in X. unfold head0. rewrite X. exact I. Qed.
  Lemma task_int k : forall a, intervals (task0 P S pgb a) (map (fun j => (task0 P S pgb j, task0 P S pgb j + ntasks P)) (seq a k)) (task0 P S pgb (a + k)).
  Proof.
    induction k as [|k IH]; intros a; cbn [seq map intervals fst snd]; [f_equal; lia|]. split; [reflexivity|]. split; [lia|]. replace (Datatypes.S (task0 P S pgb a + ntasks P)) with (task0 P S pgb (Datatypes.S a)) by (unfold task0; lia).
    replace (a + Datatypes.S k) with (Datatypes.S a + k) by lia. apply IH.
  Qed.
  Lemma tv_int : intervals 0 tv (task0 P S pgb pgb).
  Proof.
    unfold tvars. apply intervals_app. exists (head0 S). split; [apply head_int|]. cbn [app intervals fst snd]. split; [reflexivity|]. split; [lia|].
    replace (Datatypes.S (head0 S + pgb)) with (task0 P S pgb 0) by (unfold task0; lia). apply (task_int pgb 0).
  Qed.
  Lemma CVI' b i d : cv b = Some (i, d) <-> fact_of tv i d b.
  Proof. exact (conv_ok _ _ _ tv_int EC b i d). Qed.
  Lemma CVW b i d : i < nV -> (cv b = Some (i, d) <-> fact_of W i d b).
  Proof. intros L. rewrite CVI'. unfold tvars. now apply fact_of_app. Qed.
  Lemma cv_head h : h <= pgb -> cv (head0 S + h) = Some (nV, h).
  Proof. intros L. apply CVI'. exists (head0 S), (head0 S + pgb). split; [|lia]. unfold tvars. rewrite nth_error_app2 by lia. now rewrite Nat.sub_diag. Qed.
  Lemma cv_task j x : j < pgb -> x <= ntasks P -> cv (task0 P S pgb j + x) = Some (nV + (1 + j), x).
  Proof.
    intros L Lx. apply CVI'. exists (task0 P S pgb j), (task0 P S pgb j + ntasks P). split; [|lia]. unfold tvars. rewrite nth_error_app2 by lia. replace (nV + (1 + j) - nV) with (Datatypes.S j) by lia. cbn [app nth_error].
    rewrite nth_error_map, (nth_error_nth' _ 0) by (rewrite seq_length; lia). now rewrite seq_nth.
  Qed.

  Lemma s0_conv : exists i1, omap cv (sp_s0 S) = Some i1 /\ rep V (initial_state P) (map snd i1).
  Proof. exact (s0_rep P V S IV SP OV cv CVW). Qed.

  Lemma prim_act t : primitive P t -> t < length (p_cost P). Proof. apply (wf_prim P WF). Qed.

  Definition prim_macro (l : list nat) : option (option (list nat * list nat)) := match l with [] => Some (Some ([], [])) | _ => macro c S l end.
  Lemma prim_macro_ok l : (forall t, In t l -> t < length (p_cost P)) ->
    exists r, prim_macro l = Some r /\
      match r with
      | None => forall s v, reached s -> rep V s v -> ~ executable P s l
      | Some (ps, es) => exists pp ee, omap cv ps = Some pp /\ omap cv es = Some ee /\ sim l pp ee
      end.
  Proof.
    intros H. destruct s0_conv as (i1 & _ & R0). assert (V0 := rep_valid P V S SP _ _ R0). destruct l as [|t [|t' l]].
    - exists (Some ([], [])). split; [reflexivity|]. exists [], []. split; [reflexivity|]. split; [reflexivity|]. apply sim_nil.
    - cbn [prim_macro macro]. destruct (act_lists P V S WF SP t) as (p & a & Ep & Ea); [apply H; now left|]. rewrite Ep, Ea. cbn [obind]. exists (Some (p, a)). split; [reflexivity|]. now apply (sim_act P V S IV SP OV PF SE cv CVW).
    - set (l0 := t :: t' :: l) in *. assert (E : exists L, omap (tag_act S cv) l0 = Some L). { apply omap_some. intros u I. apply (tag_act_some P V S WF SP cv CVW). auto. } destruct E as (L & E).
      exists (scan_all (seq 0 nV) L). split.
      + transitivity (L <- omap (tag_act S cv) l0 ;; Some (scan_all (seq 0 nV) L)); [reflexivity|]. rewrite E. reflexivity.
      + destruct (scan_all (seq 0 nV) L) as [[ps es]|] eqn:Q.
        * eapply (sim_seq P V S IV SP OV PF SE cv CVW); eauto.
        * eapply (sim_none P V S IV SP OV PF SE cv CVW); eauto.
  Qed.

  (** ** What an operator does *)
  Definition act_like (i j : nat) (o : fd_op) : Prop := exists pp ee, sim [i] pp ee /\
    o = write_op (pp ++ [(nV + (1 + j), 1 + i); (nV, 1 + j)]) (ee ++ [(nV + (1 + j), 0); (nV, j)]) (cost_of P i).
  Definition meth_like (i j : nat) (prims : list nat) (o : fd_op) : Prop := exists m rest, nth_error (p_methods P) i = Some m /\ m_subs m = prims ++ rest /\ leading P m prims /\ length rest + j <= pgb /\
    ((exists pp ee, sim prims pp ee /\
        o = write_op ([(nV, 1 + j); (nV + (1 + j), m_task m + 1)] ++ pp) (map (shift nV) (push j rest) ++ ee) (plan_cost P prims)) \/
     (o = {| f_prev := []; f_eff := []; f_cost := 1 |} /\ forall s v, reached s -> rep V s v -> ~ executable P s prims)).
  Definition name_like (i j : nat) (subs prims : list nat) : Prop := exists m rest, nth_error (p_methods P) i = Some m /\ m_subs m = prims ++ rest /\
    reorder (p_prim P) m = Some (rev (m_subs m), length prims) /\ subs = if length rest =? 0 then [] else map (fun k => j + k) (seq 0 (length rest)).
  Definition op_like (n : oname) (o : fd_op) : Prop :=
    match n with
    | NPrim i j => j < pgb /\ i < length (p_cost P) /\ act_like i j o
    | NMeth i j subs prims => j < pgb /\ meth_like i j prims o /\ name_like i j subs prims
    end.

  Lemma write_act i j p a : j < pgb -> i < length (p_cost P) -> get (sp_prec S) i = Some p -> get (sp_add S) i = Some a ->
    exists o, write_top c S (act_op P S pgb i p a (cost_of P i) j) = Some o /\ act_like i j o.
  Proof.
    intros Lj Li Ep Ea. destruct (sim_act P V S IV SP OV PF SE cv CVW i p a Ep Ea) as (pp & ee & E1 & E2 & SM). assert (Lt : i < ntasks P). { apply AF in Li. apply nth_error_Some. unfold primitive in Li. congruence. }
    assert (A1 : omap cv [task0 P S pgb j + 1 + i; head0 S + 1 + j] = Some [(nV + (1 + j), 1 + i); (nV, 1 + j)]).
    { cbn [omap]. replace (task0 P S pgb j + 1 + i) with (task0 P S pgb j + (1 + i)) by lia. rewrite (cv_task j (1 + i)) by lia. replace (head0 S + 1 + j) with (head0 S + (1 + j)) by lia. rewrite (cv_head (1 + j)) by lia. reflexivity. }
    assert (A2 : omap cv [task0 P S pgb j; head0 S + j] = Some [(nV + (1 + j), 0); (nV, j)]).
    { cbn [omap]. assert (X := cv_task j 0 Lj ltac:(lia)). rewrite Nat.add_0_r in X. rewrite X. rewrite (cv_head j) by lia. reflexivity. }
    unfold write_top, act_op. cbn [o_name o_prec o_add o_cost obind]. rewrite !app_nil_r, !omap_app, E1, E2, A1, A2. cbn [obind].
    eexists. split; [reflexivity|]. exists pp, ee. split; auto.
  Qed.

  Lemma push_conv j l : forall a, j + a + length l <= pgb -> (forall t, In t l -> t < ntasks P) ->
    omap cv (map (fun kt => task0 P S pgb (j + fst kt) + 1 + snd kt) (combine (seq a (length l)) l)) = Some (map (shift nV) (combine (seq (1 + j + a) (length l)) (map Datatypes.S l))).
  Proof.
    induction l as [|t l IH]; intros a L Ht; [reflexivity|]. cbn [length seq combine map omap fst snd]. cbn [length] in L. rewrite <- Nat.add_assoc. rewrite (cv_task (j + a) (1 + t)); [|lia|assert (X := Ht t (or_introl eq_refl)); lia]. cbn [obind].
    rewrite IH; [|lia|intros; apply Ht; now right]. cbn [obind]. unfold shift at 3. cbn [fst snd]. replace (1 + j + Datatypes.S a) with (Datatypes.S (1 + j + a)) by lia. reflexivity.
  Qed.

  Lemma costs l : (forall t, In t l -> t < length (p_cost P)) -> omap (get (p_cost P)) l = Some (map (cost_of P) l).
  Proof.
    induction l as [|t l IH]; intros H; [reflexivity|]. cbn [omap map]. unfold get at 1. rewrite (nth_error_nth' _ 0) by (apply H; now left). cbn [obind]. rewrite IH by (intros; apply H; now right). reflexivity.
  Qed.

  Lemma meth_lead i m : nth_error (p_methods P) i = Some m -> exists prims rest, m_subs m = prims ++ rest /\ leading P m prims /\ reorder (p_prim P) m = Some (rev (m_subs m), length prims).
  Proof.
    intros E. assert (I := nth_error_In _ _ E). assert (WM := wf_methods P WF m I). destruct (lead_some (p_prim P) (m_subs m) (wfm_subs P m WM)) as (f & Ef). destruct (lead_spec P _ _ Ef) as (A & B & C).
    exists (firstn f (m_subs m)), (skipn f (m_subs m)). split; [symmetry; apply firstn_skipn|]. split.
    - exists (skipn f (m_subs m)). split; [symmetry; apply firstn_skipn|]. auto.
    - rewrite firstn_length, Nat.min_l by lia. apply (reorder_in_order (p_prim P) m (length (m_subs m)) eq_refl); auto; try apply WM.
  Qed.

  Lemma meth_op_ok i m j prims rest : nth_error (p_methods P) i = Some m -> m_subs m = prims ++ rest -> leading P m prims ->
    exists o, meth_op P S pgb i m (rev (m_subs m)) (length prims) j = Some o /\ o_name o = NMeth i j (if length rest =? 0 then [] else map (fun k => j + k) (seq 0 (length rest))) prims /\
      o_ok o = (length rest + j <=? pgb) /\
      (j < pgb -> length rest + j <= pgb -> exists f, write_top c S o = Some f /\ meth_like i j prims f).
  Proof.
    intros E Es LD. assert (I := nth_error_In _ _ E). assert (WM := wf_methods P WF m I). unfold meth_op. rewrite rev_involutive, Es, firstn_app, Nat.sub_diag, firstn_O, app_nil_r, firstn_all. 
    assert (PA : forall t, In t prims -> t < length (p_cost P)). { destruct LD as (r & _ & H & _). intros t It. apply prim_act. auto. }
    rewrite (costs prims PA). cbn [obind]. rewrite rev_length, app_length. replace (length prims + length rest - length prims) with (length rest) by lia. eexists. split; [reflexivity|]. cbn [o_name o_ok]. split; [reflexivity|]. split; [reflexivity|].
    intros Lj Lr. unfold write_top. cbn [o_name o_prec o_add o_cost]. destruct (prim_macro_ok prims PA) as (r & Er & Hr). fold (prim_macro prims). rewrite Er. cbn [obind]. destruct r as [[ps es]|].
    2: { eexists. split; [reflexivity|]. exists m, rest. repeat split; auto. }
    destruct Hr as (pp & ee & E1 & E2 & SM). rewrite !omap_app, E1, E2.
    assert (Lt : m_task m < ntasks P). { apply nth_error_Some. rewrite (wfm_task P m WM). discriminate. }
    assert (A1 : omap cv [head0 S + 1 + j; task0 P S pgb j + (m_task m + 1)] = Some [(nV, 1 + j); (nV + (1 + j), m_task m + 1)]).
    { cbn [omap]. replace (head0 S + 1 + j) with (head0 S + (1 + j)) by lia. rewrite (cv_head (1 + j)) by lia. rewrite (cv_task j (m_task m + 1)) by lia. reflexivity. }
    rewrite A1. cbn [obind].
    assert (RT : forall t, In t (rev rest) -> t < ntasks P). { intros t It. apply in_rev in It. apply (wfm_subs P m WM). rewrite Es. apply in_or_app. now right. }
    assert (A2 : omap cv match length rest with
                     | 0 => [head0 S + j; task0 P S pgb j]
                     | 1 => map (fun t => task0 P S pgb j + 1 + t) (firstn 1 (rev (prims ++ rest)))
                     | _ => map (fun kt => task0 P S pgb (j + fst kt) + 1 + snd kt) (combine (seq 0 (length rest)) (rev (prims ++ rest))) ++ [head0 S + j + length rest]
                     end = Some (map (shift nV) (push j rest))).
    { rewrite rev_app_distr. assert (X := push_conv j (rev rest) 0). rewrite rev_length in X. unfold push. destruct rest as [|r0 [|r1 rest]].
      - cbn [length omap map shift fst snd]. rewrite (cv_head j) by lia. assert (Y := cv_task j 0 Lj ltac:(lia)). rewrite Nat.add_0_r in Y. rewrite Y. cbn [obind]. unfold shift. cbn [fst snd]. rewrite Nat.add_0_r. reflexivity.
      - cbn [length rev app firstn map omap]. rewrite <- Nat.add_assoc. rewrite (cv_task j (1 + r0)); [reflexivity|lia|]. assert (Y := RT r0 ltac:(cbn; auto)). lia.
      - set (R := r0 :: r1 :: rest) in *. change (length R) with (Datatypes.S (Datatypes.S (length rest))) at 1. cbv iota. change (length R) with (Datatypes.S (Datatypes.S (length rest))) at 3. cbv iota.
        rewrite combine_app_l by (rewrite seq_length, rev_length; auto). rewrite omap_app, X by (auto; lia). cbn [obind omap]. rewrite <- Nat.add_assoc. rewrite (cv_head (j + length R)) by lia. cbn [obind].
        rewrite map_app. cbn [map]. unfold shift at 3. cbn [fst snd]. rewrite !Nat.add_0_r. reflexivity. }
    rewrite A2. cbn [obind]. eexists. split; [reflexivity|]. exists m, rest. split; auto. split; auto. split; auto. split; auto. left. exists pp, ee. split; auto.
  Qed.

  Lemma acts_ok : exists l, act_ops P S pgb = Some l /\ forall o, In o l <-> exists i j p a, i < length (p_cost P) /\ j < pgb /\ get (sp_prec S) i = Some p /\ get (sp_add S) i = Some a /\ o = act_op P S pgb i p a (cost_of P i) j.
  Proof.
    unfold act_ops. set (f := fun i => p <- get (sp_prec S) i ;; a <- get (sp_add S) i ;; c <- get (p_cost P) i ;; Some (map (act_op P S pgb i p a c) (seq 0 pgb))). assert (D : forall i, i < length (p_cost P) -> exists p a, get (sp_prec S) i = Some p /\ get (sp_add S) i = Some a /\ f i = Some (map (act_op P S pgb i p a (cost_of P i)) (seq 0 pgb))).
    { intros i Li. destruct (act_lists P V S WF SP i Li) as (p & a & Ep & Ea). exists p, a. split; auto. split; auto. unfold f. rewrite Ep, Ea. cbn [obind]. unfold get. rewrite (nth_error_nth' _ 0) by exact Li. reflexivity. }
    destruct (omap_some f (seq 0 (length (p_cost P)))) as (ll & E). { intros i I. apply in_seq in I. destruct (D i) as (p & a & _ & _ & X); [lia|]. eauto. }
    rewrite E. cbn [obind]. exists (concat ll). split; [reflexivity|]. intros o. rewrite (omap_concat _ _ _ _ E). split.
    - intros (i & y & I & Ey & J). apply in_seq in I. destruct (D i) as (p & a & Ep & Ea & X); [lia|]. rewrite X in Ey. injection Ey as <-. apply in_map_iff in J as (j & <- & Ij). apply in_seq in Ij. exists i, j, p, a. repeat split; auto; lia.
    - intros (i & j & p & a & Li & Lj & Ep & Ea & ->). destruct (D i Li) as (p' & a' & Ep' & Ea' & X). rewrite Ep in Ep'. rewrite Ea in Ea'. injection Ep' as <-. injection Ea' as <-. exists i. eexists. split; [apply in_seq; lia|]. split; [exact X|]. apply in_map. apply in_seq. lia.
  Qed.

  Lemma meths_ok : exists l, meth_ops P S pgb = Some l /\ forall o, In o l <-> exists i m j prims rest, nth_error (p_methods P) i = Some m /\ m_subs m = prims ++ rest /\ leading P m prims /\ reorder (p_prim P) m = Some (rev (m_subs m), length prims) /\
    j < pgb /\ meth_op P S pgb i m (rev (m_subs m)) (length prims) j = Some o.
  Proof.
    unfold meth_ops. set (f := fun im => '(s, f) <- reorder (p_prim P) (snd im) ;; omap (meth_op P S pgb (fst im) (snd im) s f) (seq 0 pgb)).
    assert (D : forall i m, nth_error (p_methods P) i = Some m -> exists prims rest l, m_subs m = prims ++ rest /\ leading P m prims /\ reorder (p_prim P) m = Some (rev (m_subs m), length prims) /\ f (i, m) = Some l /\
      forall o, In o l <-> exists j, j < pgb /\ meth_op P S pgb i m (rev (m_subs m)) (length prims) j = Some o).
    { intros i m E. destruct (meth_lead i m E) as (prims & rest & Es & LD & RO). unfold f. cbn [fst snd]. rewrite RO. cbn [obind].
      destruct (omap_some (meth_op P S pgb i m (rev (m_subs m)) (length prims)) (seq 0 pgb)) as (l & El). { intros j _. destruct (meth_op_ok i m j prims rest E Es LD) as (o & X & _). eauto. }
      exists prims, rest, l. repeat split; auto.
      - intros I. destruct (omap_in _ _ _ _ El I) as (j & Ij & X). apply in_seq in Ij. exists j. split; [lia|exact X].
      - intros (j & Lj & X). destruct (omap_in' _ _ _ j El) as (o' & I & X'); [apply in_seq; lia|]. congruence. }
    destruct (omap_some f (combine (seq 0 (length (p_methods P))) (p_methods P))) as (ll & E). { intros [i m] I. apply combine_seq_nth in I as [_ I]. rewrite Nat.sub_0_r in I. destruct (D i m I) as (pr & rs & l & Y1 & Y2 & Y3 & X & Y4). eauto. }
    rewrite E. cbn [obind]. exists (concat ll). split; [reflexivity|]. intros o. rewrite (omap_concat _ _ _ _ E). split.
    - intros ([i m] & y & I & Ey & J). apply combine_seq_nth in I as [_ I]. rewrite Nat.sub_0_r in I. destruct (D i m I) as (prims & rest & l & Es & LD & RO & X & Y). rewrite X in Ey. injection Ey as <-. destruct (proj1 (Y _) J) as (j & Lj & Ho). exists i, m, j, prims, rest. auto 10.
    - intros (i & m & j & prims & rest & Em & Es & LD & RO & Lj & Ho). destruct (D i m Em) as (prims' & rest' & l & Es' & LD' & RO' & X & Y). exists (i, m), l. split; [apply combine_seq_nth; rewrite Nat.sub_0_r; split; [lia|auto]|]. split; auto. apply Y. exists j. split; auto.
      rewrite RO in RO'. injection RO' as RO'. rewrite <- RO'. exact Ho.
  Qed.

  Theorem task_ok : exists ops T v0, top_ops P S pgb = Some ops /\ write_task P S pgb ops = Some T /\
    rep V (initial_state P) v0 /\ fd_init T = v0 ++ stv pgb [p_init P] /\
    (forall i d, In (i, d) (fd_goal T) <-> (exists e, In e (sp_goal S) /\ fact_of W i d e) \/ (i = nV /\ d = 0)) /\
    (forall n o, In (n, o) (fd_ops T) -> op_like n o) /\
    (forall i j, i < length (p_cost P) -> j < pgb -> exists o, In (NPrim i j, o) (fd_ops T)) /\
    (forall i m, nth_error (p_methods P) i = Some m -> exists prims rest, m_subs m = prims ++ rest /\ leading P m prims /\
       forall j, j < pgb -> length rest + j <= pgb -> exists subs o, In (NMeth i j subs prims, o) (fd_ops T)).
  Proof.
    destruct acts_ok as (la & Ea & Ha). destruct meths_ok as (lm & Em & Hm). exists (la ++ lm). unfold top_ops, write_task. rewrite Ea, Em, EC. cbn [obind].
    destruct s0_conv as (i1 & E1 & R0). rewrite E1. cbn [obind].
    assert (Lt : p_init P < ntasks P). { apply nth_error_Some. rewrite (wf_init P WF). discriminate. }
    assert (E2 : omap cv (ts0 P S pgb) = Some ((nV, 1) :: (nV + 1, 1 + p_init P) :: map (fun j => (nV + (1 + j), 0)) (seq 1 (pgb - 1)))).
    { unfold ts0. cbn [app omap]. rewrite (cv_head 1) by lia. cbn [obind]. replace (task0 P S pgb 0 + p_init P + 1) with (task0 P S pgb 0 + (1 + p_init P)) by lia. rewrite (cv_task 0 (1 + p_init P)) by lia. cbn [obind].
      assert (X : forall k a, a + k <= pgb -> omap cv (map (task0 P S pgb) (seq a k)) = Some (map (fun j => (nV + (1 + j), 0)) (seq a k))).
      { induction k as [|k IH]; intros a L; [reflexivity|]. cbn [seq map omap]. assert (X := cv_task a 0 ltac:(lia) ltac:(lia)). rewrite Nat.add_0_r in X. rewrite X. cbn [obind]. rewrite IH by lia. reflexivity. }
      rewrite X by lia. reflexivity. }
    rewrite E2. cbn [obind].
    assert (GF : forall e, In e (sp_goal S) -> exists i d, fact_of W i d e).
    { intros e I. assert (F := so_goal _ _ _ SP). clear - F I. induction F as [|x y l l' (i & d & _ & R) F IH]; [destruct I|]. destruct I as [->|I]; eauto. }
    destruct (omap_cv S cv CVW (sp_goal S) GF) as (g1 & Eg & Hg). rewrite Eg. cbn [obind]. assert (EG2 : omap cv (tgoal S) = Some [(nV, 0)]) by (unfold tgoal; cbn [omap]; assert (X := cv_head 0 ltac:(lia)); rewrite Nat.add_0_r in X; rewrite X; reflexivity). rewrite EG2. cbn [obind].
    set (fw := fun o => f <- write_top c S o ;; Some (o_name o, f)).
    assert (D : forall o, In o (la ++ lm) -> o_ok o = true -> exists f, write_top c S o = Some f /\ op_like (o_name o) f).
    { intros o I K. apply in_app_or in I as [I|I].
      - apply Ha in I as (i & j & p & a & Li & Lj & Ep & Ea' & ->). destruct (write_act i j p a Lj Li Ep Ea') as (f & X & Y). exists f. split; auto. cbn. auto.
      - apply Hm in I as (i & m & j & prims & rest & En & Es & LD & RO & Lj & Ho). destruct (meth_op_ok i m j prims rest En Es LD) as (o' & X & Y & Z & G). rewrite Ho in X. injection X as <-. rewrite Z in K. apply Nat.leb_le in K. destruct (G Lj K) as (f & Ef & ML). exists f. split; auto. rewrite Y. cbn [op_like]. split; auto. split; auto. exists m, rest. auto. }
    destruct (omap_some fw (filter o_ok (la ++ lm))) as (fs & Ef). { intros o I. apply filter_In in I as [I K]. destruct (D o I K) as (f & X & _). unfold fw. rewrite X. cbn. eauto. }
    rewrite Ef. cbn [obind]. eexists. exists (map snd i1). split; [reflexivity|]. split; [reflexivity|]. cbn [fd_init fd_goal fd_ops]. split; [exact R0|]. split; [|split; [|split; [|split]]].
    - rewrite map_app. f_equal. cbn [map snd]. unfold stv. cbn [length rev app map]. f_equal. f_equal. rewrite map_map. cbn [snd]. apply map_const_seq.
    - intros i d. rewrite in_app_iff, Hg. cbn [In]. split; intros [X|X]; auto; [destruct X as [[= <- <-]|[]]; auto|destruct X as [-> ->]; auto].
    - intros n o I. destruct (omap_in _ _ _ _ Ef I) as (t & It & Et). apply filter_In in It as [It K]. unfold fw in Et. apply obind_some in Et as (f & Ew & Et). injection Et as <- <-. destruct (D t It K) as (f' & X & Y). congruence.
    - intros i j Li Lj. destruct (act_lists P V S WF SP i Li) as (p & a & Ep & Ea'). set (t := act_op P S pgb i p a (cost_of P i) j).
      assert (It : In t (filter o_ok (la ++ lm))). { apply filter_In. split; [|reflexivity]. apply in_or_app. left. apply Ha. exists i, j, p, a. repeat split; auto. }
      destruct (omap_in' _ _ _ _ Ef It) as ([n o] & I & X). unfold fw in X. apply obind_some in X as (f & _ & X). injection X as <- <-. exists f. exact I.
    - intros i m En. destruct (meth_lead i m En) as (prims & rest & Es & LD & RO). exists prims, rest. split; auto. split; auto. intros j Lj Lr. destruct (meth_op_ok i m j prims rest En Es LD) as (t & X & Y & Z & G).
      assert (It : In t (filter o_ok (la ++ lm))). { apply filter_In. split; [|rewrite Z; now apply Nat.leb_le]. apply in_or_app. right. apply Hm. exists i, m, j, prims, rest. repeat split; auto. }
      destruct (omap_in' _ _ _ _ Ef It) as ([n o] & I & X'). unfold fw in X'. apply obind_some in X' as (f & _ & X'). injection X' as <- <-. rewrite Y in I. eauto.
  Qed.
End Ops.
