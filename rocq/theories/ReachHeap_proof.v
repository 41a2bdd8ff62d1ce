(** The graph of tasks, and the reachable tasks of plan steps. *)
From Coq Require Import Relations.
From Verif Require Import Base Rel Htn_model Htn_spec Htn_sem Htn_rep Scc_spec Scc_model Tab_proof Scc_proof Reach_proof.

(** ** The graph of tasks *)
Lemma task_graph_len P : length (task_graph P) = length (p_prim P).
Proof. unfold task_graph. now rewrite map_length, seq_length. Qed.

Lemma task_edge P t t' : t < length (p_prim P) ->
  Scc_spec.edge (task_graph P) t t' <-> exists m, In m (p_methods P) /\ m_task m = t /\ In t' (m_subs m).
Proof.
  intros L. unfold Scc_spec.edge, task_graph. split.
  - intros (ns & E & I). rewrite nth_error_map in E. destruct (nth_error (seq 0 (length (p_prim P))) t) as [t0|] eqn:E0; [|discriminate].
    apply nth_error_nth with (d := 0) in E0. rewrite seq_nth in E0 by auto. cbn in E0. subst t0. injection E as <-.
    apply in_flat_map in I as (i & Hi & I). unfold task_to_methods in Hi. apply filter_In in Hi as [_ Hi].
    destruct (nth_error (p_methods P) i) as [m|] eqn:Em; [|easy]. exists m. split; [eapply nth_error_In; eauto|].
    apply Nat.eqb_eq in Hi. auto.
  - intros (m & Hm & Et & I). eexists. split.
    + rewrite nth_error_map. rewrite nth_error_nth' with (d := 0) by (now rewrite seq_length). rewrite seq_nth by auto. reflexivity.
    + apply In_nth_error in Hm as (i & Hi). apply in_flat_map. exists i. split.
      * unfold task_to_methods. apply filter_In. split; [apply in_seq; assert (i < length (p_methods P)) by (apply nth_error_Some; congruence); lia|].
        rewrite Hi. now apply Nat.eqb_eq.
      * now rewrite Hi.
Qed.

Lemma task_graph_wf P : wf_problem P -> graph_wf (task_graph P).
Proof.
  intros W v w E. assert (L : v < length (p_prim P)).
  { destruct E as (ns & E & _). rewrite <- task_graph_len. apply nth_error_Some. congruence. }
  apply task_edge in E as (m & Hm & _ & I); auto. rewrite task_graph_len. eapply wfm_subs; eauto. eapply wf_methods; eauto.
Qed.

(** The network of a single task [t] with address [x]. *)
Definition single (x : tid) (t : nat) : tnet := {| t_in := fun y => y = x; t_lab := fun _ => t; t_ord := fun _ _ => False |}.

Lemma refines_labels P tn tn' : wf_problem P -> (forall x, t_in tn x -> t_lab tn x < length (p_prim P)) -> refines P tn tn' ->
  forall y, t_in tn' y -> exists x, t_in tn x /\ reach (task_graph P) (t_lab tn x) (t_lab tn' y).
Proof.
  intros WP L R. induction R as [tn|tn x m tn' tn'' D R IH]; intros y Hy.
  - exists y. split; auto. constructor.
  - assert (NEW : forall z, t_in tn' z -> exists u, t_in tn u /\ reach (task_graph P) (t_lab tn u) (t_lab tn' z)).
    { intros z Hz. apply (d_in' _ _ _ _ _ D) in Hz as [[Hz N]|(j & Lj & ->)].
      - exists z. split; auto. rewrite (d_lab_old _ _ _ _ _ D z Hz N). constructor.
      - destruct (nth_error (m_subs m) j) as [t|] eqn:Et; [|apply nth_error_None in Et; lia].
        rewrite (d_lab_new _ _ _ _ _ D j t Et). exists x. split; [apply D|]. apply reach_edge. apply task_edge.
        + apply L. apply D.
        + exists m. split; [apply D|]. split; [symmetry; apply D|]. eapply nth_error_In; eauto. }
    assert (L' : forall z, t_in tn' z -> t_lab tn' z < length (p_prim P)).
    { intros z Hz. destruct (NEW z Hz) as (u & Hu & Ru). assert (Q := L u Hu). rewrite <- task_graph_len in Q |- *.
      apply reach_closed1 with (B := fun q => q < length (task_graph P)) in Ru; auto. intros a b _ E. eapply task_graph_wf; eauto. }
    destruct (IH L' y Hy) as (z & Hz & Rz). destruct (NEW z Hz) as (u & Hu & Ru). exists u. split; auto. eapply reach_trans; eauto.
Qed.

Lemma reach_refines P t t' : wf_problem P -> t < length (p_prim P) -> reach (task_graph P) t t' ->
  forall tn x, wf_tn tn -> t_in tn x -> t_lab tn x = t -> exists tn' y, refines P tn tn' /\ t_in tn' y /\ t_lab tn' y = t'.
Proof.
  intros WP L R. induction R as [v|u v w E R IH]; intros tn x W I Lb.
  - exists tn, x. split; [constructor|auto].
  - assert (E' := E). apply task_edge in E' as (m & Hm & Et & Hv); auto. apply In_nth_error in Hv as (j & Hj).
    assert (D : decomposes P tn x m (decF tn x m)) by (apply decF_decomposes; auto; congruence).
    destruct (IH) with (tn := decF tn x m) (x := x ++ [j]) as (tn' & y & R1 & R2 & R3).
    + rewrite <- task_graph_len. eapply task_graph_wf; eauto.
    + eapply decomposes_wf; eauto. eapply wfm_acyclic. eapply wf_methods; eauto.
    + apply (d_in' _ _ _ _ _ D). right. exists j. split; auto. apply nth_error_Some. congruence.
    + apply (d_lab_new _ _ _ _ _ D). auto.
    + exists tn', y. split; auto. econstructor; eauto.
Qed.

(** ** Plan steps *)
Section Heap.
  Variable P : problem.
  Hypothesis WP : wf_problem P.
  Variable last : nat.
  Variable R : list (option (list nat)).
  Notation G := (task_graph P).
  Hypothesis RT : forall v, v < length G -> exists r, get R v = Some (Some r) /\ Reach_proof.asc r /\ forall t, In t r <-> t < last /\ reach G v t.
  Variable h : list pstep.
  Hypothesis WH : wf_heap P h.

  (** The tasks reachable from the names of plan step [i] and of the steps behind it. *)
  Definition behind i t := exists j ps, rtc h i j /\ get h j = Some ps /\ reach G (ps_task ps) t.
  Definition row_ok i (r : list nat) := NoDup r /\ forall t, In t r <-> t < last /\ behind i t.
  Definition memo_ok (M : list (option (list nat))) := length M = length h /\ forall i r, get M i = Some (Some r) -> row_ok i r.
  Definition keeps (M M' : list (option (list nat))) := forall i r, get M i = Some (Some r) -> exists r', get M' i = Some (Some r').

  Lemma iset_fold l : (forall t, In t l -> t < last) -> forall s, NoDup s ->
    exists s', ofold (iset_insert last) l s = Some s' /\ NoDup s' /\ forall t, In t s' <-> In t s \/ In t l.
  Proof using.
    induction l as [|a l IH]; intros HL s ND; cbn.
    - exists s. split; auto. split; auto. tauto.
    - unfold iset_insert at 1. assert (La : a < last) by (apply HL; now left). apply Nat.ltb_lt in La. rewrite La. cbn.
      destruct (IH) with (s := set_insert s a) as (s' & E & N & I).
      + intros; apply HL; now right.
      + unfold set_insert. destruct (memb a s) eqn:M; auto. apply memb_false in M. apply nodup_app_iff. split; auto. split; [constructor; [easy|constructor]|].
        intros x H1 [<-|[]]. auto.
      + exists s'. split; auto. split; auto. intros t. rewrite I. unfold set_insert. destruct (memb a s) eqn:M.
        * apply memb_In in M. split; [tauto|]. intros [H|[->|H]]; auto.
        * rewrite in_app_iff. cbn. tauto.
  Qed.

  Lemma behind_step i ps t : get h i = Some ps -> behind i t <-> reach G (ps_task ps) t \/ exists j, In j (ps_succ ps) /\ behind j t.
  Proof using.
    intros E. split.
    - intros (j & ps' & H1 & H2 & H3). apply clos_rt_rt1n in H1. inversion H1 as [|y z Ey Hy]; subst.
      + left. congruence.
      + right. apply clos_rt1n_rt in Hy. destruct Ey as (ps0 & E0 & I0). assert (ps0 = ps) by congruence. subst. exists y. split; auto.
        exists j, ps'. auto.
    - intros [H|(j & Hj & k & ps' & H1 & H2 & H3)].
      + exists i, ps. split; auto. apply rt_refl.
      + exists k, ps'. split; auto. eapply rt_trans; [|exact H1]. apply rt_step. exists ps. auto.
  Qed.

  Lemma calc_reach_ok : forall fuel M i p, memo_ok M -> i < length h -> NoDup (i :: p) -> (forall a, In a p -> a < length h /\ tc h a i) ->
    (forall j, rtc h i j -> ~ tc h j j) -> length h <= fuel + length p ->
    exists M', calc_reach R last h fuel M i = Some M' /\ memo_ok M' /\ keeps M M' /\ exists r, get M' i = Some (Some r).
  Proof using WP RT WH.
    induction fuel as [|fuel IH]; intros M i p HM Li ND HP AC HF.
    { exfalso. assert (Q : length (i :: p) <= length (seq 0 (length h))).
      { apply NoDup_incl_length; auto. intros x [<-|Hx]; apply in_seq; [lia|]. apply HP in Hx. lia. }
      rewrite seq_length in Q. cbn in Q. lia. }
    cbn [calc_reach]. destruct (get_some h i Li) as (ps & Eps). rewrite Eps. cbn [obind].
    match goal with |- context [ofold ?f (ps_succ ps) M] => set (F := f) end.
    destruct (ofold_prefix F (fun Q M1 => memo_ok M1 /\ keeps M M1 /\ forall j, In j Q -> exists r, get M1 j = Some (Some r)) (ps_succ ps) M) as (M1 & E1 & HM1 & K1 & H1).
    { split; auto. split; [intros j r; eauto|easy]. }
    { intros pre j post M1 EQ (HM1 & K1 & H1). unfold F.
      assert (Ej : Htn_rep.edge h i j). { exists ps. split; auto. rewrite EQ. apply in_or_app; right; now left. }
      assert (Lj : j < length h) by (eapply wh_closed; eauto).
      destruct (get_some M1 j) as (o & Eo); [destruct HM1; lia|]. rewrite Eo. cbn [obind]. destruct o as [r|].
      - exists M1. split; auto. split; auto. split; auto. intros k Hk. apply in_app_or in Hk as [Hk|[<-|[]]]; eauto.
      - assert (Aj : ~ tc h j j). { apply AC. now apply rt_step. }
        destruct (IH M1 j (i :: p)) as (M2 & E2 & HM2 & K2 & r & Er); auto.
        + constructor; auto. intros [<-|Hj]; [apply Aj; now apply t_step|]. apply HP in Hj as [_ Hj]. apply Aj.
          eapply t_trans; [exact Hj|]. now apply t_step.
        + intros a [<-|Ha]; [split; auto; now apply t_step|]. apply HP in Ha as [La Ha]. split; auto. eapply t_trans; [exact Ha|]. now apply t_step.
        + intros k Hk. apply AC. eapply rt_trans; [apply rt_step; exact Ej|exact Hk].
        + cbn. lia.
        + exists M2. split; auto. split; auto. split.
          * intros k rk Hk. destruct (K1 k rk Hk) as (rk' & Hk'). eapply K2; eauto.
          * intros k Hk. apply in_app_or in Hk as [Hk|[<-|[]]]; eauto. destruct (H1 k Hk) as (rk & Hk'). eapply K2; eauto. }
    rewrite E1. cbn [obind].
    match goal with |- context [ofold ?f (ps_succ ps) []] => set (F2 := f) end.
    destruct (ofold_prefix F2 (fun Q s => NoDup s /\ forall t, In t s <-> t < last /\ exists j, In j Q /\ behind j t) (ps_succ ps) []) as (s1 & E2 & N1 & I1).
    { split; [constructor|]. intros t. split; [easy|]. intros (_ & j & [] & _). }
    { intros pre j post s EQ (NS & IS). unfold F2. destruct (H1 j) as (r & Er); [rewrite EQ; apply in_or_app; right; now left|]. rewrite Er. cbn [obind].
      destruct HM1 as [_ HM1]. destruct (HM1 j r Er) as [NR IR].
      destruct (iset_fold r) with (s := s) as (s' & Es & Ns & Is); [intros t Ht; now apply IR in Ht|auto|].
      exists s'. split; auto. split; auto. intros t. rewrite Is, IS, IR. split.
      - intros [(Q1 & k & Q2 & Q3)|(Q1 & Q2)]; (split; auto); [exists k|exists j]; rewrite in_app_iff; cbn; auto.
      - intros (Q1 & k & Q2 & Q3). apply in_app_or in Q2 as [Q2|[<-|[]]]; eauto. }
    rewrite E2. cbn [obind].
    destruct (RT (ps_task ps)) as (r & Er & _ & Ir). { rewrite task_graph_len. eapply wh_task; eauto. } rewrite Er. cbn [obind].
    destruct (iset_fold r) with (s := s1) as (s2 & Es & Ns & Is); [intros t Ht; now apply Ir in Ht|auto|]. rewrite Es. cbn [obind].
    destruct HM1 as [LM1 HM1]. destruct (set_some M1 i (Some s2)) as (M2 & EM); [lia|]. exists M2. split; auto.
    assert (RO : row_ok i s2).
    { split; auto. intros t. rewrite Is, I1, Ir, (behind_step i ps t Eps). split.
      - intros [(Q1 & k & Q2 & Q3)|(Q1 & Q2)]; split; auto. right. eauto.
      - intros (Q1 & [Q2|(k & Q2 & Q3)]); eauto. }
    split; [|split].
    - split; [now rewrite (set_length _ _ _ _ EM)|]. intros j rj Hj. rewrite (get_set_any _ _ _ _ j EM) in Hj.
      destruct (Nat.eqb_spec j i) as [->|N]; [injection Hj as <-; auto|eauto].
    - intros j rj Hj. rewrite (get_set_any _ _ _ _ j EM). destruct (Nat.eqb j i); eauto.
    - exists s2. now rewrite (get_set_any _ _ _ _ i EM), Nat.eqb_refl.
  Qed.

  Lemma update_reach_ok M n s tn pi : memo_ok M -> Rep P h n s tn pi ->
    exists M', update_reach R last h (length h) M n = Some M' /\ memo_ok M' /\ keeps M M' /\
      forall i, In i (heads n) -> exists r, get M' i = Some (Some r) /\ row_ok i r.
  Proof using WP RT WH.
    intros HM RP. unfold update_reach. match goal with |- context [ofold ?f _ M] => set (F := f) end. fold (heads n).
    destruct (ofold_prefix F (fun Q M1 => memo_ok M1 /\ keeps M M1 /\ forall j, In j Q -> exists r, get M1 j = Some (Some r)) (heads n) M) as (M1 & E1 & HM1 & K1 & H1).
    { split; auto. split; [intros j r; eauto|easy]. }
    { intros pre j post M1 EQ (HM1 & K1 & H1). unfold F.
      assert (Hj : In j (heads n)) by (rewrite EQ; apply in_or_app; right; now left).
      assert (Lj : j < length h) by (now apply (r_lt _ _ _ _ _ _ RP)).
      destruct (get_some M1 j) as (o & Eo); [destruct HM1; lia|]. rewrite Eo. cbn [obind]. destruct o as [r|].
      - exists M1. split; auto. split; auto. split; auto. intros k Hk. apply in_app_or in Hk as [Hk|[<-|[]]]; eauto.
      - destruct (calc_reach_ok (length h) M1 j []) as (M2 & E2 & HM2 & K2 & r & Er); auto.
        + constructor; [easy|constructor].
        + easy.
        + intros k Hk. eapply live_acyclic; eauto. exists j. auto.
        + lia.
        + exists M2. split; auto. split; auto. split.
          * intros k rk Hk. destruct (K1 k rk Hk) as (rk' & Hk'). eapply K2; eauto.
          * intros k Hk. apply in_app_or in Hk as [Hk|[<-|[]]]; eauto. destruct (H1 k Hk) as (rk & Hk'). eapply K2; eauto. }
    exists M1. split; auto. split; auto. split; auto. intros i Hi. destruct (H1 i Hi) as (r & Er). exists r. split; auto. destruct HM1 as [_ HM1]. auto.
  Qed.
End Heap.

(** Growing the heap keeps the table correct. *)
Lemma memo_ok_ext P last h e M : wf_heap P h -> memo_ok P last h M -> memo_ok P last (h ++ e) (M ++ repeat None (length e)).
Proof.
  intros W (L & H). split; [rewrite !app_length, repeat_length; lia|]. intros i r E.
  destruct (Nat.ltb_spec i (length M)) as [LT|GE].
  - rewrite get_app_l in E by auto. destruct (H i r E) as [N I]. split; auto. intros t. rewrite I.
    assert (BE : behind P (h ++ e) i t <-> behind P h i t); [|now rewrite BE]. unfold behind. split; intros (j & ps & H1 & H2 & H3).
    + apply (rtc_ext P h e i j W) in H1; [|lia]. rewrite get_app_l in H2 by (eapply rtc_lt; eauto; lia). eauto.
    + exists j, ps. split; [apply (rtc_ext P h e i j W); auto; lia|]. split; auto. rewrite get_app_l; auto. eapply get_lt; eauto.
  - exfalso. unfold get in E. rewrite nth_error_app2 in E by auto. apply nth_error_In in E. apply repeat_spec in E. discriminate.
Qed.
