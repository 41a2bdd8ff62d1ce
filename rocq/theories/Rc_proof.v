(** Proofs about the relaxed-composition heuristic (properties C34, C58, C59). *)
From Coq Require Import Relations Sorted.
From Verif Require Import Base Rel Htn_model Htn_spec Htn_sem Htn_rep Htn_proof Htn_history Htn_search Htn_hist Htn_thm.
From Verif Require Import Arr IntUtil_model IntUtil_proof Tab_model Tab_proof Tab_thm Scc_spec Scc_model Scc_proof Reach_proof ReachHeap_proof Reach_thm.
From Verif Require Import Heap_model Heap_proof Relax_spec Relax_model Dij Aff_proof FF_proof HMax_proof LmCut_proof Relax_thm Rc_model Rc_spec.

(** ** Lists *)
Lemma omap_some {A B} (f : A -> option B) l : (forall a, In a l -> exists b, f a = Some b) -> exists bs, omap f l = Some bs.
Proof.
  induction l as [|a l IH]; intros H; cbn; [eauto|]. destruct (H a (or_introl eq_refl)) as (b & ->). cbn [obind].
  destruct IH as (bs & ->); [intros; apply H; now right|]. cbn [obind]. eauto.
Qed.

Lemma omap_nth {A B} (f : A -> option B) l bs : omap f l = Some bs -> length bs = length l /\
  (forall i a, nth_error l i = Some a -> exists b, f a = Some b /\ nth_error bs i = Some b) /\
  (forall i b, nth_error bs i = Some b -> exists a, nth_error l i = Some a /\ f a = Some b).
Proof.
  revert bs. induction l as [|a l IH]; intros bs H; cbn in H.
  - injection H as <-. split; auto. split; intros [|i] x E; discriminate.
  - apply obind_some in H as (b & Eb & H). apply obind_some in H as (bs' & Ebs & H). injection H as <-. destruct (IH _ Ebs) as (L & F & G). split; [cbn; auto|]. split; intros [|i] y E; cbn in *; eauto.
    + injection E as <-. eauto.
    + injection E as <-. eauto.
Qed.

Lemma setins_nodup l : forall acc, NoDup acc -> NoDup (fold_left set_insert l acc).
Proof.
  induction l as [|x l IH]; intros acc N; cbn; auto. apply IH. unfold set_insert. destruct (memb x acc) eqn:E; auto.
  apply memb_false in E. apply nodup_app_iff. split; auto. split; [constructor; [easy|constructor]|]. intros y Hy [<-|[]]. auto.
Qed.

Lemma setins_in l : forall acc y, In y (fold_left set_insert l acc) <-> In y acc \/ In y l.
Proof.
  induction l as [|x l IH]; intros acc y; cbn; [tauto|]. rewrite IH. unfold set_insert. destruct (memb x acc) eqn:E.
  - apply memb_In in E. split; [intros [H|H]; auto|]. intros [H|[->|H]]; auto.
  - rewrite in_app_iff. cbn. tauto.
Qed.

Lemma nth_const {A} (l : list A) (c d : nat) i : i < length l -> nth i (map (fun _ => c) l) d = c.
Proof. revert i. induction l as [|a l IH]; intros [|i] H; cbn in *; try lia; auto. apply IH. lia. Qed.

(** ** The STRIPS model *)
Section Model.
  Variables (P : problem) (cma cra : nat).
  Hypothesis WP : wf_problem P.
  Hypothesis RI : rc_input P.

  Lemma method_prec_ok m : wf_method P m -> exists l, rc_method_prec P m = Some l /\ NoDup l /\ l <> [] /\
    forall f, In f l <-> exists t, In t (m_subs m) /\ f = t2bur P t.
  Proof.
    intros WM. unfold rc_method_prec. destruct (distinct_subtasks_exact (m_subs m)) as (D & -> & A & I). cbn [obind].
    exists (map (fun e => t2bur P (Z.to_nat (fst e))) D). split; auto.
    assert (IN : forall f, In f (map (fun e => t2bur P (Z.to_nat (fst e))) D) <-> exists t, In t (m_subs m) /\ f = t2bur P t).
    { intros f. rewrite in_map_iff. split.
      - intros ((z & c) & <- & H). apply I in H as (t & -> & Ht & _). exists t. cbn. rewrite Nat2Z.id. auto.
      - intros (t & Ht & ->). exists (Z.of_nat t, Z.of_nat (count_occ Nat.eq_dec (m_subs m) t)). cbn. rewrite Nat2Z.id. split; auto.
        apply I. eauto. }
    split; [|split; auto].
    - assert (NZ : forall e, In e D -> (0 <= fst e)%Z). { intros (z & c) H. apply I in H as (t & -> & _). cbn. lia. }
      unfold ascending in A. clear - A NZ. induction D as [|[z c] D IH]; cbn; [constructor|]. constructor.
      + intros H. apply in_map_iff in H as ((z' & c') & E & H). cbn in *. unfold t2bur in E.
        assert (z = z'). { specialize (NZ (z', c') (or_intror H)) as N1. specialize (NZ (z, c) (or_introl eq_refl)) as N2. cbn in *. lia. }
        subst z'. apply (in_map fst) in H. cbn in H. inversion A as [|? ? A1 A2]; subst. rewrite Forall_forall in A2. apply A2 in H. lia.
      + apply IH; [|intros; apply NZ; now right]. now inversion A.
    - destruct (m_subs m) as [|t ts] eqn:E; [exfalso; apply (wfm_nonempty _ _ WM); auto|]. intros Q.
      assert (H : In (t2bur P t) (map (fun e : Z * Z => t2bur P (Z.to_nat (fst e))) D)) by (apply IN; exists t; split; auto; now left).
      rewrite Q in H. destruct H.
  Qed.

  (** What the operators of the model are. *)
  Record rc_ok (m : strips) : Prop := {
    k_nf : st_nf m = p_nfacts P + n_acts P + n_tasks P;
    k_nops : st_nops m = n_acts P + length (p_methods P);
    k_pre : forall a, a < n_acts P -> forall f, In f (m_pre m a) <-> f = t2tdr P a \/ precs P a f;
    k_add : forall a, a < n_acts P -> forall f, In f (m_add m a) <-> f = t2bur P a \/ adds P a f;
    k_cost : forall a, a < n_acts P -> m_cost m a = if Nat.eqb cra 0 then cost_of P a else cra;
    k_mpre : forall i mm, nth_error (p_methods P) i = Some mm -> forall f, In f (m_pre m (n_acts P + i)) <-> exists t, In t (m_subs mm) /\ f = t2bur P t;
    k_madd : forall i mm, nth_error (p_methods P) i = Some mm -> m_add m (n_acts P + i) = [t2bur P (m_task mm)];
    k_mcost : forall i, i < length (p_methods P) -> m_cost m (n_acts P + i) = cma }.

  Lemma rc_strips_ok : exists m, rc_strips P cma cra = Some m /\ strips_wf m /\ no_precless m /\ rc_ok m.
  Proof using WP RI.
    unfold rc_strips.
    destruct (omap_some (fun i => l <- get (p_prec P) i ;; Some (l ++ [t2tdr P i])) (seq 0 (n_acts P))) as (ap & Eap).
    { intros a Ha. apply in_seq in Ha. destruct (get_some (p_prec P) a) as (l & ->); [rewrite (wf_prec _ WP); unfold n_acts in *; lia|]. cbn. eauto. }
    destruct (omap_some (fun i => l <- get (p_add P) i ;; Some (l ++ [t2bur P i])) (seq 0 (n_acts P))) as (aa & Eaa).
    { intros a Ha. apply in_seq in Ha. destruct (get_some (p_add P) a) as (l & ->); [rewrite (wf_add _ WP); unfold n_acts in *; lia|]. cbn. eauto. }
    destruct (omap_some (rc_method_prec P) (p_methods P)) as (mp & Emp).
    { intros mm Hm. destruct (method_prec_ok mm (wf_methods _ WP mm Hm)) as (l & -> & _). eauto. }
    rewrite Eap, Eaa, Emp. cbn [obind]. eexists. split; [reflexivity|].
    apply omap_nth in Eap as (Lap & Fap & _). apply omap_nth in Eaa as (Laa & Faa & _). apply omap_nth in Emp as (Lmp & Fmp & _).
    rewrite seq_length in Lap, Laa.
    set (m := {| st_nf := _ |}).
    assert (NO : st_nops m = n_acts P + length (p_methods P)). { unfold st_nops, m. cbn. rewrite app_length. lia. }
    assert (PA : forall a, a < n_acts P -> exists l, nth_error (p_prec P) a = Some l /\ m_pre m a = l ++ [t2tdr P a]).
    { intros a La. destruct (Fap a a) as (b & Eb & Nb). { rewrite nth_error_nth' with (d := 0) by (rewrite seq_length; auto). f_equal. now rewrite seq_nth. }
      apply obind_some in Eb as (l & El & Eb). injection Eb as <-. exists l. split; auto. unfold m_pre, m. cbn [st_pre].
      rewrite app_nth1 by lia. now apply nth_error_nth with (d := []) in Nb. }
    assert (AA : forall a, a < n_acts P -> exists l, nth_error (p_add P) a = Some l /\ m_add m a = l ++ [t2bur P a]).
    { intros a La. destruct (Faa a a) as (b & Eb & Nb). { rewrite nth_error_nth' with (d := 0) by (rewrite seq_length; auto). f_equal. now rewrite seq_nth. }
      apply obind_some in Eb as (l & El & Eb). injection Eb as <-. exists l. split; auto. unfold m_add, m. cbn [st_add].
      rewrite app_nth1 by lia. now apply nth_error_nth with (d := []) in Nb. }
    assert (PM : forall i mm, nth_error (p_methods P) i = Some mm -> exists l, rc_method_prec P mm = Some l /\ m_pre m (n_acts P + i) = l).
    { intros i mm E. destruct (Fmp i mm E) as (l & El & Nl). exists l. split; auto. unfold m_pre, m. cbn [st_pre].
      rewrite app_nth2 by lia. replace (n_acts P + i - length ap) with i by lia. now apply nth_error_nth with (d := []) in Nl. }
    assert (AM : forall i mm, nth_error (p_methods P) i = Some mm -> m_add m (n_acts P + i) = [t2bur P (m_task mm)]).
    { intros i mm E. unfold m_add, m. cbn [st_add]. rewrite app_nth2 by lia. replace (n_acts P + i - length aa) with i by lia.
      apply nth_error_nth. now rewrite nth_error_map, E. }
    assert (CASE : forall op, op < st_nops m -> op < n_acts P \/ exists i mm, op = n_acts P + i /\ nth_error (p_methods P) i = Some mm).
    { intros op Lo. rewrite NO in Lo. destruct (Nat.ltb_spec op (n_acts P)) as [LT|GE]; auto. right.
      destruct (get_some (p_methods P) (op - n_acts P)) as (mm & E); [lia|]. exists (op - n_acts P), mm. split; auto. lia. }
    assert (PL : forall a f, precs P a f -> f < p_nfacts P). { intros a f (l & El & Il). eapply (wf_facts _ WP); eauto. left. eapply nth_error_In; eauto. }
    assert (AL : forall a f, adds P a f -> f < p_nfacts P). { intros a f (l & El & Il). eapply (wf_facts _ WP); eauto. right. left. eapply nth_error_In; eauto. }
    assert (TL : forall a, a < n_acts P -> exists l, nth_error (p_prec P) a = Some l /\ NoDup l /\ forall f, In f l -> f < p_nfacts P).
    { intros a La. destruct (PA a La) as (l & El & _). exists l. split; auto. split; [apply (ri_prec _ RI); eapply nth_error_In; eauto|]. intros f Hf. apply (PL a). exists l. auto. }
    assert (OK : rc_ok m).
    { split; auto.
      - intros a La f. destruct (PA a La) as (l & El & ->). rewrite in_app_iff. cbn. unfold precs. rewrite El. split.
        + intros [H|[<-|[]]]; eauto.
        + intros [->|(l' & [= <-] & H)]; auto.
      - intros a La f. destruct (AA a La) as (l & El & ->). rewrite in_app_iff. cbn. unfold adds. rewrite El. split.
        + intros [H|[<-|[]]]; eauto.
        + intros [->|(l' & [= <-] & H)]; auto.
      - intros a La. unfold m_cost, m. cbn [st_cost]. unfold n_acts in La. rewrite app_nth1 by (rewrite map_length; lia).
        unfold cost_of. destruct (Nat.eqb cra 0); [now rewrite map_id|]. now apply nth_const; rewrite ?map_length.
      - intros i mm E f. destruct (PM i mm E) as (l & El & ->). destruct (method_prec_ok mm) as (l' & El' & _ & _ & H).
        { apply (wf_methods _ WP). eapply nth_error_In; eauto. } assert (l' = l) by congruence. now subst.
      - intros i Li. unfold m_cost, m. cbn [st_cost]. unfold n_acts. rewrite app_nth2 by (rewrite map_length; lia).
        rewrite map_length. replace (length (p_cost P) + i - length (p_cost P)) with i by lia. now apply nth_const. }
    split; [|split; auto].
    - split; auto.
      + rewrite NO. unfold m. cbn [st_add]. rewrite app_length, map_length. lia.
      + rewrite NO. unfold m. cbn [st_cost]. rewrite app_length, !map_length. reflexivity.
      + intros op p Lo Hp. rewrite (k_nf _ OK). destruct (CASE op Lo) as [La|(i & mm & -> & E)].
        * apply (k_pre _ OK op La) in Hp as [->|Hp]; [unfold t2tdr; lia|]. apply PL in Hp. lia.
        * apply (k_mpre _ OK i mm E) in Hp as (t & Ht & ->). unfold t2bur, n_tasks. apply (wfm_subs _ _ (wf_methods _ WP mm (nth_error_In _ _ E))) in Ht. lia.
      + intros op Lo. destruct (CASE op Lo) as [La|(i & mm & -> & E)].
        * destruct (PA op La) as (l & El & ->). destruct (TL op La) as (l' & El' & NDl & Hl). assert (l' = l) by congruence. subst l'.
          apply nodup_app_iff. split; auto. split; [constructor; [easy|constructor]|]. intros x Hx [<-|[]]. apply Hl in Hx. unfold t2tdr in Hx. lia.
        * destruct (PM i mm E) as (l & El & ->). destruct (method_prec_ok mm) as (l' & El' & H & _). { apply (wf_methods _ WP). eapply nth_error_In; eauto. }
          assert (l' = l) by congruence. now subst.
      + intros op f Lo Hf. rewrite (k_nf _ OK). destruct (CASE op Lo) as [La|(i & mm & -> & E)].
        * apply (k_add _ OK op La) in Hf as [->|Hf]; [|apply AL in Hf; lia]. unfold t2bur, n_tasks.
          assert (op < length (p_prim P)); [|lia]. apply nth_error_Some. rewrite (ri_prim _ RI op La). discriminate.
        * rewrite (k_madd _ OK i mm E) in Hf. destruct Hf as [<-|[]]. unfold t2bur, n_tasks.
          assert (m_task mm < length (p_prim P)); [|lia]. apply nth_error_Some. rewrite (wfm_task _ _ (wf_methods _ WP mm (nth_error_In _ _ E))). discriminate.
    - intros op Lo Q. destruct (CASE op Lo) as [La|(i & mm & -> & E)].
      + destruct (PA op La) as (l & El & E). rewrite Q in E. destruct l; discriminate.
      + destruct (PM i mm E) as (l & El & E2). destruct (method_prec_ok mm) as (l' & El' & _ & H & _). { apply (wf_methods _ WP). eapply nth_error_In; eauto. }
        assert (l' = l) by congruence. subst. congruence.
  Qed.
End Model.

(** ** State and goal of a node *)
Section Node.
  Variable P : problem.

  Lemma ins_row r : forall s, Reach_proof.asc s -> Reach_proof.asc (fold_left (fun s t => if Nat.ltb t (n_acts P) then Scc_model.ins (t2tdr P t) s else s) r s) /\
    forall f, In f (fold_left (fun s t => if Nat.ltb t (n_acts P) then Scc_model.ins (t2tdr P t) s else s) r s) <->
              In f s \/ exists t, In t r /\ t < n_acts P /\ f = t2tdr P t.
  Proof.
    induction r as [|t r IH]; intros s A; cbn [fold_left].
    - split; auto. intros f. split; auto. intros [H|(t & [] & _)]; auto.
    - destruct (Nat.ltb_spec t (n_acts P)) as [L|L].
      + destruct (IH (Scc_model.ins (t2tdr P t) s) (ins_asc _ _ A)) as [A' I']. split; auto. intros f. rewrite I', Reach_proof.ins_in. split.
        * intros [[->|H]|(t' & H1 & H2 & H3)]; auto; right; [exists t|exists t']; cbn; auto.
        * intros [H|(t' & [->|H1] & H2 & H3)]; auto. right. exists t'. auto.
      + destruct (IH s A) as [A' I']. split; auto. intros f. rewrite I'. split.
        * intros [H|(t' & H1 & H2 & H3)]; auto. right. exists t'. cbn. auto.
        * intros [H|(t' & [->|H1] & H2 & H3)]; auto; [lia|]. right. exists t'. auto.
  Qed.

  Lemma rc_s0_ok M n : length (n_state n) = p_nfacts P ->
    (forall i, In i (heads n) -> exists r, get M i = Some (Some r)) ->
    exists s, rc_s0 P M n = Some s /\ NoDup s /\
      forall f, In f s <-> get (n_state n) f = Some true \/
                exists i r t, In i (heads n) /\ get M i = Some (Some r) /\ In t r /\ t < n_acts P /\ f = t2tdr P t.
  Proof.
    intros LS HM. unfold rc_s0. fold (heads n). set (facts := filter _ _).
    assert (AF : Reach_proof.asc facts).
    { unfold facts. generalize (length (n_state n)) as k. generalize 0 as o. intros o k. revert o. induction k as [|k IH]; intros o; cbn; [constructor|].
      destruct (nth o (n_state n) false); [|apply IH]. constructor; [apply IH|]. rewrite Forall_forall. intros x Hx. apply filter_In in Hx as [Hx _]. apply in_seq in Hx. lia. }
    assert (FI : forall f, In f facts <-> get (n_state n) f = Some true).
    { intros f. unfold facts. rewrite filter_In, in_seq. unfold get. split.
      - intros [L E]. rewrite nth_error_nth' with (d := false) by lia. now rewrite E.
      - intros E. split; [|now apply nth_error_nth with (d := false) in E]. split; [lia|]. apply nth_error_Some. congruence. }
    match goal with |- context [ofold ?f _ facts] => set (F := f) end.
    destruct (ofold_prefix F (fun Q s => Reach_proof.asc s /\ forall f, In f s <-> In f facts \/
                exists i r t, In i Q /\ get M i = Some (Some r) /\ In t r /\ t < n_acts P /\ f = t2tdr P t) (heads n) facts) as (s & E & A & I).
    { split; auto. intros f. split; auto. intros [H|(i & r & t & [] & _)]; auto. }
    { intros pre j post s EQ (A & I). destruct (HM j) as (r & Er). { rewrite EQ. apply in_or_app. right. now left. }
      unfold F. rewrite Er. cbn [obind]. eexists. split; [reflexivity|]. destruct (ins_row r s A) as [A' I']. split; auto.
      intros f. rewrite I', I. split.
      - intros [[H|(i & r' & t & H1 & H2)]|(t & H1 & H2 & H3)]; auto; right.
        + exists i, r', t. split; auto. apply in_or_app; auto.
        + exists j, r, t. split; auto. apply in_or_app; right; now left.
      - intros [H|(i & r' & t & H1 & H2 & H3)]; auto. apply in_app_or in H1 as [H1|[<-|[]]].
        + left. right. exists i, r', t. auto.
        + assert (r' = r) by congruence. subst. right. exists t. tauto. }
    exists s. split; auto. split; [now apply asc_nodup|]. intros f. rewrite I, FI. reflexivity.
  Qed.

  Lemma rc_goal_ok T : NoDup (rc_goal P T) /\ forall f, In f (rc_goal P T) <-> In f (p_goal P) \/ exists z c, In (z, c) T /\ f = t2bur P (Z.to_nat z).
  Proof.
    unfold rc_goal. split; [apply setins_nodup; constructor|]. intros f. rewrite setins_in, in_app_iff, in_map_iff. cbn. split.
    - intros [[]|[H|((z & c) & <- & H)]]; auto. right. exists z, c. auto.
    - intros [H|(z & c & H & ->)]; auto. right. right. exists (z, c). auto.
  Qed.
End Node.

(** ** Relaxed plans *)
Section Seq.
  Variables (nops : nat) (pre add : nat -> list nat).

  Definition supported (s : nat -> Prop) (l : list nat) (op : nat) := op < nops /\ forall p, In p (pre op) -> s p \/ exists o, In o l /\ In p (add o).
  Definition okseq s ops := forall l1 op l2, ops = l1 ++ op :: l2 -> supported s l1 op.

  Lemma okseq_nil s : okseq s [].
  Proof. intros [|? ?] op l2 E; discriminate. Qed.

  Lemma okseq_snoc s ops x : okseq s (ops ++ [x]) <-> okseq s ops /\ supported s ops x.
  Proof.
    split.
    - intros H. split; [|now apply (H ops x [])]. intros l1 op l2 ->. apply (H l1 op (l2 ++ [x])). now rewrite <- app_assoc.
    - intros [H1 H2] l1 op l2 E. destruct l2 as [|y l2] using rev_ind.
      + apply app_inj_tail in E as [<- <-]. auto.
      + rewrite app_comm_cons, app_assoc in E. apply app_inj_tail in E as [E _]. eapply H1; eauto.
  Qed.

  Lemma supported_mono s l l' op : incl l l' -> supported s l op -> supported s l' op.
  Proof. intros I [H1 H2]. split; auto. intros p Hp. destruct (H2 p Hp) as [H|(o & Ho & H)]; auto. right. exists o. auto. Qed.

  Lemma okseq_app s ops xs : okseq s ops -> (forall l1 op l2, xs = l1 ++ op :: l2 -> supported s (ops ++ l1) op) -> okseq s (ops ++ xs).
  Proof.
    revert ops. induction xs as [|x xs IH]; intros ops H1 H2; [now rewrite app_nil_r|].
    replace (ops ++ x :: xs) with ((ops ++ [x]) ++ xs) by now rewrite <- app_assoc. apply IH.
    - apply okseq_snoc. split; auto. specialize (H2 [] x xs eq_refl). now rewrite app_nil_r in H2.
    - intros l1 op l2 ->. rewrite <- app_assoc. apply (H2 (x :: l1) op l2). reflexivity.
  Qed.

  Definition dedup (ops : list nat) := fold_left set_insert ops [].
  Lemma dedup_in ops x : In x (dedup ops) <-> In x ops.
  Proof. unfold dedup. rewrite setins_in. cbn. tauto. Qed.
  Lemma okseq_dedup s ops : okseq s ops -> okseq s (dedup ops).
  Proof.
    induction ops as [|x ops IH] using rev_ind; intros H; [exact H|]. apply okseq_snoc in H as [H1 H2].
    unfold dedup. rewrite fold_left_app. cbn. fold (dedup ops). unfold set_insert. destruct (memb x (dedup ops)); auto.
    apply okseq_snoc. split; auto. eapply supported_mono; [|exact H2]. intros y Hy. now apply dedup_in.
  Qed.

  Lemma okseq_rexec s ops : okseq s ops -> exists out, rexec nops pre add s ops out /\ forall f, (s f \/ exists o, In o ops /\ In f (add o)) -> out f.
  Proof.
    revert s. induction ops as [|x ops IH]; intros s H.
    - exists s. split; cbn; [tauto|]. intros f [Hf|(o & [] & _)]; auto.
    - destruct (H [] x ops eq_refl) as [Hx Hp]. destruct (IH (fun f => s f \/ In f (add x))) as (out & E & O).
      { intros l1 op l2 ->. destruct (H (x :: l1) op l2 eq_refl) as [Q1 Q2]. split; auto. intros p Hp'. destruct (Q2 p Hp') as [Q|(o & [->|Ho] & Q)]; auto. right. eauto. }
      exists out. split.
      + cbn. split; auto. split; auto. intros p Hp'. destruct (Hp p Hp') as [Q|(o & [] & _)]; auto.
      + intros f [Hf|(o & [->|Ho] & Hf)]; apply O; auto. right. eauto.
  Qed.

  Lemma okseq_rplan s ops g : okseq (fun f => In f s) ops -> (forall f, In f g -> In f s \/ exists o, In o ops /\ In f (add o)) -> rplan nops pre add s ops g.
  Proof. intros H G. destruct (okseq_rexec _ _ H) as (out & E & O). exists out. split; auto. Qed.
End Seq.

(** The methods of a refinement, used bottom-up. *)
Lemma refines_refines_by P tn tn' : refines P tn tn' -> exists ms, refines_by P tn ms tn'.
Proof.
  induction 1 as [tn|tn x m tn1 tn2 D R (ms & IH)]; [exists []; constructor|].
  destruct (In_nth_error _ _ (d_method _ _ _ _ _ D)) as (i & Ei). exists (i :: ms). econstructor; eauto.
Qed.
Lemma refines_by_refines P tn ms tn' : refines_by P tn ms tn' -> refines P tn tn'.
Proof. induction 1 as [tn|tn x i m tn1 ms tn2 E D R IH]; econstructor; eauto. Qed.
Lemma solves_solves_by P s tn plan : solves P s tn plan -> exists ms, solves_by P s tn ms plan.
Proof. intros (tn' & L & R & H). apply refines_refines_by in R as (ms & R). exists ms, tn', L. auto. Qed.
Lemma solves_by_solves P s tn ms plan : solves_by P s tn ms plan -> solves P s tn plan.
Proof. intros (tn' & L & R & H). exists tn', L. split; auto. eapply refines_by_refines; eauto. Qed.

Section Plan.
  Variables (P : problem) (cma cra : nat) (m : strips).
  Hypothesis WP : wf_problem P.
  Hypothesis RI : rc_input P.
  Hypothesis K : rc_ok P cma cra m.
  Notation sup := (supported (st_nops m) (m_pre m) (m_add m)).
  Notation ok := (okseq (st_nops m) (m_pre m) (m_add m)).

  Definition method_ops (ms : list nat) := map (fun i => n_acts P + i) (rev ms).

  Lemma methods_ok s ops tn ms tn' : refines_by P tn ms tn' -> ok s ops ->
    (forall x, t_in tn' x -> exists o, In o ops /\ In (t2bur P (t_lab tn' x)) (m_add m o)) ->
    ok s (ops ++ method_ops ms) /\
    (forall x, t_in tn x -> exists o, In o (ops ++ method_ops ms) /\ In (t2bur P (t_lab tn x)) (m_add m o)).
  Proof using WP K.
    intros R. induction R as [tn|tn x i mm tn1 ms tn2 Ei D R IH]; intros O H.
    - unfold method_ops. cbn. rewrite app_nil_r. auto.
    - destruct (IH O H) as [O1 H1]. unfold method_ops. cbn [rev]. rewrite map_app. cbn [map]. fold (method_ops ms). rewrite app_assoc.
      assert (Li : i < length (p_methods P)) by (apply nth_error_Some; congruence). split.
      + apply okseq_snoc. split; auto. split; [rewrite (k_nops _ _ _ _ K); lia|]. intros p Hp.
        apply (k_mpre _ _ _ _ K i mm Ei) in Hp as (t & Ht & ->). right. apply In_nth_error in Ht as (j & Ej).
        destruct (H1 (x ++ [j])) as (o & Ho & Q).
        { apply (d_in' _ _ _ _ _ D). right. exists j. split; auto. apply nth_error_Some. congruence. }
        rewrite (d_lab_new _ _ _ _ _ D j t Ej) in Q. eauto.
      + intros y Hy. destruct (list_eq_dec Nat.eq_dec y x) as [->|NE].
        * exists (n_acts P + i). split; [apply in_or_app; right; now left|]. rewrite (k_madd _ _ _ _ K i mm Ei), (d_lab _ _ _ _ _ D). now left.
        * destruct (H1 y) as (o & Ho & Q). { apply (d_in' _ _ _ _ _ D). auto. }
          rewrite (d_lab_old _ _ _ _ _ D y Hy NE) in Q. exists o. split; auto. apply in_or_app; auto.
  Qed.

  Lemma plan_ok (st : state) (s : nat -> Prop) plan : executable P st plan -> (forall a, In a plan -> a < n_acts P) ->
    (forall f, st f -> s f) -> (forall a, In a plan -> s (t2tdr P a)) ->
    ok s plan /\ (forall f, after P st plan f -> s f \/ exists o, In o plan /\ In f (m_add m o)).
  Proof using WP K.
    intros E LA SF ST.
    assert (G : forall plan done st0, executable P st0 plan -> (forall a, In a (done ++ plan) -> a < n_acts P) -> (forall a, In a plan -> s (t2tdr P a)) ->
      (forall f, st0 f -> s f \/ exists o, In o done /\ In f (m_add m o)) -> ok s done ->
      ok s (done ++ plan) /\ (forall f, after P st0 plan f -> s f \/ exists o, In o (done ++ plan) /\ In f (m_add m o))).
    { clear plan E LA ST SF. induction plan as [|a plan IH]; intros done st0 E LA ST SF O.
      - rewrite app_nil_r. auto.
      - destruct E as [Ap E]. replace (done ++ a :: plan) with ((done ++ [a]) ++ plan) in * by now rewrite <- app_assoc.
        assert (La : a < n_acts P) by (apply LA; apply in_or_app; left; apply in_or_app; right; now left).
        apply (IH (done ++ [a]) (result P st0 a)); auto.
        + intros b Hb. apply ST. now right.
        + intros f [H|[H _]].
          * right. exists a. split; [apply in_or_app; right; now left|]. apply (k_add _ _ _ _ K a La). auto.
          * destruct (SF f H) as [Q|(o & Ho & Q)]; auto. right. exists o. split; auto. apply in_or_app; auto.
        + apply okseq_snoc. split; auto. split; [rewrite (k_nops _ _ _ _ K); lia|]. intros p Hp.
          apply (k_pre _ _ _ _ K a La) in Hp as [->|Hp]; [left; apply ST; now left|]. apply SF. now apply Ap. }
    apply (G plan [] st); auto. apply okseq_nil.
  Qed.

  Lemma solution_rplan (st : state) tn ms plan s g : solves_by P st tn ms plan -> (forall f, st f -> In f s) -> (forall a, In a plan -> In (t2tdr P a) s) ->
    (forall f, In f g -> In f (p_goal P) \/ exists x, t_in tn x /\ f = t2bur P (t_lab tn x)) ->
    rplan (st_nops m) (m_pre m) (m_add m) s (plan ++ method_ops ms) g /\
    rplan (st_nops m) (m_pre m) (m_add m) s (dedup (plan ++ method_ops ms)) g.
  Proof using WP RI K.
    intros (tn' & L & R & PR & (NL & IL & _) & -> & E & G) SF ST HG. set (plan := map (t_lab tn') L) in *.
    assert (LA : forall a, In a plan -> a < n_acts P).
    { intros a Ha. apply in_map_iff in Ha as (x & <- & Hx). apply (wf_prim _ WP). apply PR. now apply IL. }
    destruct (plan_ok st (fun f => In f s) plan E LA SF ST) as [O1 A1].
    destruct (methods_ok (fun f => In f s) plan tn ms tn' R O1) as [O2 A2].
    { intros x Hx. exists (t_lab tn' x). assert (Ix : In (t_lab tn' x) plan) by (apply in_map; now apply IL). split; auto. apply (k_add _ _ _ _ K); auto. }
    assert (GG : forall f, In f g -> In f s \/ exists o, In o (plan ++ method_ops ms) /\ In f (m_add m o)).
    { intros f Hf. destruct (HG f Hf) as [H|(x & Hx & ->)].
      - destruct (A1 f (G f H)) as [Q|(o & Ho & Q)]; auto. right. exists o. split; auto. apply in_or_app; auto.
      - right. auto. }
    split; apply okseq_rplan; auto.
    - now apply okseq_dedup.
    - intros f Hf. destruct (GG f Hf) as [Q|(o & Ho & Q)]; auto. right. exists o. split; auto. now apply dedup_in.
  Qed.
End Plan.

(** ** Costs *)
Lemma sum_incl (w : nat -> nat) D : NoDup D -> forall E, (forall x, In x D -> 0 < w x -> In x E) -> list_sum (map w D) <= list_sum (map w E).
Proof.
  induction D as [|x D IH]; intros N E H; cbn; [lia|]. inversion N as [|? ? N1 N2]; subst.
  destruct (w x) as [|k] eqn:W.
  - cbn. apply IH; auto. intros y Hy. apply H. now right.
  - assert (Hx : In x E) by (apply H; [now left|lia]). apply in_split in Hx as (e1 & e2 & ->).
    assert (Q : list_sum (map w D) <= list_sum (map w (e1 ++ e2))).
    { apply IH; auto. intros y Hy Wy. specialize (H y (or_intror Hy) Wy). apply in_app_or in H as [H|[->|H]]; [apply in_or_app; auto|contradiction|apply in_or_app; auto]. }
    rewrite !map_app, !list_sum_app in *. unfold list_sum in *. cbn [map fold_right]. lia.
Qed.

Lemma sum_count (w : nat -> nat) plan : list_sum (map w plan) = list_sum (map (fun a => w a * count_occ Nat.eq_dec plan a) (nodup Nat.eq_dec plan)).
Proof.
  assert (G : forall plan D, NoDup D -> (forall x, In x plan -> In x D) -> list_sum (map w plan) = list_sum (map (fun a => w a * count_occ Nat.eq_dec plan a) D)).
  { induction plan0 as [|x l IH]; intros D N I.
    - cbn. clear. induction D; cbn; rewrite ?Nat.mul_0_r; auto.
    - assert (Ix : In x D) by (apply I; now left). apply in_split in Ix as (d1 & d2 & ->). cbn [map list_sum fold_right].
      change (fold_right Nat.add 0 (map w l)) with (list_sum (map w l)). rewrite (IH (d1 ++ x :: d2)) by (auto; intros; apply I; now right).
      apply NoDup_remove in N as [_ N].
      assert (E : forall d, ~ In x d -> map (fun a => w a * count_occ Nat.eq_dec (x :: l) a) d = map (fun a => w a * count_occ Nat.eq_dec l a) d).
      { intros d Nd. apply map_ext_in. intros a Ha. rewrite count_occ_cons_neq; auto. intros ->. auto. }
      rewrite !map_app, !list_sum_app. cbn [map]. rewrite (E d1), (E d2) by (intros Q; apply N; apply in_or_app; auto).
      rewrite count_occ_cons_eq by auto. unfold list_sum. cbn [fold_right]. lia. }
  apply G; [apply NoDup_nodup|]. intros x Hx. now apply nodup_In.
Qed.

Lemma sum_correction (w : nat -> nat) plan D (T : list (nat * nat)) :
  NoDup D -> (forall x, In x D -> 0 < w x -> In x plan) -> NoDup (map fst T) ->
  (forall t c, In (t, c) T -> 0 < w t -> c <= count_occ Nat.eq_dec plan t) ->
  list_sum (map w D) + list_sum (map (fun e => w (fst e) * (snd e - 1)) T) <= list_sum (map w plan).
Proof.
  intros ND ID NT CT. rewrite (sum_count w plan). set (E := nodup Nat.eq_dec plan).
  assert (A : list_sum (map w D) <= list_sum (map w E)). { apply sum_incl; auto. intros x Hx Wx. apply nodup_In. auto. }
  assert (B : list_sum (map (fun e => w (fst e) * (snd e - 1)) T) <= list_sum (map (fun a => w a * (count_occ Nat.eq_dec plan a - 1)) E)).
  { apply Nat.le_trans with (list_sum (map (fun a => w a * (count_occ Nat.eq_dec plan a - 1)) (map fst T))).
    - rewrite map_map. clear - CT. induction T as [|[t c] T IH]; cbn; [lia|]. specialize (IH ltac:(intros; eapply CT; eauto; now right)).
      assert (w t * (c - 1) <= w t * (count_occ Nat.eq_dec plan t - 1)).
      { destruct (w t) as [|k] eqn:W; [lia|]. apply Nat.mul_le_mono_l. specialize (CT t c (or_introl eq_refl)). lia. }
      unfold list_sum in IH. lia.
    - apply sum_incl; auto. intros x _ Wx. apply nodup_In. apply (count_occ_In Nat.eq_dec). nia. }
  assert (C : list_sum (map (fun a => w a * count_occ Nat.eq_dec plan a) E) = list_sum (map w E) + list_sum (map (fun a => w a * (count_occ Nat.eq_dec plan a - 1)) E)).
  { assert (IE : forall a, In a E -> 0 < count_occ Nat.eq_dec plan a). { intros a Ha. apply count_occ_In. now apply nodup_In in Ha. }
    clear - IE. induction E as [|a E IH]; cbn; [lia|]. specialize (IH ltac:(intros; apply IE; now right)). specialize (IE a (or_introl eq_refl)).
    unfold list_sum in *. nia. }
  lia.
Qed.

(** ** Splitting a landmark *)
Section Split.
  Variable na : nat.
  Variable a : list Z.
  Hypothesis Srt : forall i j, i <= j -> j < length a -> (nth i a 0 <= nth j a 0)%Z.

  Lemma border_ok : forall fuel ra lm, ra < lm -> lm < length a -> lm - ra <= fuel -> (nth ra a 0 < Z.of_nat na)%Z -> (Z.of_nat na <= nth lm a 0)%Z ->
    exists fm, border fuel na a ra lm = Some fm /\ 0 < fm < length a /\ (nth (fm - 1) a 0 < Z.of_nat na)%Z /\ (Z.of_nat na <= nth fm a 0)%Z.
  Proof using.
    induction fuel as [|f IH]; intros ra lm H1 H2 H3 H4 H5; [lia|]. cbn [border]. destruct (Nat.eqb_spec (S ra) lm) as [E|E].
    - exists lm. split; auto. split; [lia|]. split; auto. replace (lm - 1) with ra by lia. auto.
    - set (mid := Nat.div (ra + lm) 2). assert (M1 : ra < mid < lm).
      { unfold mid. pose proof (Nat.div_mod (ra + lm) 2 ltac:(lia)). pose proof (Nat.mod_upper_bound (ra + lm) 2 ltac:(lia)). lia. }
      rewrite (get_nth_d 0%Z) by lia. cbn [obind]. destruct (Z.ltb_spec (nth mid a 0%Z) (Z.of_nat na)) as [L|L]; apply IH; auto; lia.
  Qed.
End Split.

Lemma split_cut_ok na cut : cut <> [] -> exists fm lm, split_cut na cut = Some (fm, lm) /\ length lm = length cut /\ fm <= length lm /\
  (forall i, i < fm -> exists op, nth_error lm i = Some (Z.of_nat op) /\ op < na /\ In op cut) /\
  (forall i, fm <= i < length lm -> exists k, nth_error lm i = Some (Z.of_nat k) /\ In (na + k) cut) /\
  (forall op, In op cut -> op < na -> exists i, i < fm /\ nth_error lm i = Some (Z.of_nat op)) /\
  (forall k, In (na + k) cut -> exists i, fm <= i /\ nth_error lm i = Some (Z.of_nat k)).
Proof.
  intros NE. unfold split_cut. destruct (sort_ok (map Z.of_nat cut) 0 (length cut)) as (a & Ea & La & Pa & _ & Sa); [rewrite map_length; lia|].
  rewrite map_length in La. rewrite Ea. cbn [obind].
  assert (Pm : Permutation (map Z.of_nat cut) a).
  { rewrite <- (Arr.slice_full 0%Z (map Z.of_nat cut)), <- (Arr.slice_full 0%Z a). rewrite map_length, La. exact Pa. }
  assert (Srt : forall i j, i <= j -> j < length a -> (nth i a 0 <= nth j a 0)%Z) by (intros; apply Sa; lia).
  assert (L0 : 0 < length a) by (rewrite La; destruct cut; [congruence|cbn; lia]).
  rewrite (get_nth_d 0%Z) by auto. cbn [obind].
  assert (F : exists fm, (if Z.leb (Z.of_nat na) (nth 0 a 0%Z) then Some 0
         else xl <- get a (length a - 1) ;;
              if Z.ltb xl (Z.of_nat na) then Some (length a) else border (length a) na a 0 (length a - 1)) = Some fm /\ fm <= length a /\
       (forall i, i < fm -> (nth i a 0 < Z.of_nat na)%Z) /\ (forall i, fm <= i < length a -> (Z.of_nat na <= nth i a 0)%Z)).
  { destruct (Z.leb_spec (Z.of_nat na) (nth 0 a 0%Z)) as [H|H].
    - exists 0. split; auto. split; [lia|]. split; [lia|]. intros i Hi. specialize (Srt 0 i). lia.
    - rewrite (get_nth_d 0%Z) by lia. cbn [obind]. destruct (Z.ltb_spec (nth (length a - 1) a 0%Z) (Z.of_nat na)) as [H2|H2].
      + exists (length a). split; auto. split; auto. split; [|lia]. intros i Hi. specialize (Srt i (length a - 1)). lia.
      + assert (0 <> length a - 1) by (intros Q; rewrite <- Q in H2; lia).
        destruct (border_ok na a (length a) 0 (length a - 1)) as (fm & -> & B1 & B2 & B3); auto; try lia.
        exists fm. split; auto. split; [lia|]. split; intros i Hi.
        * specialize (Srt i (fm - 1)). lia.
        * specialize (Srt fm i). lia. }
  destruct F as (fm & EF & LF & FA & FM). rewrite EF. cbn [obind]. eexists fm, _. split; [reflexivity|].
  set (lm := firstn fm a ++ map (fun z => (z - Z.of_nat na)%Z) (skipn fm a)).
  assert (LL : length lm = length a). { unfold lm. rewrite app_length, map_length, firstn_length, skipn_length. lia. }
  assert (N1 : forall i, i < fm -> nth_error lm i = nth_error a i).
  { intros i Hi. unfold lm. rewrite nth_error_app1 by (rewrite firstn_length; lia). rewrite <- (firstn_skipn fm a) at 2.
    now rewrite nth_error_app1 by (rewrite firstn_length; lia). }
  assert (N2 : forall i z, fm <= i -> nth_error a i = Some z -> nth_error lm i = Some (z - Z.of_nat na)%Z).
  { intros i z Hi E. unfold lm. rewrite nth_error_app2 by (rewrite firstn_length; lia). rewrite firstn_length, nth_error_map.
    rewrite <- (firstn_skipn fm a) in E. rewrite nth_error_app2, firstn_length in E by (rewrite firstn_length; lia). now rewrite E. }
  assert (IA : forall i, i < length a -> exists op, nth_error a i = Some (Z.of_nat op) /\ nth i a 0%Z = Z.of_nat op /\ In op cut).
  { intros i Hi. assert (E := nth_error_nth' a 0%Z Hi). assert (I : In (nth i a 0%Z) (map Z.of_nat cut)).
    { eapply Permutation_in; [symmetry; exact Pm|]. eapply nth_error_In; eauto. }
    apply in_map_iff in I as (op & Q & I). exists op. rewrite E, Q. auto. }
  assert (AI : forall op, In op cut -> exists i, i < length a /\ nth_error a i = Some (Z.of_nat op) /\ nth i a 0%Z = Z.of_nat op).
  { intros op H. apply (in_map Z.of_nat) in H. apply (Permutation_in _ Pm) in H. apply In_nth_error in H as (i & E). exists i.
    split; [apply nth_error_Some; congruence|]. split; auto. now apply nth_error_nth. }
  split; [lia|]. split; [lia|]. split; [|split; [|split]].
  - intros i Hi. destruct (IA i) as (op & E & En & I); [lia|]. exists op. rewrite N1 by auto. split; auto. split; auto. specialize (FA i Hi). lia.
  - intros i Hi. destruct (IA i) as (op & E & En & I); [lia|]. specialize (FM i ltac:(lia)). exists (op - na).
    rewrite (N2 i _ ltac:(lia) E). split; [f_equal; lia|]. now replace (na + (op - na)) with op by lia.
  - intros op I Lo. destruct (AI op I) as (i & Li & E & En). exists i. assert (i < fm).
    { destruct (Nat.lt_ge_cases i fm); auto. specialize (FM i ltac:(lia)). lia. }
    split; auto. now rewrite N1.
  - intros k I. destruct (AI (na + k) I) as (i & Li & E & En). exists i. assert (fm <= i).
    { destruct (Nat.lt_ge_cases i fm) as [Q|Q]; auto. specialize (FA i Q). lia. }
    split; auto. rewrite (N2 i _ H E). f_equal. lia.
Qed.
