(** Proofs about the recursive local landmarks. *)
From Coq Require Import Relations Sorted.
From Verif Require Import Base Htn_problem Htn_model Htn_spec Htn_sem Htn_rep Loc_spec Loc_model.

(** ** Sets *)
Lemma sadd_in x l : forall y, In y (sadd x l) <-> y = x \/ In y l.
Proof.
  induction l as [|z l IH]; intros y; cbn [sadd]; [cbn; intuition|]. destruct (Nat.ltb x z); [cbn; intuition|]. destruct (Nat.eqb_spec x z) as [->|N]; [cbn; intuition|].
  cbn [In]. rewrite IH. tauto.
Qed.
Lemma sadd_old x l : In x l -> forall y, In y (sadd x l) <-> In y l.
Proof. intros H y. rewrite sadd_in. split; auto. intros [->|]; auto. Qed.
Lemma fold_sadd_in l : forall s y, In y (fold_left (fun s t => sadd t s) l s) <-> In y l \/ In y s.
Proof. induction l as [|x l IH]; intros s y; cbn [fold_left]; [cbn; tauto|]. rewrite IH, sadd_in. cbn. intuition. Qed.
Lemma first_set_in l y : In y (first_set l) <-> In y l.
Proof. unfold first_set. rewrite fold_sadd_in. cbn. tauto. Qed.
Lemma next_set_in r l y : In y (next_set r l) <-> In y r /\ In y l.
Proof.
  unfold next_set. assert (G : forall s, In y (fold_left (fun s t => if memb t r then sadd t s else s) l s) <-> (In y r /\ In y l) \/ In y s); [|rewrite G; cbn; tauto].
  induction l as [|x l IH]; intros s; cbn [fold_left]; [cbn; tauto|]. rewrite IH. destruct (memb x r) eqn:E.
  - apply memb_In in E. rewrite sadd_in. cbn. intuition (subst; auto).
  - apply memb_false in E. cbn. intuition (subst; auto). contradiction.
Qed.

Lemma sadd_nodup x l : ~ In x l -> NoDup l -> NoDup (sadd x l).
Proof.
  induction l as [|y l IH]; intros N ND; cbn [sadd]; [constructor; auto|]. destruct (Nat.ltb x y); [constructor; auto|]. destruct (Nat.eqb_spec x y) as [->|D]; auto.
  inversion ND; subst. constructor; [|apply IH; auto; intros Q; apply N; now right]. rewrite sadd_in. intros [->|Q]; auto. 
Qed.
Lemma sadd_length x l : ~ In x l -> length (sadd x l) = S (length l).
Proof.
  induction l as [|y l IH]; intros N; cbn [sadd]; auto. destruct (Nat.ltb x y); auto. destruct (Nat.eqb_spec x y) as [->|D]; [elim N; now left|]. cbn. f_equal. apply IH. intros Q. apply N. now right.
Qed.

(** ** One task *)
Section P.
Variable P : problem.
Hypothesis WF : wf_problem P.

Lemma ttm_in t m : In m (task_to_methods P t) <-> exists md, nth_error (p_methods P) m = Some md /\ m_task md = t.
Proof.
  unfold task_to_methods. rewrite filter_In, in_seq. split.
  - intros [L H]. destruct (nth_error (p_methods P) m) as [md|] eqn:E; [|discriminate]. exists md. split; auto. now apply Nat.eqb_eq.
  - intros (md & E & <-). rewrite E, Nat.eqb_refl. split; auto. assert (nth_error (p_methods P) m <> None) by congruence. apply nth_error_Some in H. lia.
Qed.

Lemma local_fold ms : (forall m, In m ms -> m < length (p_methods P)) -> forall r0, exists r, ofold (local_step P) ms r0 = Some r /\
  match r with
  | None => ms = [] /\ r0 = None
  | Some l => (ms <> [] \/ r0 <> None) /\ forall u, In u l <-> (forall l0, r0 = Some l0 -> In u l0) /\ forall m md, In m ms -> nth_error (p_methods P) m = Some md -> In u (m_subs md)
  end.
Proof.
  induction ms as [|m ms IH]; intros L r0; cbn [ofold].
  - exists r0. split; auto. destruct r0 as [l|]; auto. split; [right; discriminate|]. intros u. split; [intros H; split; [intros l0 [= <-]; auto|intros m md []]|intros [H _]; now apply H].
  - destruct (nth_error (p_methods P) m) as [md|] eqn:E; [|apply nth_error_None in E; specialize (L m (or_introl eq_refl)); lia].
    unfold local_step at 1, get. rewrite E. cbn [obind]. edestruct IH as (r & Er & H); [intros x Hx; apply L; now right|]. exists r. split; [exact Er|]. destruct r as [l|]; [|destruct H as [_ H]; discriminate].
    destruct H as [_ H]. split; [left; discriminate|]. intros u. rewrite H. clear H. split.
    + intros [H1 H2]. specialize (H1 _ eq_refl). destruct r0 as [l0|].
      * apply next_set_in in H1 as [H1 H3]. split; [intros l1 [= <-]; auto|]. intros m' md' [<-|I] E'; [congruence|eauto].
      * apply (proj1 (first_set_in _ _)) in H1. split; [intros l1 [=]|]. intros m' md' [<-|I] E'; [congruence|eauto].
    + intros [H1 H2]. split; [|intros m' md' I; apply H2; now right]. intros l1 [= <-]. destruct r0 as [l0|]; [apply next_set_in|apply first_set_in]; eauto using in_eq.
Qed.

Lemma gen_ok t : t < length (p_prim P) -> exists l, genLocalLMs P t = Some l /\ forall u, In u l <-> local P t u.
Proof.
  intros L. unfold genLocalLMs. destruct (nth_error (p_prim P) t) as [b|] eqn:E; [|apply nth_error_None in E; lia]. unfold get at 1. rewrite E. cbn [obind].
  destruct (local_fold (task_to_methods P t)) with (r0 := @None (list nat)) as (r & Er & H).
  { intros m Hm. apply ttm_in in Hm as (md & Em & _). apply nth_error_Some. congruence. }
  rewrite Er. cbn [obind]. eexists. split; [reflexivity|]. intros u. destruct r as [l|].
  - destruct H as [[NE|NE] H]; [|congruence]. rewrite H. unfold local. split.
    + intros [_ Q]. split; [destruct (task_to_methods P t) as [|m r] eqn:EM; [congruence|]; assert (I : In m (task_to_methods P t)) by (rewrite EM; now left); apply ttm_in in I as (md & Em & Et); exists md; split; auto; eapply nth_error_In; eauto|].
      intros md I Et. apply In_nth_error in I as (m & Em). apply (Q m md); auto. apply ttm_in. eauto.
    + intros [_ Q]. split; [intros l0 [=]|]. intros m md Im Em. apply ttm_in in Im as (md' & Em' & Et). assert (md' = md) by congruence. subst. apply Q; auto. eapply nth_error_In; eauto.
  - destruct H as [H _]. split; [intros []|]. intros [(md & I & Et) _]. apply In_nth_error in I as (m & Em). assert (Q : In m (task_to_methods P t)) by (apply ttm_in; eauto). rewrite H in Q. destruct Q.
Qed.
Lemma local_lt t u : local P t u -> u < length (p_prim P).
Proof. intros [(m & I & Et) H]. destruct (wf_methods _ WF m I) as [_ Q _]. apply Q. now apply H. Qed.

(** ** The rounds *)
Definition tasks_in (l : list nat) : Prop := forall t, In t l -> t < length (p_prim P).
Definition local_of (l : list nat) (u : nat) : Prop := exists t, In t l /\ local P t u.

Lemma first_fold ts : tasks_in ts -> forall c l, exists c' l', ofold (fun '(c, l) t => n <- genLocalLMs P t ;; Some (fold_left (fun c x => sadd x c) n c, fold_left (fun l x => sadd x l) n l)) ts (c, l) = Some (c', l') /\
  (forall u, In u c' <-> In u c \/ local_of ts u) /\ (forall u, In u l' <-> In u l \/ local_of ts u).
Proof.
  induction ts as [|t ts IH]; intros TI c l; cbn [ofold].
  - exists c, l. split; auto. split; intros u; split; auto; intros [H|(t & [] & _)]; auto.
  - destruct (gen_ok t) as (n & En & Hn); [apply TI; now left|]. rewrite En. cbn [obind]. edestruct IH as (c' & l' & E & H1 & H2); [intros x Hx; apply TI; now right|].
    exists c', l'. split; [exact E|]. assert (LO : forall u, local_of (t :: ts) u <-> local P t u \/ local_of ts u) by (intros u; split; [intros (x & [<-|I] & L); [auto|right; exists x; auto]|intros [L|(x & I & L)]; [exists t; split; auto; now left|exists x; split; auto; now right]]).
    split; intros u; [rewrite H1|rewrite H2]; rewrite fold_sadd_in, Hn, LO; tauto.
Qed.

Lemma add_fold n : forall c l, NoDup l -> NoDup c -> (forall u, In u c -> In u l) -> exists c' l',
  fold_left (fun '(c, l) x => if memb x l then (c, l) else (sadd x c, sadd x l)) n (c, l) = (c', l') /\ NoDup l' /\ NoDup c' /\ (forall u, In u c' -> In u l') /\
  (forall u, In u l' <-> In u l \/ In u n) /\ (forall u, In u c' <-> In u c \/ (In u n /\ ~ In u l)) /\ length l' + length c = length l + length c'.
Proof.
  induction n as [|x n IH]; intros c l ND NC CL; cbn [fold_left].
  - exists c, l. repeat split; auto; intros H; try tauto; destruct H as [H|H]; auto; [destruct H|destruct H as [[] _]].
  - destruct (memb x l) eqn:E.
    + apply memb_In in E. destruct (IH c l ND NC CL) as (c' & l' & Ef & N1 & N2 & CL' & H1 & H2 & LE). exists c', l'. split; auto. split; auto. split; auto. split; auto. split; [|split; auto].
      * intros u. rewrite H1. cbn. intuition (subst; auto).
      * intros u. rewrite H2. cbn. intuition (subst; auto). contradiction.
    + apply memb_false in E. assert (NIc : ~ In x c) by auto. destruct (IH (sadd x c) (sadd x l)) as (c' & l' & Ef & N1 & N2 & CL' & H1 & H2 & LE); [now apply sadd_nodup|now apply sadd_nodup|intros u; rewrite !sadd_in; intuition|].
      exists c', l'. split; auto. split; auto. split; auto. split; auto. rewrite !sadd_length in LE by auto. split; [|split; [|lia]].
      * intros u. rewrite H1, sadd_in. cbn. intuition.
      * intros u. rewrite H2, !sadd_in. cbn. destruct (Nat.eq_dec u x) as [->|D]; intuition.
Qed.

Lemma round_fold last : tasks_in last -> forall c l, NoDup l -> NoDup c -> (forall u, In u c -> In u l) -> exists c' l',
  ofold (fun st t => n <- genLocalLMs P t ;; Some (fold_left (fun '(c, l) x => if memb x l then (c, l) else (sadd x c, sadd x l)) n st)) last (c, l) = Some (c', l') /\
  NoDup l' /\ NoDup c' /\ (forall u, In u c' -> In u l') /\ (forall u, In u l' <-> In u l \/ local_of last u) /\ (forall u, In u c' <-> In u c \/ (local_of last u /\ ~ In u l)) /\ length l' + length c = length l + length c'.
Proof.
  induction last as [|t ts IH]; intros TI c l ND NC CL; cbn [ofold].
  - exists c, l. split; auto. split; auto. split; auto. split; auto. split; [|split; auto]; intros u; split; auto; [intros [H|(t & [] & _)]|intros [H|((t & [] & _) & _)]]; auto.
  - destruct (gen_ok t) as (n & En & Hn); [apply TI; now left|]. rewrite En. cbn [obind]. destruct (add_fold n c l ND NC CL) as (c1 & l1 & Ef & N1 & N2 & CL1 & H1 & H2 & L1). rewrite Ef.
    destruct (IH (fun x Hx => TI x (or_intror Hx)) c1 l1 N1 N2 CL1) as (c' & l' & E & N3 & N4 & CL2 & H3 & H4 & L2). exists c', l'. split; [exact E|]. split; auto. split; auto. split; auto.
    assert (LO : forall u, local_of (t :: ts) u <-> local P t u \/ local_of ts u) by (intros u; split; [intros (x & [<-|I] & L); [auto|right; exists x; auto]|intros [L|(x & I & L)]; [exists t; split; auto; now left|exists x; split; auto; now right]]).
    split; [|split; [|lia]].
    + intros u. rewrite H3, H1, Hn, LO. tauto.
    + intros u. rewrite H4, H2, H1, Hn, LO. destruct (in_dec Nat.eq_dec u n) as [I|I]; rewrite Hn in I; tauto.
Qed.

(** All of [l] but [c] has been processed, starting from [ts]. *)
Record rinv (ts c l : list nat) : Prop := {
  ri_nd : NoDup l;
  ri_sub : forall u, In u c -> In u l;
  ri_snd : forall u, In u l -> exists t, In t ts /\ recursive_local P t u;
  ri_init : forall u, local_of ts u -> In u l;
  ri_done : forall t u, In t l -> ~ In t c -> local P t u -> In u l }.

Lemma rinv_in ts c l : rinv ts c l -> tasks_in l.
Proof. intros RI u Hu. destruct (ri_snd _ _ _ RI u Hu) as (t & _ & Q). apply clos_trans_tn1 in Q. destruct Q as [u Q|u v Q _]; eapply local_lt; eauto. Qed.
Lemma rinv_small ts c l : rinv ts c l -> length l <= length (p_prim P).
Proof.
  intros RI. rewrite <- (seq_length (length (p_prim P)) 0). apply NoDup_incl_length; [apply RI|]. intros u Hu. apply in_seq. pose proof (rinv_in _ _ _ RI u Hu). lia.
Qed.

Lemma rounds_ok ts fuel : forall c l, rinv ts c l -> (c <> [] -> length (p_prim P) < fuel + length l) -> exists r, rounds fuel P c l = Some r /\ rinv ts [] r.
Proof.
  induction fuel as [|f IH]; intros c l RI LT.
  - destruct c as [|x c]; [exists l; split; auto|]. exfalso. pose proof (rinv_small _ _ _ RI). specialize (LT ltac:(discriminate)). lia.
  - destruct c as [|x c]; [exists l; split; auto|]. specialize (LT ltac:(discriminate)). cbn [rounds]. unfold next_round.
    assert (TI : tasks_in (x :: c)) by (intros u Hu; apply (rinv_in _ _ _ RI); now apply (ri_sub _ _ _ RI)).
    destruct (round_fold (x :: c) TI [] l (ri_nd _ _ _ RI) (NoDup_nil _)) as (c' & l' & E & N1 & N2 & CL & H1 & H2 & LE); [intros u []|]. rewrite E. cbn [obind]. apply IH.
    + split; auto.
      * intros u Hu. apply H1 in Hu as [Hu|(t & It & Lt)]; [apply RI; auto|]. destruct (ri_snd _ _ _ RI t (ri_sub _ _ _ RI t It)) as (t0 & I0 & Q). exists t0. split; auto. eapply t_trans; [exact Q|now apply t_step].
      * intros u Hu. apply H1. left. now apply (ri_init _ _ _ RI).
      * intros t u It Nt Lt. apply H1. destruct (in_dec Nat.eq_dec t (x :: c)) as [I|I]; [right; exists t; auto|]. left.
        apply H1 in It as [It|It]; [eapply (ri_done _ _ _ RI); eauto|]. destruct (in_dec Nat.eq_dec t l) as [J|J]; [eapply (ri_done _ _ _ RI); eauto|]. elim Nt. apply H2. auto.
    + intros NE. destruct c' as [|y c']; [congruence|]. cbn [length] in LE. lia.
Qed.

Lemma sadd_incr x l : StronglySorted lt l -> StronglySorted lt (sadd x l).
Proof.
  induction 1 as [|y l SS IH FA]; cbn [sadd]; [repeat constructor|]. destruct (Nat.ltb_spec x y).
  - constructor; [constructor; auto|]. constructor; auto. eapply Forall_impl; [|exact FA]. cbn. lia.
  - destruct (Nat.eqb_spec x y); [constructor; auto|]. constructor; auto. apply Forall_forall. intros z Hz. apply sadd_in in Hz as [->|Hz]; [lia|]. rewrite Forall_forall in FA. auto.
Qed.
Lemma incr_nodup l : StronglySorted lt l -> NoDup l.
Proof. induction 1 as [|y l SS IH FA]; constructor; auto. rewrite Forall_forall in FA. intros I. specialize (FA _ I). lia. Qed.
Lemma first_incr ts : tasks_in ts -> forall c l c' l', StronglySorted lt l -> ofold (fun '(c, l) t => n <- genLocalLMs P t ;; Some (fold_left (fun c x => sadd x c) n c, fold_left (fun l x => sadd x l) n l)) ts (c, l) = Some (c', l') -> StronglySorted lt l'.
Proof.
  induction ts as [|t ts IH]; intros TI c l c' l' ND E; cbn [ofold] in E; [injection E as <- <-; auto|]. destruct (gen_ok t) as (n & En & _); [apply TI; now left|]. rewrite En in E. cbn [obind] in E.
  eapply IH; [intros x Hx; apply TI; now right| |exact E]. clear -ND. revert l ND. induction n as [|x n IH]; intros l ND; cbn [fold_left]; auto. apply IH. now apply sadd_incr.
Qed.

Lemma all_rounds ts : tasks_in ts -> exists r, ('(c, l) <- first_round P ts ;; rounds (S (length (p_prim P))) P c l) = Some r /\ forall u, In u r <-> exists t, In t ts /\ recursive_local P t u.
Proof.
  intros TI. unfold first_round. destruct (first_fold ts TI [] []) as (c & l & E & H1 & H2). pose proof (first_incr ts TI _ _ _ _ (SSorted_nil _) E) as SS. rewrite E. cbn [obind].
  destruct (rounds_ok ts (S (length (p_prim P))) c l) as (r & Er & RI).
  - split; [now apply incr_nodup|intros u Hu; apply H2; now apply H1| |intros u Hu; apply H2; auto|].
    + intros u Hu. apply H2 in Hu as [[]|(t & It & Lt)]. exists t. split; auto. now apply t_step.
    + intros t u It Nt. elim Nt. apply H1. now apply H2.
  - lia.
  - exists r. split; auto. intros u. split; [apply RI|]. intros (t & It & Q). apply clos_trans_tn1 in Q. induction Q as [u Q|u v Q _ IH]; [apply (ri_init _ _ _ RI); exists t; auto|].
    eapply (ri_done _ _ _ RI); [exact IH|intros []|exact Q].
Qed.

(** ** The steps of the network *)
Section Steps.
Variable h : list pstep.
Hypothesis WH : wf_heap P h.

Definition deg (i : nat) : nat := match get h i with Some ps => length (ps_succ ps) | None => 0 end.
(** The edges that can still be followed *)
Definition left_edges (done : list nat) : nat := list_sum (map (fun i => if memb i done then 0 else deg i) (seq 0 (length h))).

Lemma push_fold done sc : forall st, fold_left (fun st j => if memb j done then st else j :: st) sc st = rev (filter (fun j => negb (memb j done)) sc) ++ st.
Proof.
  induction sc as [|j sc IH]; intros st; cbn [fold_left filter]; auto. rewrite IH. destruct (memb j done); cbn [negb]; auto. cbn [rev]. now rewrite <- app_assoc.
Qed.

Lemma sum_drop (f g : nat -> nat) i d l : NoDup l -> In i l -> f i = 0 -> g i = d -> (forall j, j <> i -> f j = g j) -> list_sum (map f l) + d = list_sum (map g l).
Proof.
  intros ND I Fi Gi EQ. induction l as [|x l IH]; [destruct I|]. inversion ND as [|? ? NI ND']; subst. cbn [map list_sum fold_right]. change (fold_right Nat.add 0) with list_sum. destruct (Nat.eq_dec x i) as [->|D].
  - rewrite Fi. assert (E : map f l = map g l) by (apply map_ext_in; intros j Hj; apply EQ; congruence). rewrite E. lia.
  - destruct I as [I|I]; [congruence|]. rewrite (EQ x D). specialize (IH ND' I). lia.
Qed.
Lemma left_drop done i : i < length h -> ~ In i done -> left_edges (sadd i done) + deg i = left_edges done.
Proof.
  intros L N. unfold left_edges. apply (sum_drop _ _ i); [apply seq_NoDup|apply in_seq; lia| | |].
  - destruct (memb i (sadd i done)) eqn:E; auto. apply memb_false in E. elim E. apply sadd_in. auto.
  - apply memb_false in N. now rewrite N.
  - intros j D. assert (E : memb j (sadd i done) = memb j done); [|now rewrite E]. destruct (memb j done) eqn:E; [apply memb_In; apply sadd_in; right; now apply memb_In|]. apply memb_false. rewrite sadd_in. apply memb_false in E. tauto.
Qed.
Lemma left_same done i : In i done -> left_edges (sadd i done) = left_edges done.
Proof.
  intros I. unfold left_edges. f_equal. apply map_ext. intros j. assert (E : memb j (sadd i done) = memb j done); [|now rewrite E]. destruct (memb j done) eqn:E; [apply memb_In; apply sadd_in; right; now apply memb_In|].
  apply memb_false. rewrite sadd_in. apply memb_false in E. intros [->|Q]; auto.
Qed.

(** A successor of a step that is done is done or above all further copies of the step. *)
Definition above (todo done : list nat) : Prop := forall i j, In i done -> edge h i j -> ~ In j done -> exists s1 s2, todo = s1 ++ j :: s2 /\ ~ In i s1.

Record sinv (n : node) (todo done tasks : list nat) : Prop := {
  si_todo : forall i, In i todo -> live h n i;
  si_done : forall i, In i done -> live h n i;
  si_head : forall i, In i (heads n) -> In i todo \/ In i done;
  si_abv : above todo done;
  si_tasks : forall t, In t tasks <-> exists i ps, In i done /\ get h i = Some ps /\ ps_task ps = t }.

Lemma steps_ok n : (forall i, In i (heads n) -> i < length h) -> forall fuel todo done tasks, sinv n todo done tasks -> length todo + left_edges done <= fuel ->
  exists r done', steps_loop fuel h todo done tasks = Some r /\ sinv n [] done' r.
Proof.
  intros HL. induction fuel as [|f IH]; intros todo done tasks SI LE; (destruct todo as [|i todo]; [exists tasks, done; split; auto|]); [cbn [length] in LE; lia|].
  cbn [steps_loop]. assert (LV : live h n i) by (apply (si_todo _ _ _ _ SI); now left). pose proof (live_lt P h n i WH HL LV) as Li.
  destruct (get h i) as [ps|] eqn:E; [|unfold get in E; apply nth_error_None in E; lia]. cbn [obind]. rewrite push_fold.
  set (new := filter (fun j => negb (memb j (sadd i done))) (ps_succ ps)).
  assert (NW : forall j, In j new <-> edge h i j /\ ~ In j (sadd i done)).
  { intros j. unfold new. rewrite filter_In, Bool.negb_true_iff, memb_false. split; [intros [H1 H2]; split; auto; exists ps; auto|]. intros [(ps' & E' & H1) H2]. assert (ps' = ps) by congruence. subst. auto. }
  apply IH.
  - split.
    + intros j Hj. apply in_app_or in Hj as [Hj|Hj]; [|apply (si_todo _ _ _ _ SI); now right]. apply in_rev in Hj. apply NW in Hj as [Hj _]. eapply live_step; [exact LV|]. now apply rt_step.
    + intros j Hj. apply sadd_in in Hj as [->|Hj]; auto. now apply (si_done _ _ _ _ SI).
    + intros j Hj. destruct (si_head _ _ _ _ SI j Hj) as [[->|H]|H]; [right; apply sadd_in; auto|left; apply in_or_app; auto|right; apply sadd_in; auto].
    + intros x j Hx Ex Nj. assert (XN : ~ In x (rev new)) by (rewrite <- in_rev, NW; tauto). destruct (Nat.eq_dec x i) as [->|D].
      * assert (I : In j (rev new)) by (apply -> in_rev; apply NW; auto). apply in_split in I as (s1 & s2 & Es). exists s1, (s2 ++ todo). rewrite Es, <- app_assoc. split; auto. intros Q. apply XN. rewrite Es. apply in_or_app. auto.
      * apply sadd_in in Hx as [Hx|Hx]; [congruence|]. rewrite sadd_in in Nj. destruct (si_abv _ _ _ _ SI x j Hx Ex) as (s1 & s2 & Es & Ns); [tauto|]. destruct s1 as [|y s1]; injection Es as -> ->; [tauto|].
        exists (rev new ++ s1), s2. rewrite <- app_assoc. split; auto. intros Q. apply in_app_or in Q as [Q|Q]; auto. apply Ns. now right.
    + intros t. rewrite sadd_in, (si_tasks _ _ _ _ SI t). split.
      * intros [->|(j & ps' & H1 & H2 & H3)]; [exists i, ps; rewrite sadd_in; auto|exists j, ps'; rewrite sadd_in; auto].
      * intros (j & ps' & H1 & H2 & H3). apply sadd_in in H1 as [->|H1]; [left; congruence|right; exists j, ps'; auto].
  - rewrite app_length, rev_length. cbn [length] in LE. destruct (in_dec Nat.eq_dec i done) as [I|I].
    + assert (EN : new = []). { destruct new as [|j r] eqn:En; auto. exfalso. destruct (proj1 (NW j) (or_introl eq_refl)) as [Ej Nj]. rewrite sadd_in in Nj. destruct (si_abv _ _ _ _ SI i j I Ej) as (s1 & s2 & Es & Ns); [tauto|]. destruct s1 as [|y s1]; injection Es as <- _; [tauto|apply Ns; now left]. }
      rewrite EN. cbn [length]. rewrite (left_same done i I). lia.
    + assert (LN : length new <= deg i). { unfold deg. rewrite E. unfold new. clear. induction (ps_succ ps) as [|x l IH]; cbn [filter]; [auto|]. destruct (negb (memb x (sadd i done))); cbn [length]; lia. }
      pose proof (left_drop done i Li I). lia.
Qed.

Lemma left_all : left_edges [] = list_sum (map (fun ps => length (ps_succ ps)) h).
Proof.
  unfold left_edges. f_equal. cbn [memb existsb]. unfold deg, get. clear. induction h as [|x l IH] using rev_ind; auto. rewrite app_length, seq_app, !map_app. cbn [length seq map]. rewrite <- IH. f_equal; [apply map_ext_in; intros i Hi; apply in_seq in Hi; rewrite nth_error_app1 by lia; auto|].
  rewrite nth_error_app2 by lia. replace (0 + length l - length l) with 0 by lia. auto.
Qed.

Lemma initial_ok n : (forall i, In i (heads n) -> i < length h) -> exists ts, initialTasks h n = Some ts /\ forall t, In t ts <-> exists i ps, live h n i /\ get h i = Some ps /\ ps_task ps = t.
Proof.
  intros HL. unfold initialTasks. destruct (steps_ok n HL (steps_fuel h n) (rev (n_prim n ++ n_abs n)) [] []) as (r & d & E & SI).
  - split.
    + intros i Hi. apply in_rev in Hi. apply live_head. unfold heads. apply in_or_app. apply in_app_or in Hi. tauto.
    + intros i [].
    + intros i Hi. left. apply -> in_rev. unfold heads in Hi. apply in_or_app. apply in_app_or in Hi. tauto.
    + intros i j [].
    + intros t. split; [intros []|]. intros (i & ps & [] & _).
  - rewrite rev_length, app_length, left_all. unfold steps_fuel. lia.
  - exists r. split; auto. intros t. rewrite (si_tasks _ _ _ _ SI t).
    assert (DL : forall i, live h n i <-> In i d).
    { intros i. split; [|apply SI]. intros (x & Hx & Q). apply clos_rt_rtn1 in Q. induction Q as [|y z Eyz _ IH]; [destruct (si_head _ _ _ _ SI x Hx) as [[]|]; auto|].
      destruct (in_dec Nat.eq_dec z d) as [I|I]; auto. destruct (si_abv _ _ _ _ SI y z IH Eyz I) as (s1 & s2 & Es & _). destruct s1; discriminate. }
    split; intros (i & ps & H1 & H2 & H3); exists i, ps; (split; [now apply DL|auto]).
Qed.
End Steps.

(** ** All together *)
Lemma generate_ok h n : wf_heap P h -> (forall i, In i (heads n) -> i < length h) -> exists r, generateLocalLMs P h n = Some r /\
  forall u, In u r <-> exists i ps, live h n i /\ get h i = Some ps /\ recursive_local P (ps_task ps) u.
Proof.
  intros WH HL. unfold generateLocalLMs. destruct (initial_ok h WH n HL) as (ts & E & H). rewrite E. cbn [obind]. destruct (all_rounds ts) as (r & Er & Hr).
  { intros t Ht. apply H in Ht as (i & ps & _ & Ei & <-). eapply (wh_task _ _ WH); eauto. }
  exists r. split; [exact Er|]. intros u. rewrite Hr. split.
  - intros (t & Ht & Q). apply H in Ht as (i & ps & H1 & H2 & <-). eauto.
  - intros (i & ps & H1 & H2 & Q). exists (ps_task ps). split; auto. apply H. eauto.
Qed.
End P.
