(** Every node of a history represents a state and
    a task network; continuations of the node are continuations of the initial problem. *)
From Coq Require Import Relations.
From Verif Require Import Base Rel Htn_model Htn_spec Htn_sem Htn_iso Htn_rep Htn_proof Htn_history Htn_search.

Section Hist.
  Variables (P : problem) (C : config).
  Hypothesis WP : wf_problem P.
  Hypothesis HP : forall l, Permutation l (c_perm C l).

  Lemma history_ok w l : history P C w l ->
    wf_heap P (w_heap w) /\ forall n, In n l -> exists s tn pi, NInv P w n s tn pi.
  Proof.
    induction 1 as [w n E | w l n i x tk fuel w' n' H IH Hn NA Gx Tx Ap E | w l n i x tk mi fuel w' n' H IH Hn Gx Tx Hm E | w l l' H IH I].
    - destruct (init_rep P WP w n E) as (W & N & _). split; auto. intros q [<-|[]]. eauto.
    - destruct IH as (W & IN). destruct (IN n Hn) as (s & tn & pi & N). pose proof N as (R & _).
      unfold task_of in Tx. apply obind_some in Tx as (ps & Gp & [= <-]).
      pose proof (isApplicable_spec _ _ _ _ s Ap (r_state _ _ _ _ _ _ R)) as AP.
      destruct (proj1 (apply_ok P C WP HP fuel) w n i w' n' s tn pi x ps W R Gx Gp (proj1 AP eq_refl) E)
        as (s' & tn' & acts & Hh & R' & PL & CO & SO & SN & CM & _).
      split; [now rewrite Hh|]. intros q [<-|Hq].
      + exists s', tn', pi. eapply NInv_succ; eauto.
        assert (Min : minimal tn (pi x)).
        { apply (r_min _ _ _ _ _ _ R). unfold heads. apply in_or_app. right. eapply nth_error_In; exact Gx. }
        assert (Lab : t_lab tn (pi x) = ps_task ps).
        { eapply (r_lab _ _ _ _ _ _ R); eauto. apply live_head. unfold heads. apply in_or_app. right. eapply nth_error_In; exact Gx. }
        assert (Prm : primitive P (ps_task ps)).
        { eapply (r_prim _ _ _ _ _ _ R); eauto. eapply nth_error_In; exact Gx. }
        intros k plan HS. destruct (SN _ _ HS) as (k' & HS').
        exists (S k'). rewrite <- Lab in *. simpl. apply solvesk_act; auto; [apply wf_acyclic; auto|apply (r_wf _ _ _ _ _ _ R)|now apply AP].
      + destruct (IN q Hq) as (a & b & c & N'). exists a, b, c. eapply (NInv_ext P w w' []); eauto. now rewrite app_nil_r.
    - destruct IH as (W & IN). destruct (IN n Hn) as (s & tn & pi & N). pose proof N as (R & _).
      unfold task_of in Tx. apply obind_some in Tx as (ps & Gp & [= <-]).
      assert (HM : exists m, nth_error (p_methods P) mi = Some m /\ ps_task ps = m_task m).
      { unfold task_to_methods in Hm. apply filter_In in Hm as [_ Hm].
        destruct (nth_error (p_methods P) mi) as [m|]; [|discriminate]. apply Nat.eqb_eq in Hm. eauto. }
      destruct HM as (m & Gm & Tm).
      destruct (decompose_ok P C WP HP fuel w n i mi w' n' s tn pi x ps m W R Gx Gp Gm Tm E)
        as (e & pi' & s' & tn' & acts & Hh & W1 & R' & PL & CO & SO & SN & CM).
      split; auto. intros q [<-|Hq].
      + exists s', tn', pi'. eapply NInv_succ; eauto.
      + destruct (IN q Hq) as (a & b & c & N'). exists a, b, c. eapply (NInv_ext P w w' e); eauto.
    - destruct IH as (W & IN). split; auto.
  Qed.

  (** The nodes on the way are exactly the progression states of the semantics. *)
  Lemma history_node w l n : history P C w l -> In n l ->
    exists s tn pi, Rep P (w_heap w) n s tn pi /\
      n_cost n = plan_cost P (printed_plan n) /\
      (forall plan, solves P s tn plan -> solution P (printed_plan n ++ plan)).
  Proof.
    intros H Hn. destruct (history_ok w l H) as (W & IN). destruct (IN n Hn) as (s & tn & pi & R & SO & CO & SN).
    exists s, tn, pi. rewrite (printed_plan_of n SO). split; auto. split; auto.
    intros plan HS. apply solves_solvesk in HS as (k & HS); [|auto using wf_acyclic|apply (r_wf _ _ _ _ _ _ R)].
    destruct (SN _ _ HS) as (k' & HS'). apply solves_solvesk; eauto using wf_acyclic.
    split; simpl; intros; try tauto. now subst.
  Qed.
End Hist.

(** The tasks offered as ready are exactly the tasks without predecessor. *)
Lemma Rep_ready P h n s tn pi : Rep P h n s tn pi ->
  forall x, minimal tn x <-> exists i, In i (n_abs n ++ n_prim n) /\ pi i = x.
Proof.
  intros R x. split.
  - intros M. destruct (minimal_head _ _ _ _ _ _ _ R M) as (i & Hi & E). eauto.
  - intros (i & Hi & <-). now apply (r_min _ _ _ _ _ _ R).
Qed.

(** ** Semantic statements *)
Lemma decompose_choice P s tn x plan : wf_problem P -> wf_tn tn -> minimal tn x -> ~ primitive P (t_lab tn x) ->
  (solves P s tn plan <-> exists m tn', decomposes P tn x m tn' /\ solves P s tn' plan).
Proof.
  intros WP W M NP. split.
  - intros HS. apply solves_solvesk in HS as (k & HS); auto using wf_acyclic.
    destruct (solvesk_dec_complete P s tn x k plan (wf_acyclic P WP) W) as (m & c & k' & -> & D & HS'); auto; [apply M|].
    exists m, c. split; auto. apply solves_solvesk; eauto using wf_acyclic.
    eapply decomposes_wf; eauto. apply (wf_acyclic P WP). apply D.
  - intros (m & c & D & HS). destruct HS as (tn2 & L & R & Q). exists tn2, L. split; auto. econstructor; eauto.
Qed.

Lemma action_choice P s tn plan : wf_problem P -> wf_tn tn ->
  (forall x, minimal tn x -> primitive P (t_lab tn x)) -> (exists x, t_in tn x) ->
  (solves P s tn plan <-> exists x plan', minimal tn x /\ applicable P s (t_lab tn x) /\ plan = t_lab tn x :: plan' /\
                            solves P (result P s (t_lab tn x)) (minus tn x) plan').
Proof.
  intros WP W AP NE. split.
  - intros HS. apply solves_solvesk in HS as (k & HS); auto using wf_acyclic.
    destruct (solvesk_act_complete P s tn k plan (wf_acyclic P WP) (wf_abstract P WP) (wf_nonempty P WP) W NE AP HS)
      as (x & k' & plan' & M & A & -> & -> & HS'). exists x, plan'. split; auto. split; auto. split; auto.
    apply solves_solvesk; eauto using wf_acyclic, minus_wf.
  - intros (x & plan' & M & A & -> & HS). apply solves_solvesk in HS as (k & HS); auto using wf_acyclic, minus_wf.
    apply solves_solvesk; auto using wf_acyclic. exists (S k). apply solvesk_act; auto using wf_acyclic.
Qed.

Lemma effectless_safe P s tn x : wf_problem P -> wf_tn tn -> minimal tn x -> primitive P (t_lab tn x) ->
  applicable P s (t_lab tn x) -> effectless P (t_lab tn x) ->
  (forall plan, solves P (result P s (t_lab tn x)) (minus tn x) plan -> solves P s tn (t_lab tn x :: plan)) /\
  (forall plan, solves P s tn plan ->
     exists plan', Permutation plan (t_lab tn x :: plan') /\ solves P (result P s (t_lab tn x)) (minus tn x) plan').
Proof.
  intros WP W M Pr A El. split.
  - intros plan HS. apply solves_solvesk in HS as (k & HS); auto using wf_acyclic, minus_wf.
    apply solves_solvesk; auto using wf_acyclic. exists (S k). apply solvesk_act; auto using wf_acyclic.
  - intros plan HS. apply solves_solvesk in HS as (k & HS); auto using wf_acyclic.
    destruct (solvesk_effectless P s tn x k plan (wf_acyclic P WP) (wf_abstract P WP) W M Pr A El HS) as (k' & plan' & -> & PM & HS').
    exists plan'. split; auto. apply solves_solvesk; eauto using wf_acyclic, minus_wf.
Qed.
