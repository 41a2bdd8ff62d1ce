(** Runs on parallel sequences: soundness and completeness for task networks. *)
From Coq Require Import Relations.
From Verif Require Import Base Htn_problem Htn_spec Htn_sem Htn_iso Htn_proof Sas_model Push_sys Push_run Push_thm Pseq_spec Pseq_net.

(** [None]: the initial task has not been decomposed. *)
Definition astate : Type := option (list (nat * nat) * rows).
Inductive pop := PTop (i : nat) | PAct (i j k : nat) | PMeth (i j k : nat).
Definition pacts (l : list pop) : list nat := concat (map (fun o => match o with PAct i _ _ => [i] | _ => [] end) l).

(** ** Networks with fewer orderings have all solutions of the network *)
Record weaker (a b : tnet) : Prop := {
  wk_in : forall x, t_in a x <-> t_in b x;
  wk_lab : forall x, t_in a x -> t_lab a x = t_lab b x;
  wk_ord : forall x y, t_ord b x y -> t_ord a x y }.
Lemma weak_dec P a b x m a' : weaker a b -> wf_tn b -> decomposes P a x m a' -> exists b', decomposes P b x m b' /\ weaker a' b'.
Proof.
  intros [WI WL WO] W D. assert (DB : decomposes P b x m (decF b x m)) by (apply decF_decomposes; [auto|apply D|apply WI, D|rewrite <- WL; apply D]). exists (decF b x m). split; auto. split.
  - intros y. rewrite (d_in' _ _ _ _ _ D), (d_in' _ _ _ _ _ DB), WI. tauto.
  - intros y I. apply (d_in' _ _ _ _ _ D) in I as [[I N]|(j & L & ->)].
    + rewrite (d_lab_old _ _ _ _ _ D y I N). rewrite (d_lab_old _ _ _ _ _ DB y (proj1 (WI y) I) N). now apply WL.
    + apply nth_error_Some in L. destruct (nth_error (m_subs m) j) as [t|] eqn:E; [|congruence]. rewrite (d_lab_new _ _ _ _ _ D j t E). now rewrite (d_lab_new _ _ _ _ _ DB j t E).
  - intros y z O. apply (d_ord _ _ _ _ _ DB) in O. apply (d_ord _ _ _ _ _ D). destruct O as [(A & B & C & E & F)|[O|[(j & A & B & C & E & F)|(j & A & B & C & E & F)]]].
    + left. repeat split; auto; now apply WI.
    + right. left. exact O.
    + right. right. left. exists j. repeat split; auto. now apply WI.
    + right. right. right. exists j. repeat split; auto. now apply WI.
Qed.
Lemma weak_solves P s a b k plan : acyclic_methods P -> wf_tn b -> weaker a b -> solvesk P s a k plan -> solvesk P s b k plan.
Proof.
  intros AC W H (d & a' & L & R & PR & HL & -> & EX & GO & ->).
  assert (X : exists b', refn P d b b' /\ weaker a' b').
  { clear PR HL EX GO. revert b W H. induction R as [tn|d tn x m tn' tn'' D R IH]; intros b W H; [exists b; split; [constructor|auto]|]. destruct (weak_dec P tn b x m tn' H W D) as (b' & Db & Hb). destruct (IH b') as (b'' & Rb & Hb'); auto.
    - refine (decomposes_wf P _ _ _ _ W _ Db). apply (AC m (d_method _ _ _ _ _ Db)).
    - exists b''. split; auto. econstructor; eauto. }
  destruct X as (b' & Rb & [WI WL WO]). assert (M : map (t_lab a') L = map (t_lab b') L) by (apply map_ext_in; intros x I; apply WL; now apply HL). destruct HL as (ND & HI & HF).
  exists d, b', L. split; [exact Rb|]. split; [intros x I; apply WI in I as J; rewrite <- WL by auto; auto|]. split; [|auto]. split; [exact ND|]. split; [intros x; rewrite HI; apply WI|]. eapply fop_weaken; [|exact HF]. cbn. intros x y _ _ N O. apply N. now apply WO.
Qed.
(** The method with the listing of its subtasks as only order *)
Definition tot (m : method) : method := {| m_task := m_task m; m_subs := m_subs m; m_ord := concat (map (fun b => map (fun a => (a, b)) (seq 0 b)) (seq 0 (length (m_subs m)))) |}.
Lemma tot_ord m a b : In (a, b) (m_ord (tot m)) <-> a < b < length (m_subs m).
Proof.
  cbn. rewrite in_concat. split.
  - intros (l & I & J). apply in_map_iff in I as (y & <- & I). apply in_map_iff in J as (x & [= <- <-] & J). apply in_seq in I, J. lia.
  - intros L. exists (map (fun a => (a, b)) (seq 0 b)). split; [apply (in_map (fun b => map (fun a => (a, b)) (seq 0 b))), in_seq; lia|]. apply (in_map (fun a => (a, b))), in_seq. lia.
Qed.
Lemma tot_lt m a b : m_lt (tot m) a b <-> a < b < length (m_subs m).
Proof. split; [|intros L; apply t_step; now apply tot_ord]. induction 1 as [a b H|a b d _ IH1 _ IH2]; [now apply tot_ord|lia]. Qed.
Lemma tot_weaker tn x m : (forall a b, m_lt m a b -> a < b < length (m_subs m)) -> weaker (decF tn x (tot m)) (decF tn x m).
Proof.
  intros H. split; cbn; [tauto|auto|]. intros y z [O|[(j & k & A & B & C & D & E)|[O|O]]]; auto. right. left. exists j, k. repeat split; auto. apply tot_lt. auto.
Qed.
Lemma tot_wf tn x m : wf_tn tn -> t_in tn x -> t_lab tn x = m_task m -> wf_tn (decF tn x (tot m)).
Proof.
  intros W I L. set (P := {| p_nfacts := 0; p_prim := []; p_prec := []; p_add := []; p_del := []; p_cost := []; p_methods := [tot m]; p_init := 0; p_s0 := []; p_goal := [] |}).
  assert (D : decomposes P tn x (tot m) (decF tn x (tot m))) by (apply decF_decomposes; auto; now left). refine (decomposes_wf P _ _ _ _ W _ D). intros j H. apply tot_lt in H. lia.
Qed.

Section Run.
  Variables (P : problem) (n pgb : nat).
  Hypotheses (WF : wf_problem P) (AF : forall t, t < length (p_cost P) -> primitive P t).
  Hypothesis (TOP : forall m, In m (p_methods P) -> forall a b, In (a, b) (m_ord m) -> a < b).

  Inductive prun : state -> astate -> list pop -> state -> astate -> Prop :=
  | pr_nil s A : prun s A [] s A
  | pr_top s i m l s' A' : nth_error (p_methods P) i = Some m -> m_task m = p_init P -> prun s (Some (mord m, start m)) l s' A' -> prun s None (PTop i :: l) s' A'
  | pr_act s o r i k t l s' A' : i < length (p_cost P) -> k < n -> r k = i :: t -> free o r k -> applicable P s i ->
      prun (result P s i) (Some (o, put r k t)) l s' A' -> prun s (Some (o, r)) (PAct i (length t) k :: l) s' A'
  | pr_meth s o r i m k t l s' A' : nth_error (p_methods P) i = Some m -> m_task m <> p_init P -> k < n -> r k = m_task m :: t -> free o r k -> length (m_subs m) + length t <= pgb ->
      prun s (Some (o, put r k (m_subs m ++ t))) l s' A' -> prun s (Some (o, r)) (PMeth i (length t) k :: l) s' A'.

  Hypothesis (SW : forall m, In m (p_methods P) -> m_task m = p_init P -> length (m_subs m) = n).

  Definition anet (A : astate) : tnet := match A with None => initial_network P | Some (o, r) => net n o r end.
  Definition aok (A : astate) : Prop := match A with None => True | Some (o, _) => forall a b, In (a, b) o -> b < a < n end.
  Definition adone (A : astate) : Prop := match A with None => False | Some (_, r) => forall k, k < n -> r k = [] end.
  Lemma anet_wf A : aok A -> wf_tn (anet A).
  Proof. destruct A as [[o r]|]; cbn; [intros OR; now apply net_wf|intros _; apply init_wf]. Qed.
  Lemma mord_ok m : In m (p_methods P) -> m_task m = p_init P -> forall a b, In (a, b) (mord m) -> b < a < n.
  Proof.
    intros I E a b J. unfold mord in J. rewrite (SW m I E) in J. apply in_map_iff in J as ([x y] & [= <- <-] & J). assert (X := TOP m I x y J). assert (Y := proj2 (wfm_ord P m (wf_methods P WF m I) x y J)). rewrite (SW m I E) in Y. lia.
  Qed.
  Lemma ord_lt' m : In m (p_methods P) -> forall a b, m_lt m a b -> a < b < length (m_subs m).
  Proof. intros I a b H. induction H as [a b H|a b d _ IH1 _ IH2]; [|lia]. split; [eapply TOP; eauto|]. apply (wfm_ord P m (wf_methods P WF m I) a b H). Qed.
  Lemma subs1 m : In m (p_methods P) -> 1 <= length (m_subs m).
  Proof. intros I. assert (X := wfm_nonempty P m (wf_methods P WF m I)). destruct (m_subs m); [congruence|cbn; lia]. Qed.
  Lemma top_iso m : In m (p_methods P) -> m_task m = p_init P -> exists f, iso f (decF (initial_network P) [] m) (net n (mord m) (start m)).
  Proof. intros I E. rewrite <- (SW m I E). apply net_top. intros a b H. apply ord_lt'; auto. now apply t_step. Qed.

  Lemma prun_sound s A l s' A' : prun s A l s' A' -> aok A -> adone A' -> goal_state P s' -> exists k, solvesk P s (anet A) k (pacts l).
  Proof.
    assert (AC := wf_acyclic P WF). induction 1 as [s A|s i m l s' A' EM ET R IH|s o r i k t l s' A' Li Lk ER FR AP R IH|s o r i m k t l s' A' EM ET Lk ER FR LE R IH]; intros OK Z G.
    - exists 0. apply solvesk_done; auto. destruct A as [[o r]|]; cbn in *; [|tauto]. intros x (k & i & _ & L & X). rewrite Z in X by auto. cbn in X. lia.
    - assert (IM : In m (p_methods P)) by (eapply nth_error_In; eauto). destruct (IH (mord_ok m IM ET) Z G) as (k & SL). exists (S k). unfold pacts. cbn [map concat app]. destruct (top_iso m IM ET) as (f & IF).
      assert (D : decomposes P (initial_network P) [] m (decF (initial_network P) [] m)) by (apply decF_decomposes; auto; [apply init_wf|reflexivity]).
      apply (solvesk_dec P s (initial_network P) [] m (decF (initial_network P) [] m)); auto. refine (solvesk_iso P s s _ (decF (initial_network P) [] m) k _ AC _ _ _ SL).
      + apply anet_wf. exact (mord_ok m IM ET).
      + refine (decomposes_wf P _ _ _ _ (init_wf P) _ D). apply (AC m IM).
      + split; [tauto|]. exists (fun x y => f y x). now apply iso_sym.
    - destruct (IH OK Z G) as (d & SL). exists (S d). unfold pacts. cbn [map concat app]. cbn [anet]. assert (MIN := net_minimal n o r k i t Lk ER FR).
      assert (LB : t_lab (net n o r) [k; length t] = i) by (cbn; rewrite ER; cbn; rewrite app_nth2 by (rewrite rev_length; lia); rewrite rev_length, Nat.sub_diag; reflexivity). rewrite <- LB at 1.
      apply solvesk_act; rewrite ?LB; auto; [apply net_wf; auto|]. apply (solvesk_ext P _ (result P s i) (net n o (put r k t)) (minus (net n o r) [k; length t]) d _ (fun f => iff_refl _)); [|exact SL]. apply teq_sym. now apply net_leave with i.
    - assert (IM : In m (p_methods P)) by (eapply nth_error_In; eauto). destruct (IH OK Z G) as (d & SL). exists (S d). unfold pacts. cbn [map concat app]. cbn [anet]. assert (MIN := net_minimal n o r k (m_task m) t Lk ER FR).
      assert (W := net_wf n o OK r).
      destruct (net_dec n o OK r k (tot m) t Lk ER (subs1 m IM) (fun a b L => proj2 (tot_lt m a b) L) (fun a b H => proj1 (proj1 (tot_lt m a b) H))) as (f & IF).
      assert (D : decomposes P (net n o r) [k; length t] m (decF (net n o r) [k; length t] m)) by (apply decF_decomposes; auto; [apply MIN|cbn; rewrite ER; cbn; rewrite app_nth2 by (rewrite rev_length; lia); rewrite rev_length, Nat.sub_diag; reflexivity]).
      apply (solvesk_dec P s (net n o r) [k; length t] m (decF (net n o r) [k; length t] m)); auto. apply (weak_solves P s (decF (net n o r) [k; length t] (tot m))); auto.
      + refine (decomposes_wf P _ _ _ _ W _ D). apply (AC m IM).
      + apply tot_weaker. now apply ord_lt'.
      + refine (solvesk_iso P s s _ (decF (net n o r) [k; length t] (tot m)) d _ AC _ _ _ SL).
        * apply anet_wf. exact OK.
        * apply tot_wf; auto; apply D.
        * split; [tauto|]. exists (fun x y => f y x). now apply iso_sym.
  Qed.

  (** ** Completeness *)
  Hypotheses (SQ : sequences P) (ONCE : init_once P).
  Variable D : nat.
  Hypothesis (SIZE : forall m, In m (p_methods P) -> length (m_subs m) <= D).

  (** A sequence that can be processed and starts with an abstract task *)
  Definition abs_row (o : list (nat * nat)) (r : rows) (k : nat) : bool :=
    match r k with
    | [] => false
    | i :: _ => (forallb (fun e => negb (snd e =? k) || match r (fst e) with [] => true | _ => false end) o && match nth_error (p_prim P) i with Some true => false | _ => true end)%bool
    end.
  Lemma free_dec o r k : forallb (fun e => (negb (snd e =? k) || match r (fst e) with [] => true | _ => false end)%bool) o = true <-> free o r k.
  Proof.
    rewrite forallb_forall. split.
    - intros H l I. specialize (H (l, k) I). cbn [fst snd] in H. rewrite Nat.eqb_refl in H. cbn in H. destruct (r l); [auto|discriminate].
    - intros H [a b] I. cbn [fst snd]. destruct (Nat.eqb_spec b k) as [->|]; [|reflexivity]. rewrite (H a I). reflexivity.
  Qed.

  Lemma prun_complete k : forall s o r plan, (forall a b, In (a, b) o -> b < a < n) -> (forall q, length (r q) + k * D <= pgb) -> (forall q t, In t (r q) -> t <> p_init P) -> solvesk P s (net n o r) k plan ->
    exists l s' A', prun s (Some (o, r)) l s' A' /\ pacts l = plan /\ goal_state P s' /\ adone A'.
  Proof.
    assert (AC := wf_acyclic P WF). assert (NE := wf_nonempty P WF). assert (AB := wf_abstract P WF).
    induction k as [k IH] using lt_wf_ind. intros s o r plan OK BD NI SOL. assert (W := net_wf n o OK r).
    destruct (find (fun q => match r q with [] => false | _ => true end) (seq 0 n)) as [q0|] eqn:F0.
    2:{ assert (EM : forall q, q < n -> r q = []) by (intros q L; assert (X := find_none _ _ F0 q ltac:(apply in_seq; lia)); cbn beta in X; destruct (r q); [auto|discriminate]).
        assert (NI' : forall x, ~ t_in (net n o r) x) by (intros x (q & i & _ & L & X); rewrite EM in X by auto; cbn in X; lia). destruct (solvesk_empty P s _ k plan AC W NE NI' SOL) as [-> G]. exists [], s, (Some (o, r)). split; [constructor|]. auto. }
    assert (LB : forall q i t, r q = i :: t -> t_lab (net n o r) [q; length t] = i) by (intros q i t E; cbn; rewrite E; cbn; rewrite app_nth2 by (rewrite rev_length; lia); rewrite rev_length, Nat.sub_diag; reflexivity).
    destruct (find (abs_row o r) (seq 0 n)) as [q|] eqn:F.
    - apply find_some in F as [I F]. apply in_seq in I. assert (Lq : q < n) by lia. unfold abs_row in F. destruct (r q) as [|i t] eqn:ER; [discriminate|]. apply andb_true_iff in F as [F1 F2]. apply free_dec in F1. specialize (LB q i t ER).
      assert (MIN := net_minimal n o r q i t Lq ER F1). assert (NP : ~ primitive P (t_lab (net n o r) [q; length t])) by (rewrite LB; unfold primitive; intros X; rewrite X in F2; discriminate).
      destruct (solvesk_dec_complete P s _ _ k plan AC W (proj1 MIN) NP SOL) as (m & tn & k' & -> & DC & S1). assert (IM := d_method _ _ _ _ _ DC). destruct (In_nth_error _ _ IM) as (im & EM). assert (Ei := d_lab _ _ _ _ _ DC). rewrite LB in Ei. rewrite Ei in LB, ER. clear F2 NP Ei i.
      assert (NT : m_task m <> p_init P) by (apply (NI q); rewrite ER; now left). destruct (net_dec n o OK r q m t Lq ER (subs1 m IM) (SQ m IM NT) (fun a b H => proj1 (ord_lt' m IM a b H))) as (f & IF).
      assert (DF := decF_decomposes P (net n o r) _ m W IM (proj1 MIN) LB). assert (TQ := decomposes_fun _ _ _ _ _ _ DC DF). assert (SZ := SIZE m IM). assert (BQ := BD q). rewrite ER in BQ. cbn [length] in BQ.
      destruct (IH k' (Nat.lt_succ_diag_r _) s o (put r q (m_subs m ++ t)) plan) as (l & s' & A' & R & A & G & Z); auto.
      + intros x. destruct (Nat.eq_dec x q) as [->|N]; [rewrite put_eq, app_length; nia|]. rewrite put_ne by auto. specialize (BD x). nia.
      + intros x y J. destruct (Nat.eq_dec x q) as [->|N]; [rewrite put_eq in J|rewrite put_ne in J by auto; eauto]. apply in_app_or in J as [J|J]; [intros ->; now apply (ONCE m IM)|apply (NI q); rewrite ER; now right].
      + eapply (solvesk_iso P s s (decF (net n o r) [q; length t] m)); eauto.
        * eapply decomposes_wf; eauto.
        * now apply net_wf.
        * split; [tauto|eauto].
        * eapply (solvesk_ext P s s tn); eauto. tauto.
      + exists (PMeth im (length t) q :: l), s', A'. split; auto. apply pr_meth with m; auto. nia.
    - assert (MP : forall x, minimal (net n o r) x -> primitive P (t_lab (net n o r) x)).
      { intros x M. destruct (minimal_free n o OK r x M) as (q & i & t & -> & Lq & ER & FR). rewrite (LB q i t ER). assert (X := find_none _ _ F q ltac:(apply in_seq; lia)). unfold abs_row in X. rewrite ER in X. rewrite (proj2 (free_dec o r q) FR) in X. cbn in X. unfold primitive. destruct (nth_error (p_prim P) i) as [[]|]; congruence. }
      apply find_some in F0 as [I0 F0]. apply in_seq in I0. assert (EX : exists x, t_in (net n o r) x) by (destruct (r q0) as [|i t] eqn:E; [discriminate|]; exists [q0; 0], q0, 0; rewrite E; cbn; repeat split; lia).
      destruct (solvesk_act_complete P s _ k plan AC AB NE W EX MP SOL) as (x & k' & plan' & M & AP & -> & -> & S1). destruct (minimal_free n o OK r x M) as (q & i & t & -> & Lq & ER & FR). assert (PX := MP _ M). rewrite (LB q i t ER) in *.
      destruct (IH k' (Nat.lt_succ_diag_r _) (result P s i) o (put r q t) plan') as (l & s' & A' & R & A & G & Z); auto.
      + intros x. destruct (Nat.eq_dec x q) as [->|N]; [rewrite put_eq; specialize (BD q); rewrite ER in BD; cbn [length] in BD; nia|]. rewrite put_ne by auto. specialize (BD x). nia.
      + intros x y J. destruct (Nat.eq_dec x q) as [->|N]; [rewrite put_eq in J|rewrite put_ne in J by auto; eauto]. apply (NI q). rewrite ER. now right.
      + apply (solvesk_ext P _ (result P s i) (minus (net n o r) [q; length t]) _ k' plan' (fun f => iff_refl _)); [|exact S1]. now apply net_leave with i.
      + exists (PAct i (length t) q :: l), s', A'. split; [|split; [|auto]].
        * apply pr_act; auto. now apply (wf_prim P WF).
        * unfold pacts in *. cbn. now rewrite A.
  Qed.

  Lemma prun_complete_init k s plan : 1 + k * D <= pgb -> solvesk P s (initial_network P) k plan -> exists l s' A', prun s None l s' A' /\ pacts l = plan /\ goal_state P s' /\ adone A'.
  Proof.
    assert (AC := wf_acyclic P WF). intros BD SOL.
    assert (NP : ~ primitive P (t_lab (initial_network P) [])) by (unfold primitive; cbn; rewrite (wf_init P WF); discriminate).
    destruct (solvesk_dec_complete P s _ [] k plan AC (init_wf P) eq_refl NP SOL) as (m & tn & k' & -> & DC & S1). assert (IM := d_method _ _ _ _ _ DC). destruct (In_nth_error _ _ IM) as (im & EM). assert (ET := d_lab _ _ _ _ _ DC). cbn in ET. symmetry in ET.
    destruct (top_iso m IM ET) as (f & IF). assert (DF := decF_decomposes P (initial_network P) [] m (init_wf P) IM eq_refl ltac:(cbn; congruence)). assert (TQ := decomposes_fun _ _ _ _ _ _ DC DF).
    destruct (prun_complete k' s (mord m) (start m) plan (mord_ok m IM ET)) as (l & s' & A' & R & A & G & Z).
    - intros q. unfold start. destruct (q <? length (m_subs m)); cbn [length]; nia.
    - intros q t J. unfold start in J. destruct (Nat.ltb_spec q (length (m_subs m))) as [L|L]; [|destruct J]. destruct J as [<-|[]]. intros E. apply (ONCE m IM). rewrite <- E, in_rev. apply nth_In. now rewrite rev_length.
    - eapply (solvesk_iso P s s (decF (initial_network P) [] m)); eauto.
      + eapply decomposes_wf; eauto. apply init_wf.
      + apply net_wf. exact (mord_ok m IM ET).
      + split; [tauto|eauto].
      + eapply (solvesk_ext P s s tn); eauto. tauto.
    - exists (PTop im :: l), s', A'. split; auto. now apply pr_top with m.
  Qed.
End Run.
