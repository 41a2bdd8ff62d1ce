(** Histories: any sequence of node creations starting from the initial node; what node creation preserves; the nodes of a search
    form a history. *)
From Coq Require Import Relations.
From Verif Require Import Base Htn_model.

(** [history P C w l]: starting from the initial node, successors have been created (by applying applicable ready actions and
    decomposing ready abstract tasks with their methods, in any order) and nodes forgotten; [l] are the nodes that are
    still there, [w] is the heap. *)
Inductive history (P : problem) (C : config) : world -> list node -> Prop :=
| h_init : forall w n, init_node P = Some (w, n) -> history P C w [n]
| h_apply : forall w l n i x tk fuel w' n', history P C w l -> In n l -> n_abs n = [] ->
    get (n_prim n) i = Some x -> task_of (w_heap w) x = Some tk -> isApplicable P (n_state n) tk = Some true ->
    apply P C fuel w n i = Some (w', n') -> history P C w' (n' :: l)
| h_decompose : forall w l n i x tk mi fuel w' n', history P C w l -> In n l ->
    get (n_abs n) i = Some x -> task_of (w_heap w) x = Some tk -> In mi (task_to_methods P tk) ->
    decompose P C fuel w n i mi = Some (w', n') -> history P C w' (n' :: l)
| h_forget : forall w l l', history P C w l -> incl l' l -> history P C w l'.

(** ** The heap and the instance counter only grow *)
Section Grows.
  Variables (P : problem) (C : config).
  Lemma apply_grows fuel :
    (forall w n i w' n', apply P C fuel w n i = Some (w', n') -> w_heap w' = w_heap w /\ w_inst w <= w_inst w') /\
    (forall w n ac w' n', eff_loop P C fuel w n ac = Some (w', n') -> w_heap w' = w_heap w /\ w_inst w <= w_inst w').
  Proof.
    assert (EF : forall w w' ac, eff_first w = (w', ac) -> w_heap w' = w_heap w /\ w_inst w' = w_inst w).
    { intros w w' ac E. unfold eff_first in E. destruct (w_eff w); injection E as <- <-; auto. }
    assert (EN : forall w w' ac, eff_next w = (w', ac) -> w_heap w' = w_heap w /\ w_inst w' = w_inst w).
    { intros w w' ac E. unfold eff_next in E. injection E as <- <-. auto. }
    assert (A1 : forall fuel w n i w' n', apply1 P (c_perm C) (c_eff C) fuel w n i = Some (w', n') -> w_heap w' = w_heap w /\ w_inst w <= w_inst w').
    { intros f w n i w' n' E. unfold apply1 in E. inv_opt. destruct x3. inv_opt. destruct (n_sol n); [discriminate|].
      injection E as <- <-. cbn. auto. }
    induction fuel as [|f [IHa IHe]].
    - split; [intros; discriminate|]. intros w n ac w' n' E. destruct ac; [discriminate|]. injection E as <- <-. auto.
    - split.
      + intros w n i w' n' E. cbn [apply] in E. apply obind_some in E as ([w1 r1] & E1 & E). apply A1 in E1 as [X1 X2].
        apply obind_some in E as ([w2 r2] & E2 & E).
        assert (Q2 : w_heap w2 = w_heap w /\ w_inst w <= w_inst w2).
        { destruct (c_eff C) eqn:Ce.
          - destruct (eff_first w1) as [w1' ac] eqn:EE. apply EF in EE as [Eh Ei]. apply IHe in E2. split; [|lia]. destruct E2. congruence.
          - injection E2 as <- <-. auto. }
        destruct Q2 as [Y1 Y2].
        destruct (c_one C); [|injection E as <- <-; auto].
        destruct (n_abs r2); [|injection E as <- <-; auto]. destruct (n_prim r2) eqn:Np; [injection E as <- <-; auto|].
        apply obind_some in E as (o & _ & E). destruct o; [injection E as <- <-; auto| |injection E as <- <-; auto].
        apply IHa in E. split; [|lia]. destruct E. congruence.
      + intros w n ac w' n' E. cbn [eff_loop] in E. destruct ac as [i|]; [|injection E as <- <-; auto].
        apply obind_some in E as ([w1 r1] & E1 & E). destruct (eff_next w1) as [w2 ac'] eqn:EE. apply EN in EE as [Eh Ei].
        apply IHe in E. apply IHa in E1. split; [|lia]. destruct E, E1. congruence.
  Qed.

  Lemma decompose_grows fuel w n i mi w' n' : decompose P C fuel w n i mi = Some (w', n') ->
    exists w1 n1 e, decompose1 P (c_eff C) w n i mi = Some (w1, n1) /\ w_heap w' = w_heap w ++ e /\ w_inst w <= w_inst w'.
  Proof.
    intros E. unfold decompose in E. apply obind_some in E as ([w1 r1] & E1 & E).
    assert (X : exists e, w_heap w1 = w_heap w ++ e /\ w_inst w <= w_inst w1).
    { clear E. unfold decompose1 in E1. inv_opt. destruct (forallb _ _); [|discriminate]. inv_opt. destruct x2. inv_opt. subst. cbn. eauto. }
    destruct X as (e & X1 & X2). exists w1, r1, e. split; [exact E1|].
    apply obind_some in E as ([w2 r2] & E2 & E).
    assert (Q2 : w_heap w2 = w_heap w1 /\ w_inst w1 <= w_inst w2).
    { destruct (c_eff C) eqn:Ce.
      - unfold eff_first in E2. destruct (w_eff w1); apply (proj2 (apply_grows fuel)) in E2; cbn in E2; auto.
      - injection E2 as <- <-. auto. }
    destruct Q2 as [Y1 Y2].
    assert (Z : w_heap w' = w_heap w2 /\ w_inst w2 <= w_inst w').
    { unfold one_mod in E. destruct (c_one C); [|injection E as <- <-; auto].
      destruct (n_abs r2); [|injection E as <- <-; auto]. destruct (n_prim r2) eqn:Np; [injection E as <- <-; auto|].
      apply obind_some in E as (o & _ & E). destruct o; [injection E as <- <-; auto| |injection E as <- <-; auto].
      apply (proj1 (apply_grows fuel)) in E. auto. }
    destruct Z. split; [congruence|lia].
  Qed.

End Grows.

(** ** What apply and decompose preserve *)
Section Pres.
  Variables (P : problem) (C : config).
  Variable Q : list pstep -> nat -> node -> Prop.
  Hypothesis H1 : forall fuel w n i w' n', Q (w_heap w) (w_inst w) n ->
    apply1 P (c_perm C) (c_eff C) fuel w n i = Some (w', n') -> Q (w_heap w') (w_inst w') n'.
  Hypothesis H2 : forall h i n, Q h i n -> Q h i (set_unreachable n).

  Lemma apply_pres fuel :
    (forall w n i w' n', Q (w_heap w) (w_inst w) n -> apply P C fuel w n i = Some (w', n') -> Q (w_heap w') (w_inst w') n') /\
    (forall w n ac w' n', Q (w_heap w) (w_inst w) n -> eff_loop P C fuel w n ac = Some (w', n') -> Q (w_heap w') (w_inst w') n').
  Proof.
    assert (EF : forall w w' ac, eff_first w = (w', ac) -> w_heap w' = w_heap w /\ w_inst w' = w_inst w).
    { intros w w' ac E. unfold eff_first in E. destruct (w_eff w); injection E as <- <-; auto. }
    assert (EN : forall w w' ac, eff_next w = (w', ac) -> w_heap w' = w_heap w /\ w_inst w' = w_inst w).
    { intros w w' ac E. unfold eff_next in E. injection E as <- <-. auto. }
    induction fuel as [|f [IHa IHe]].
    - split; [intros; discriminate|]. intros w n ac w' n' HQ E. destruct ac; [discriminate|]. injection E as <- <-. auto.
    - split.
      + intros w n i w' n' HQ E. cbn [apply] in E. apply obind_some in E as ([w1 r1] & E1 & E).
        pose proof (H1 _ _ _ _ _ _ HQ E1) as Q1. apply obind_some in E as ([w2 r2] & E2 & E).
        assert (Q2 : Q (w_heap w2) (w_inst w2) r2).
        { destruct (c_eff C) eqn:Ce.
          - destruct (eff_first w1) as [w1' ac] eqn:EE. apply EF in EE as [Eh Ei]. eapply IHe; [|exact E2]. now rewrite Eh, Ei.
          - injection E2 as <- <-. auto. }
        destruct (c_one C); [|injection E as <- <-; auto].
        destruct (n_abs r2); [|injection E as <- <-; auto]. destruct (n_prim r2) eqn:Np; [injection E as <- <-; auto|].
        apply obind_some in E as (o & _ & E). destruct o; [injection E as <- <-; auto| |injection E as <- <-; auto].
        eapply IHa; eauto.
      + intros w n ac w' n' HQ E. cbn [eff_loop] in E. destruct ac as [i|]; [|injection E as <- <-; auto].
        apply obind_some in E as ([w1 r1] & E1 & E). destruct (eff_next w1) as [w2 ac'] eqn:EE. apply EN in EE as [Eh Ei].
        eapply IHe; [|exact E]. rewrite Eh, Ei. eapply IHa; eauto.
  Qed.

  Lemma decompose_pres fuel w n i mi w' n' w1 n1 :
    decompose1 P (c_eff C) w n i mi = Some (w1, n1) -> Q (w_heap w1) (w_inst w1) n1 ->
    decompose P C fuel w n i mi = Some (w', n') -> Q (w_heap w') (w_inst w') n'.
  Proof.
    pose proof (apply_pres fuel) as [APa APe]. intros E1 Q1 E. unfold decompose in E. rewrite E1 in E. cbn [obind] in E. apply obind_some in E as ([w2 r2] & E2 & E).
    assert (Q2 : Q (w_heap w2) (w_inst w2) r2).
    { destruct (c_eff C) eqn:Ce.
      - unfold eff_first in E2. destruct (w_eff w1).
        + eapply APe; [|exact E2]. auto.
        + eapply APe; [|exact E2]. cbn. auto.
      - injection E2 as <- <-. auto. }
    unfold one_mod in E. destruct (c_one C); [|injection E as <- <-; auto].
    destruct (n_abs r2); [|injection E as <- <-; auto]. destruct (n_prim r2) eqn:Np; [injection E as <- <-; auto|].
    apply obind_some in E as (o & _ & E). destruct o; [injection E as <- <-; auto| |injection E as <- <-; auto].
    eapply APa; eauto.
  Qed.

  Hypothesis H3 : forall w n i mi w' n' x tk, Q (w_heap w) (w_inst w) n -> get (n_abs n) i = Some x -> task_of (w_heap w) x = Some tk ->
    In mi (task_to_methods P tk) -> decompose1 P (c_eff C) w n i mi = Some (w', n') ->
    Q (w_heap w') (w_inst w') n'.
  (** Stability for the nodes that stay: heaps only grow, instance numbers only increase. *)
  Hypothesis H4 : forall h e i i' n q, Q h i n -> Q (h ++ e) i' q -> i <= i' -> Q (h ++ e) i' n.
  Hypothesis H0 : forall w n, init_node P = Some (w, n) -> Q (w_heap w) (w_inst w) n.

  Lemma history_pres w l : history P C w l -> forall n, In n l -> Q (w_heap w) (w_inst w) n.
  Proof.
    induction 1 as [w n E | w l n i x tk fuel w' n' H IH Hn NA Gx Tx Ap E | w l n i x tk mi fuel w' n' H IH Hn Gx Tx Hm E | w l l' H IH I]; intros q Hq.
    - destruct Hq as [<-|[]]. auto.
    - assert (Q' : Q (w_heap w') (w_inst w') n') by (eapply (proj1 (apply_pres fuel)); [|exact E]; auto).
      destruct Hq as [<-|Hq]; [exact Q'|].
      apply (proj1 (apply_grows P C fuel)) in E as [Eh L]. rewrite Eh in *. rewrite <- (app_nil_r (w_heap w)) in Q' |- *. eapply H4; [|exact Q'|exact L]. auto.
    - destruct (decompose_grows P C _ _ _ _ _ _ _ E) as (w1 & n1 & e & E1 & Eh & L).
      assert (Q' : Q (w_heap w') (w_inst w') n') by (eapply decompose_pres; [exact E1| |exact E]; eapply H3; eauto).
      destruct Hq as [<-|Hq]; [exact Q'|]. rewrite Eh in *. eapply H4; [|exact Q'|exact L]. auto.
    - auto.
  Qed.
End Pres.

(** ** The nodes of a search form a history *)
Section SearchHist.
  Context {V : Type}.
  Variables (P : problem) (C : config) (E : search_env V).
  Hypothesis F1 : forall fr n fr', e_pop E fr = Some (n, fr') -> Permutation fr (n :: fr').
  Hypothesis F3 : forall n fr, Permutation (e_push E n fr) (n :: fr).

  Definition HSt (st : sstate V) (n : node) : Prop :=
    exists l, history P C (s_world st) l /\ incl (s_fringe st) l /\ In n l.

  Definition GSt (n : node) (r : gen_result V) : Prop :=
    match r with
    | GStop w q => exists l, history P C w l /\ In q l /\ isGoal P q = Some true
    | GCont st => HSt st n
    | GCrash => True
    end.

  Lemma treat_hist st w n n2 l : history P C w l -> incl (s_fringe st) l -> In n l -> In n2 l ->
    GSt n (treat_successor P E st w n2).
  Proof.
    intros H IN Hn H2. unfold treat_successor.
    destruct (n_reach n2); [|exists l; auto].
    destruct (if subopt E then v_insert E w (s_vis st) n2 else (true, s_vis st)) as [ok v'].
    destruct ok; [|exists l; auto]. destruct (h_dead E w n2); [exists l; auto|].
    destruct (if subopt E then isGoal P n2 else Some false) as [[]|] eqn:G; [|exists l|exact I].
    - exists l. split; auto. split; auto. destruct (subopt E); [auto|discriminate].
    - split; auto. split; auto. cbn [s_fringe]. intros q Hq. apply (Permutation_in _ (F3 _ _)) in Hq as [<-|Hq]; auto.
  Qed.

  Lemma actions_hist fuel n : n_abs n = [] -> forall lst i st, HSt st n -> (forall j x, nth_error lst j = Some x -> get (n_prim n) (i + j) = Some x) ->
    GSt n (expand_actions P C E fuel st n i lst).
  Proof.
    intros NA. induction lst as [|x t IH]; intros i st HS HI; cbn [expand_actions]; [exact HS|].
    assert (HI' : forall j y, nth_error t j = Some y -> get (n_prim n) (S i + j) = Some y).
    { intros j y Hj. rewrite <- (HI (S j) y Hj). f_equal. lia. }
    destruct (obind (task_of (w_heap (s_world st)) x) _) as [[]|] eqn:EA; [| |exact I].
    - apply obind_some in EA as (tk & Et & Ea).
      destruct (apply P C fuel (s_world st) n i) as [[w n2]|] eqn:Eap; [|exact I].
      destruct HS as (l & H & IN & Hn).
      assert (H' : history P C w (n2 :: l)).
      { eapply h_apply; eauto. rewrite <- (HI 0 x eq_refl). f_equal. lia. }
      assert (Q : GSt n (treat_successor P E st w n2)).
      { eapply treat_hist; [exact H'| | |]; [intros q Hq; right; auto|right; auto|left; auto]. }
      destruct (treat_successor P E st w n2); auto.
    - apply IH; auto.
  Qed.

  Lemma methods_hist fuel n step x tk : get (n_abs n) step = Some x -> forall ms st, HSt st n -> task_of (w_heap (s_world st)) x = Some tk ->
    incl ms (task_to_methods P tk) -> GSt n (expand_methods P C E fuel st n step ms).
  Proof.
    intros Gx. induction ms as [|mi t IH]; intros st HS Tx IM; cbn [expand_methods]; [exact HS|].
    destruct (decompose P C fuel (s_world st) n step mi) as [[w n2]|] eqn:Ed; [|exact I].
    destruct HS as (l & H & IN & Hn).
    assert (H' : history P C w (n2 :: l)).
    { eapply h_decompose; eauto. apply IM. left; auto. }
    assert (Q : GSt n (treat_successor P E st w n2)).
    { eapply treat_hist; [exact H'| | |]; [intros q Hq; right; auto|right; auto|left; auto]. }
    assert (W : forall st', treat_successor P E st w n2 = GCont st' -> s_world st' = w).
    { unfold treat_successor. intros st'. destruct (n_reach n2); [|intros [= <-]; auto].
      destruct (if subopt E then v_insert E w (s_vis st) n2 else (true, s_vis st)) as [[] v']; [|intros [= <-]; auto].
      destruct (h_dead E w n2); [intros [= <-]; auto|].
      destruct (if subopt E then isGoal P n2 else Some false) as [[]|]; try discriminate. intros [= <-]; auto. }
    destruct (treat_successor P E st w n2); auto. apply IH; auto.
    - rewrite (W st0 eq_refl). destruct (decompose_grows P C _ _ _ _ _ _ _ Ed) as (_ & _ & e & _ & -> & _).
      unfold task_of in *. apply obind_some in Tx as (ps & Gp & Hp). unfold get in *. rewrite nth_error_app1 by (apply nth_error_Some; congruence).
      rewrite Gp. exact Hp.
    - intros q Hq. apply IM. right; auto.
  Qed.

  Lemma expand_hist fuel n st : HSt st n -> GSt n (expand P C E fuel st n).
  Proof.
    intros HS. unfold expand. destruct (n_abs n) eqn:NA.
    - apply actions_hist; auto.
    - set (step := Nat.modulo (rnd E (s_rnd st)) (length (n0 :: l))).
      destruct (obind (get (n0 :: l) step) _) as [tk|] eqn:EX; [|exact I].
      apply obind_some in EX as (x & Gx & Tx). rewrite <- NA in Gx.
      eapply methods_hist; eauto. apply incl_refl.
  Qed.

  Lemma loop_hist afuel : forall fuel st l, history P C (s_world st) l -> incl (s_fringe st) l ->
    match search_loop P C E afuel fuel st with
    | Solved w n => exists l, history P C w l /\ In n l /\ isGoal P n = Some true
    | _ => True
    end.
  Proof.
    induction fuel as [|f IH]; intros st l H IN; cbn [search_loop]; destruct (e_pop E (s_fringe st)) as [[n fr]|] eqn:EP; auto.
    apply F1 in EP.
    assert (Hn : In n l) by (apply IN; eapply Permutation_in; [symmetry; exact EP|left; auto]).
    assert (HF : incl fr l) by (intros q Hq; apply IN; eapply Permutation_in; [symmetry; exact EP|right; auto]).
    destruct (if subopt E then (true, s_vis st) else v_insert E (s_world st) (s_vis st) n) as [ok v'].
    destruct ok; [|eapply IH; [exact H|exact HF]].
    destruct (if subopt E then Some false else isGoal P n) as [[]|] eqn:G; auto.
    - exists l. split; auto. split; auto. destruct (subopt E); [discriminate|auto].
    - set (st1 := {| s_world := s_world st; s_fringe := fr; s_vis := v'; s_rnd := s_rnd st |}).
      assert (Q : GSt n (expand P C E afuel st1 n)).
      { apply expand_hist. exists l. auto. }
      destruct (expand P C E afuel st1 n) as [w q|st2|]; auto.
      destruct Q as (l2 & H2 & I2 & _). eapply IH; eauto.
  Qed.

  Lemma search_history v0 afuel fuel w n : search P C E v0 afuel fuel = Solved w n ->
    exists l, history P C w l /\ In n l /\ isGoal P n = Some true.
  Proof.
    unfold search. intros H. destruct (init_node P) as [[w0 n0]|] eqn:EI; [|discriminate].
    pose proof (loop_hist afuel fuel {| s_world := w0; s_fringe := e_push E n0 []; s_vis := v0; s_rnd := 0 |} [n0] (h_init P C w0 n0 EI)) as L.
    cbn [s_fringe] in L. rewrite H in L. apply L. intros q Hq. apply (Permutation_in _ (F3 _ _)) in Hq. auto.
  Qed.
End SearchHist.

