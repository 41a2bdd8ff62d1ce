(** Derivations and the semantics by task networks coincide for totally ordered problems. *)
From Coq Require Import List Arith Lia Relations Bool.
Import ListNotations.
From Verif Require Import Htn_problem Htn_spec Htn_sem Htn_proof To_spec.

Lemma forall2_imp_in {A B} (R S : A -> B -> Prop) l l' : (forall a b, In a l -> R a b -> S a b) -> Forall2 R l l' -> Forall2 S l l'.
Proof. intros H F. revert H. induction F as [|x y l l' Rxy F IH]; intros H; constructor; [apply H; [now left|auto]|]. apply IH. intros a b Ha Q. apply H; [now right|auto]. Qed.

Lemma derives_mono P h h' t p : h <= h' -> derives P h t p -> derives P h' t p.
Proof.
  revert h' t p. induction h as [|h IH]; intros h' t p L D; cbn in D.
  - destruct D as [D|[]]. destruct h'; now left.
  - destruct D as [D|(m & o & ps & Hm & Ht & To & F & E)]; [destruct h'; now left|].
    destruct h' as [|h']; [lia|]. right. exists m, o, ps. repeat split; try apply To; auto.
    eapply forall2_imp_in; [|exact F]. cbn beta. intros j q _ (u & Eu & Du). exists u. split; auto. apply (IH h'); auto. lia.
Qed.

Lemma forall2_sup {A} P (f : A -> nat -> Prop) (l : list A) ps :
  Forall2 (fun x p => exists h u, f x u /\ derives P h u p) l ps -> exists h, Forall2 (fun x p => exists u, f x u /\ derives P h u p) l ps.
Proof.
  induction 1 as [|x p l ps (h1 & u & F & D) H (h2 & IH)]; [exists 0; constructor|]. exists (max h1 h2). constructor.
  - exists u. split; auto. eapply derives_mono; [|exact D]. lia.
  - eapply forall2_imp_in; [|exact IH]. cbn beta. intros y q _ (w & Fw & Dw). exists w. split; auto. eapply derives_mono; [|exact Dw]. lia.
Qed.

(** A network whose tasks are totally ordered as in [L]. *)
Record ordn (tn : tnet) (L : list tid) : Prop := {
  on_wf : wf_tn tn;
  on_nodup : NoDup L;
  on_in : forall x, In x L <-> t_in tn x;
  on_ord : ForallOrdPairs (t_ord tn) L }.

Lemma ordn_min tn x r : ordn tn (x :: r) -> minimal tn x.
Proof.
  intros [W N I O]. split; [apply I; now left|]. intros y Q. assert (Hy := proj1 (wt_dom _ W _ _ Q)). apply I in Hy. inversion O as [|? ? F _]; subst. rewrite Forall_forall in F.
  destruct Hy as [->|Hy]; [eapply (wt_irr _ W); eauto|]. specialize (F y Hy). eapply (wt_irr _ W), (wt_trans _ W); eauto.
Qed.
Lemma ordn_min_only tn x r y : ordn tn (x :: r) -> minimal tn y -> y = x.
Proof.
  intros [W N I O] [Hy M]. apply I in Hy as [->|Hy]; auto. inversion O as [|? ? F _]; subst. rewrite Forall_forall in F. exfalso. eapply M, F, Hy.
Qed.
Lemma ordn_minus tn x r : ordn tn (x :: r) -> ordn (minus tn x) r.
Proof.
  intros [W N I O]. inversion N as [|? ? Nx Nr]; subst. inversion O as [|? ? F Or]; subst. split; auto; [now apply minus_wf| |].
  - intros y. cbn. rewrite <- I. cbn. split; [intros H; split; auto; intros ->; auto|]. intros [[->|H] Ny]; auto. now contradiction Ny.
  - eapply fop_weaken; [|exact Or]. cbn. intros a b Ha Hb Q. repeat split; auto; intros ->; auto.
Qed.
Lemma fop_map {A B} (R : A -> A -> Prop) (S : B -> B -> Prop) (f : A -> B) l :
  (forall a b, In a l -> In b l -> R a b -> S (f a) (f b)) -> ForallOrdPairs R l -> ForallOrdPairs S (map f l).
Proof.
  induction l as [|a l IH]; intros H F; inversion F as [|? ? F1 F2]; subst; constructor.
  - rewrite Forall_forall in *. intros y Hy. apply in_map_iff in Hy as (b & <- & Hb). apply H; [now left|now right|auto].
  - apply IH; auto. intros; apply H; auto; now right.
Qed.
Lemma total_seq_fop m o : total_seq m o -> ForallOrdPairs (m_lt m) o.
Proof.
  intros (_ & _ & H). induction o as [|a o IH]; constructor.
  - apply Forall_forall. intros b Hb. apply (H [] a o b); auto.
  - apply IH. intros l1 x l2 b -> Hb. apply (H (a :: l1) x l2 b); auto.
Qed.
Lemma ordn_dec P tn x r m o : acyclic_methods P -> ordn tn (x :: r) -> In m (p_methods P) -> t_lab tn x = m_task m -> total_seq m o ->
  ordn (decF tn x m) (map (fun j => x ++ [j]) o ++ r) /\ decomposes P tn x m (decF tn x m).
Proof.
  intros AC ON Hm Hl To. assert (D : decomposes P tn x m (decF tn x m)) by (apply decF_decomposes; auto; [apply ON|apply (on_in _ _ ON); now left]). split; auto.
  assert (W : wf_tn (decF tn x m)) by (eapply decomposes_wf; [apply ON|exact (AC m Hm)|exact D]).
  destruct ON as [W0 N I O]. inversion N as [|? ? Nx Nr]; subst. inversion O as [|? ? F Or]; subst. rewrite Forall_forall in F. destruct To as (No & Io & Lo).
  split; auto.
  - apply Base.nodup_app_iff. split; [apply FinFun.Injective_map_NoDup; auto; intros a b; apply app_single_inj|]. split; auto.
    intros y Hy Hr. apply in_map_iff in Hy as (j & <- & Hj). apply Nx. replace x with (x ++ [j]); auto. symmetry. apply (wt_anti _ W0); [apply I; now left|apply I; now right|]. exists [j]. reflexivity.
  - intros y. rewrite in_app_iff, (d_in' _ _ _ _ _ D), <- I, in_map_iff. cbn. split.
    + intros [(j & <- & Hj)|H]; [right; exists j; split; auto; now apply Io|left; split; auto; intros ->; auto].
    + intros [[[->|H] Ny]|(j & Hj & ->)]; [now contradiction Ny|auto|left; exists j; split; auto; now apply Io].
  - assert (T := total_seq_fop m o (conj No (conj Io Lo))). apply fop_app. split; [|split].
    + eapply fop_map; [|exact T]. intros a b Ha Hb Q. apply (d_ord _ _ _ _ _ D). right. left. apply Io in Ha, Hb. eauto 10.
    + eapply fop_weaken; [|exact Or]. intros a b Ha Hb Q. apply (d_ord _ _ _ _ _ D). left. repeat split; auto; try (apply I; now right); intros ->; auto.
    + intros a b Ha Hb. apply in_map_iff in Ha as (j & <- & Hj). apply (d_ord _ _ _ _ _ D). right. right. left. apply Io in Hj. exists j. repeat split; auto; [apply I; now right|]. intros ->; auto.
Qed.

Definition linear_methods (P : problem) : Prop := forall m, In m (p_methods P) -> exists o, total_seq m o.

Lemma forall2_map_l {A B C} (R : B -> C -> Prop) (f : A -> B) l l' : Forall2 R (map f l) l' <-> Forall2 (fun a c => R (f a) c) l l'.
Proof.
  split.
  - revert l'. induction l as [|a l IH]; intros l' H; inversion H; subst; constructor; auto.
  - induction 1; cbn; constructor; auto.
Qed.

Lemma primitive_dec P t : primitive P t \/ ~ primitive P t.
Proof. unfold primitive. destruct (nth_error (p_prim P) t) as [[|]|]; [now left|right; discriminate|right; discriminate]. Qed.

Section Link.
  Variable P : problem.
  Hypothesis WF : wf_problem P.
  Hypothesis LM : linear_methods P.

  Lemma netA k : forall s tn L plan, ordn tn L -> solvesk P s tn k plan ->
    exists plans, Forall2 (fun x p => exists h, derives P h (t_lab tn x) p) L plans /\ plan = concat plans.
  Proof.
    assert (AC := wf_acyclic P WF). assert (NE := wf_nonempty P WF). assert (AB := wf_abstract P WF).
    induction k as [|k IH]; intros s tn L plan ON S.
    - destruct L as [|x r].
      + destruct (solvesk_empty P s tn 0 plan AC (on_wf _ _ ON) NE) as [-> _]; auto; [intros x Hx; apply (on_in _ _ ON) in Hx; destruct Hx|]. exists []. split; auto.
      + exfalso. destruct (primitive_dec P (t_lab tn x)) as [Hp|Hp].
        * destruct (solvesk_act_complete P s tn 0 plan AC AB NE (on_wf _ _ ON)) as (x' & k' & plan' & _ & _ & Q & _); auto; [exists x; apply (on_in _ _ ON); now left| |discriminate].
          intros y My. now rewrite (ordn_min_only tn x r y ON My).
        * destruct (solvesk_dec_complete P s tn x 0 plan AC (on_wf _ _ ON)) as (m & c & k' & Q & _); auto; [apply (on_in _ _ ON); now left|discriminate].
    - destruct L as [|x r].
      + destruct (solvesk_empty P s tn (Datatypes.S k) plan AC (on_wf _ _ ON) NE) as [-> _]; auto; [intros x Hx; apply (on_in _ _ ON) in Hx; destruct Hx|]. exists []. split; auto.
      + destruct (primitive_dec P (t_lab tn x)) as [Hp|Hp].
        * destruct (solvesk_act_complete P s tn (Datatypes.S k) plan AC AB NE (on_wf _ _ ON)) as (x' & k' & plan' & Mx & _ & Q & -> & S'); auto; [exists x; apply (on_in _ _ ON); now left| |].
          { intros y My. now rewrite (ordn_min_only tn x r y ON My). }
          injection Q as <-. rewrite (ordn_min_only tn x r x' ON Mx) in *.
          destruct (IH _ _ r plan' (ordn_minus tn x r ON) S') as (ps & F & ->). exists ([t_lab tn x] :: ps). split; [|reflexivity]. constructor; auto. exists 0. left. auto.
        * destruct (solvesk_dec_complete P s tn x (Datatypes.S k) plan AC (on_wf _ _ ON)) as (m & c & k' & Q & D & S'); auto; [apply (on_in _ _ ON); now left|].
          injection Q as <-. assert (Hm := d_method _ _ _ _ _ D). destruct (LM m Hm) as (o & To).
          destruct (ordn_dec P tn x r m o AC ON Hm (d_lab _ _ _ _ _ D) To) as (ON' & D').
          apply (solvesk_ext P s s c (decF tn x m) k plan) in S'; [|tauto|eapply decomposes_fun; eauto].
          destruct (IH _ _ _ plan ON' S') as (ps & F & ->). apply Forall2_app_inv_l in F as (p1 & p2 & F1 & F2 & ->).
          exists (concat p1 :: p2). split; [|cbn; now rewrite concat_app]. constructor.
          -- apply forall2_map_l in F1. assert (G : Forall2 (fun j p => exists h u, nth_error (m_subs m) j = Some u /\ derives P h u p) o p1).
             { eapply forall2_imp_in; [|exact F1]. cbn. intros j p Hj (h & Dh). apply (proj1 (proj2 To)) in Hj. destruct (nth_error (m_subs m) j) as [u|] eqn:E; [|apply nth_error_None in E; lia].
               exists h, u. split; auto. rewrite <- (d_lab_new _ _ _ _ _ D' j u E). exact Dh. }
             apply forall2_sup in G as (h & G). exists (Datatypes.S h). right. exists m, o, p1. repeat split; auto; try apply To. symmetry. apply D'.
          -- eapply forall2_imp_in; [|exact F2]. intros y p Hy (h & Dh). exists h. rewrite <- (d_lab_old _ _ _ _ _ D' y); auto; [apply (on_in _ _ ON); now right|].
             intros ->. destruct ON as [_ N _ _]. inversion N; auto.
  Qed.

  Lemma decF_lab tn x m j u : nth_error (m_subs m) j = Some u -> t_lab (decF tn x m) (x ++ [j]) = u.
  Proof. intros E. cbn. rewrite (proj2 (child_of_spec x (x ++ [j]) j)) by reflexivity. now apply nth_error_nth. Qed.

  Lemma listB h : (forall s tn x r p rest, ordn tn (x :: r) -> derives P h (t_lab tn x) p -> executable P s (p ++ rest) ->
      (forall tn', ordn tn' r -> (forall y, In y r -> t_lab tn' y = t_lab tn y) -> exists k, solvesk P (after P s p) tn' k rest) -> exists k, solvesk P s tn k (p ++ rest)) ->
    forall L ps, forall s tn r rest, ordn tn (L ++ r) -> Forall2 (fun x p => derives P h (t_lab tn x) p) L ps -> executable P s (concat ps ++ rest) ->
      (forall tn', ordn tn' r -> (forall y, In y r -> t_lab tn' y = t_lab tn y) -> exists k, solvesk P (after P s (concat ps)) tn' k rest) -> exists k, solvesk P s tn k (concat ps ++ rest).
  Proof.
    intros H. induction L as [|x L IH]; intros ps s tn r rest ON F EX K; inversion F as [|? p ? ps' Dx F']; subst; cbn in *.
    - apply K; auto.
    - rewrite <- app_assoc in *. apply (H s tn x (L ++ r)); auto. intros tn' ON' Lb. apply executable_app in EX as [EX1 EX2]. apply (IH ps' (after P s p) tn' r rest); auto.
      + eapply forall2_imp_in; [|exact F']. cbn. intros y q Hy Dy. rewrite Lb; auto. apply in_or_app. auto.
      + intros tn'' ON'' Lb''. rewrite <- after_app. apply K; auto. intros y Hy. rewrite Lb'' by auto. apply Lb. apply in_or_app. auto.
  Qed.

  Lemma netB h : forall s tn x r p rest, ordn tn (x :: r) -> derives P h (t_lab tn x) p -> executable P s (p ++ rest) ->
      (forall tn', ordn tn' r -> (forall y, In y r -> t_lab tn' y = t_lab tn y) -> exists k, solvesk P (after P s p) tn' k rest) -> exists k, solvesk P s tn k (p ++ rest).
  Proof.
    assert (AC := wf_acyclic P WF).
    assert (PR : forall s tn x r p rest, primitive P (t_lab tn x) /\ p = [t_lab tn x] -> ordn tn (x :: r) -> executable P s (p ++ rest) ->
      (forall tn', ordn tn' r -> (forall y, In y r -> t_lab tn' y = t_lab tn y) -> exists k, solvesk P (after P s p) tn' k rest) -> exists k, solvesk P s tn k (p ++ rest)).
    { intros s tn x r p rest [Hp ->] ON EX K. cbn in *. destruct (K (minus tn x) (ordn_minus _ _ _ ON)) as (k & S); [reflexivity|].
      exists (Datatypes.S k). apply solvesk_act; auto; [apply ON|eapply ordn_min; eauto|apply EX]. }
    induction h as [|h IH]; intros s tn x r p rest ON D EX K; cbn in D; destruct D as [D|D]; try (eapply PR; eauto; fail); [destruct D|].
    destruct D as (m & o & ps & Hm & Ht & To & F & ->). destruct (ordn_dec P tn x r m o AC ON Hm (eq_sym Ht) To) as (ON' & D').
    assert (LB : forall y, In y r -> t_lab (decF tn x m) y = t_lab tn y).
    { intros y Hy. apply (d_lab_old _ _ _ _ _ D'); [apply (on_in _ _ ON); now right|]. intros ->. destruct ON as [_ N _ _]. inversion N; auto. }
    destruct (listB h IH (map (fun j => x ++ [j]) o) ps s (decF tn x m) r rest) as (k & S); auto.
    - apply forall2_map_l. eapply forall2_imp_in; [|exact F]. cbn beta. intros j q _ (u & Eu & Du). now rewrite (decF_lab tn x m j u Eu).
    - intros tn' ON'' Lb. apply K; auto. intros y Hy. rewrite Lb by auto. auto.
    - exists (Datatypes.S k). eapply solvesk_dec; eauto.
  Qed.

  Theorem derives_solution plan :
    solution P plan <-> (exists h, derives P h (p_init P) plan) /\ executable P (initial_state P) plan /\ goal_state P (after P (initial_state P) plan).
  Proof.
    assert (AC := wf_acyclic P WF).
    assert (ON : ordn (initial_network P) [[]]).
    { assert (W : wf_tn (initial_network P)) by (split; cbn; try tauto; intros; subst; auto). split; auto; [constructor; [auto|constructor]| |constructor; constructor].
      intros x. cbn. split; [intros [<-|[]]; auto|auto]. }
    unfold solution. rewrite (solves_solvesk P _ _ plan AC (on_wf _ _ ON)). split.
    - intros (k & S). destruct (netA k _ _ _ plan ON S) as (ps & F & ->). inversion F as [|? p ? ps' (h & D) F']; subst. inversion F'; subst. cbn in *. rewrite app_nil_r in *.
      split; [eauto|]. destruct S as (d & tn' & L & _ & _ & _ & _ & EX & GO & _). auto.
    - intros ((h & D) & EX & GO). rewrite <- (app_nil_r plan) in *. destruct (netB h (initial_state P) (initial_network P) [] [] plan []) as (k & S).
      + exact ON.
      + now rewrite app_nil_r in D.
      + exact EX.
      + intros tn' ON' _. exists 0. apply solvesk_done; [intros x Hx; apply (on_in _ _ ON') in Hx; destruct Hx|]. now rewrite app_nil_r in GO.
      + eauto.
  Qed.
End Link.
