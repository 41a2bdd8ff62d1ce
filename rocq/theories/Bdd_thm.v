(** Theorems about symbolic variables and transition relations. *)
From Verif Require Import Base Htn_problem Htn_spec Sas_spec Sas_proof Bdd_model Bdd_spec Bdd_proof Bdd_trans Bdd_image.

Section Thm.
  Variable P : problem.
  Variable V : list (nat * nat).
  Hypothesis WF : wf_problem P.
  Hypothesis INT : intervals 0 V (p_nfacts P).

  Lemma trel_of_ok a : a < length (p_cost P) -> exists prec add del t ks C, get (p_prec P) a = Some prec /\ get (p_add P) a = Some add /\ get (p_del P) a = Some del /\
    (forall b, In b prec \/ In b add \/ In b del -> b < p_nfacts P) /\ trel_of P V a = Some t /\ trel_ok V prec add del t ks C.
  Proof.
    intros L. destruct (get_some (p_prec P) a) as (prec & E1); [rewrite (wf_prec P WF); exact L|]. destruct (get_some (p_add P) a) as (add & E2); [rewrite (wf_add P WF); exact L|].
    destruct (get_some (p_del P) a) as (del & E3); [rewrite (wf_del P WF); exact L|].
    assert (R : forall b, In b prec \/ In b add \/ In b del -> b < p_nfacts P).
    { intros b [H|[H|H]]; [apply (wf_facts P WF prec)|apply (wf_facts P WF add)|apply (wf_facts P WF del)]; auto; [left|right; left|right; right]; eapply nth_error_In; eassumption. }
    destruct (tr_ok V (p_nfacts P) INT prec add del R) as (t & ks & C & T1 & T2). exists prec, add, del, t, ks, C. repeat (split; [assumption|]). split; [|exact T2].
    unfold trel_of. rewrite E1, E2, E3. exact T1.
  Qed.

  (** C149: the transition relation of every action is defined; the image of a BDD stands for exactly the states that result from executing the
      action in a state of the BDD, the preimage for exactly the states in which the action is executable and leads to a state of the BDD; both
      keep the values of the auxiliary variables. *)
  Theorem image_exact a B : a < length (p_cost P) -> over_pre_aux V B -> single_effects P V -> valid_for P V a B ->
    exists t, trel_of P V a = Some t /\ over_pre_aux V (image t B) /\
      forall r', image t B r' = true <->
        exists r, B r = true /\ same_aux V r r' /\ applicable P (shown V r) a /\ same_state (shown V r') (result P (shown V r) a).
  Proof.
    intros L OV SE VA. destruct (trel_of_ok a L) as (prec & add & del & t & ks & C & E1 & E2 & E3 & R & T & OK). exists t. split; [exact T|].
    split; [eapply image_over; eassumption|]. intros r'. rewrite (image_iff V prec add del t ks C OK B r' OV). split.
    - intros (r & BR & AUX & ST). exists r. split; [exact BR|]. split; [exact AUX|]. destruct (VA r BR) as (ONE & NEXT).
      apply (stepv_iff V P INT a prec add del E1 E2 E3 R t ks C OK r r' SE ONE NEXT). exact ST.
    - intros (r & BR & AUX & APP & SAME). exists r. split; [exact BR|]. split; [exact AUX|]. destruct (VA r BR) as (ONE & NEXT).
      apply (stepv_iff V P INT a prec add del E1 E2 E3 R t ks C OK r r' SE ONE NEXT). auto.
  Qed.

  Theorem preimage_exact a B : a < length (p_cost P) -> over_pre_aux V B -> single_effects P V ->
    exists t, trel_of P V a = Some t /\ over_pre_aux V (preimage t B) /\
      forall r, one_value V (shown V r) -> (applicable P (shown V r) a -> one_value V (result P (shown V r) a)) ->
        (preimage t B r = true <->
         exists r', B r' = true /\ same_aux V r r' /\ applicable P (shown V r) a /\ same_state (shown V r') (result P (shown V r) a)).
  Proof.
    intros L OV SE. destruct (trel_of_ok a L) as (prec & add & del & t & ks & C & E1 & E2 & E3 & R & T & OK). exists t. split; [exact T|].
    split; [eapply preimage_over; eassumption|]. intros r ONE NEXT. rewrite (preimage_iff V prec add del t ks C OK B r OV). split.
    - intros (r' & BR & AUX & ST). exists r'. split; [exact BR|]. split; [exact AUX|].
      apply (stepv_iff V P INT a prec add del E1 E2 E3 R t ks C OK r r' SE ONE NEXT). exact ST.
    - intros (r' & BR & AUX & APP & SAME). exists r'. split; [exact BR|]. split; [exact AUX|].
      apply (stepv_iff V P INT a prec add del E1 E2 E3 R t ks C OK r r' SE ONE NEXT). auto.
  Qed.

  (** The hypothesis of [image_exact] holds for sets of reachable states. *)
  Theorem valid_reachable a B : one_value_reach P V ->
    (forall r, B r = true -> exists plan, executable P (initial_state P) plan /\ same_state (shown V r) (after P (initial_state P) plan)) -> valid_for P V a B.
  Proof.
    intros OR H r BR. destruct (H r BR) as (plan & EX & SAME).
    assert (T : forall s s', same_state s s' -> one_value V s -> one_value V s').
    { intros s s' E O i L N. destruct (O i L N) as (b & B1 & B2). exists b. split; [exact B1|]. intros c C. rewrite <- (E c). now apply B2. }
    split; [apply (T (after P (initial_state P) plan)); [intros b; symmetry; apply SAME|now apply OR]|].
    intros APP. apply (T (after P (initial_state P) (plan ++ [a]))).
    - intros b. assert (Q : forall l s, after P s (l ++ [a]) = result P (after P s l) a) by (induction l as [|x l IH]; intros s; cbn; [reflexivity|apply IH]).
      rewrite Q. unfold result. rewrite (SAME b). reflexivity.
    - apply OR. assert (Q : forall l s, executable P s (l ++ [a]) <-> executable P s l /\ applicable P (after P s l) a).
      { induction l as [|x l IH]; intros s; cbn; [tauto|]. rewrite IH. tauto. }
      apply Q. split; [exact EX|]. intros f F. apply SAME. now apply APP.
  Qed.

  (** C150: the BDD of the initial state stands for exactly the initial state, the BDD of the goal for exactly the goal states. *)
  Theorem init_exact : one_value V (initial_state P) ->
    exists t, state_bdd V (p_s0 P) = Some t /\ forall r, t r = true <-> same_state (shown V r) (initial_state P).
  Proof. intros ONE. apply (state_ok V (p_nfacts P) INT); [apply (wf_s0 P WF)|exact ONE]. Qed.
  Theorem goal_exact : exists t, partial_bdd V (p_goal P) = Some t /\ forall r, t r = true <-> goal_state P (shown V r).
  Proof. apply (partial_ok V (p_nfacts P) INT). apply (wf_goal P WF). Qed.
End Thm.

(** A variable with three facts and one with a single fact; action 0 moves from fact 0 to fact 1 and adds fact 3. *)
Module Ex.
  Definition V : list (nat * nat) := [(0, 2); (3, 3)].
  Definition P : problem := {| p_nfacts := 4; p_prim := [true; false]; p_prec := [[0]]; p_add := [[1; 3]]; p_del := [[0]]; p_cost := [1];
    p_methods := [{| m_task := 1; m_subs := [0]; m_ord := [] |}]; p_init := 1; p_s0 := [0]; p_goal := [1; 3] |}.
  Lemma int : intervals 0 V (p_nfacts P). Proof. cbn. lia. Qed.
  Lemma wf : wf_problem P.
  Proof.
    constructor; cbn; try reflexivity.
    - intros [|[|[|t]]] H; cbn in H; try discriminate; lia.
    - intros l f [[<-|[]]|[[<-|[]]|[<-|[]]]] H; cbn in H; lia.
    - intros f [<-|[]]; lia.
    - intros f [<-|[<-|[]]]; lia.
    - intros m [<-|[]]. constructor; cbn; try reflexivity.
      + intros t [<-|[]]; cbn; lia.
      + discriminate.
      + intros j k [].
      + intros j H. unfold m_lt in H. assert (Q : forall x y, Relation_Operators.clos_trans nat (m_before {| m_task := 1; m_subs := [0]; m_ord := [] |}) x y -> False).
        { induction 1 as [x y Z| x y z _ IH _ _]; [destruct Z|exact IH]. } exact (Q _ _ H).
  Qed.
  (** The value 0 of the first variable, fact 3 false. *)
  Definition r0 : nat -> bool := fun v => v =? 6.
  (** The value 1 of the first variable, fact 3 true. *)
  Definition r1 : nat -> bool := fun v => v =? 0.

  Lemma facts i d b : fact_of V i d b <-> (i = 0 /\ d = b /\ b <= 2) \/ (i = 1 /\ d = 0 /\ b = 3).
  Proof.
    unfold fact_of, V. split.
    - intros (f & l & E & F & L). destruct i as [|[|i]]; cbn in E; [injection E as <- <-; left; lia|injection E as <- <-; right; lia|destruct i; discriminate].
    - intros [(-> & -> & L)|(-> & -> & ->)]; [exists 0, 2|exists 3, 3]; cbn; repeat split; lia.
  Qed.
  Lemma shown_iff r b : shown V r b <-> (b <= 2 /\ value r [0; 3] = b) \/ (b = 3 /\ value r [6] = 0).
  Proof.
    unfold shown. split.
    - intros (i & d & F & E). apply facts in F as [(-> & -> & L)|(-> & -> & ->)]; [left|right]; auto.
    - intros [(L & E)|(-> & E)]; [exists 0, b|exists 1, 0]; (split; [apply facts; auto|exact E]).
  Qed.
  Lemma multi i : i < length V -> ~ single V i -> i = 0.
  Proof. intros L N. destruct i as [|[|i]]; [reflexivity| |cbn in L; lia]. exfalso. apply N. now exists 3. Qed.
  Lemma of_var0 b : of_var V 0 b <-> b <= 2.
  Proof. split; [intros (d & F); apply facts in F; lia|]. intros L. exists b. apply facts. auto. Qed.
  Lemma onev r : value r [0; 3] <= 2 -> one_value V (shown V r).
  Proof.
    intros L i LI N. rewrite (multi i LI N). exists (value r [0; 3]). split; [now apply of_var0|]. intros c C. apply of_var0 in C. rewrite shown_iff. lia.
  Qed.
  Lemma next r : value r [0; 3] = 0 -> one_value V (result P (shown V r) 0).
  Proof.
    intros E i LI N. rewrite (multi i LI N). exists 1. split; [apply of_var0; lia|]. intros c C. apply of_var0 in C. split.
    - intros [(l & A & Q)|(S0 & D)]; [cbn in A; injection A as <-; cbn in Q; lia|]. apply shown_iff in S0. exfalso. apply D. exists [0]. split; [reflexivity|]. left. lia.
    - intros ->. left. exists [1; 3]. split; [reflexivity|now left].
  Qed.
  Lemma effects : single_effects P V.
  Proof.
    intros a i b SI O (l & A & Q) (l' & D & Q'). destruct a as [|[|a]]; cbn in A, D; try discriminate. injection A as <-. injection D as <-. cbn in Q, Q'. lia.
  Qed.
  Lemma no_value_3 : forall r, shown V r 0 -> value r [0; 3] = 0.
  Proof. intros r H. apply shown_iff in H. lia. Qed.
  (** The hypotheses of the theorems hold for the BDD of the initial state. *)
  Example hypotheses : exists B, state_bdd V (p_s0 P) = Some B /\ over_pre_aux V B /\ valid_for P V 0 B /\ B r0 = true.
  Proof.
    eexists. split; [reflexivity|]. split; [|split; [|reflexivity]].
    - intros r r' E. cbn. unfold conj, one, neg, bvar. rewrite (E 0 0), (E 0 3), (E 1 6); [reflexivity|left; cbn; auto|left; cbn; auto|left; cbn; auto].
    - intros r H. assert (Z : value r [0; 3] = 0).
      { cbn in H. unfold conj, one, neg, bvar in H. cbn. destruct (r 0), (r 3); cbn in H; try discriminate; reflexivity. }
      split; [apply onev; lia|]. intros _. now apply next.
  Qed.
  (** The image of the initial state contains the valuation with fact 1 and fact 3, and not the old one. *)
  Example run : exists B t, state_bdd V (p_s0 P) = Some B /\ trel_of P V 0 = Some t /\ image t B r1 = true /\ image t B r0 = false /\
    preimage t (image t B) r0 = true.
  Proof. eexists _, _. split; [reflexivity|]. split; [reflexivity|]. vm_compute. auto. Qed.
End Ex.

(** C151 (refuted): the exactness needs its guards. *)
Module Bad.
  (** Action 0 deletes and adds its only fact; in the planning semantics the fact is true afterwards, in the image it is false. *)
  Definition V : list (nat * nat) := [(0, 0)].
  Definition P : problem := {| p_nfacts := 1; p_prim := [true; false]; p_prec := [[]]; p_add := [[0]]; p_del := [[0]]; p_cost := [1];
    p_methods := [{| m_task := 1; m_subs := [0]; m_ord := [] |}]; p_init := 1; p_s0 := []; p_goal := [0] |}.
End Bad.

Theorem add_and_delete_refuted : exists P V a t r,
  intervals 0 V (p_nfacts P) /\ trel_of P V a = Some t /\ valid_for P V a one /\ applicable P (shown V r) a /\
  result P (shown V r) a 0 /\ forall r', image t one r' = true -> ~ shown V r' 0.
Proof.
  exists Bad.P, Bad.V, 0. eexists. exists (fun _ => false). split; [cbn; lia|]. split; [reflexivity|]. split; [|split; [|split]].
  - intros r _. assert (N : forall i, i < length Bad.V -> single Bad.V i) by (intros [|i] L; [now exists 0|cbn in L; lia]).
    split; [|intros _]; intros i L S0; destruct (S0 (N i L)).
  - intros f (l & E & F). injection E as <-. destruct F.
  - left. exists [0]. split; [reflexivity|now left].
  - intros r' H (i & d & (f & l & E & F & L) & Q). destruct i as [|i]; cbn in E; [|destruct i; discriminate]. injection E as <- <-.
    assert (Z : d = 0) by lia. rewrite Z in Q. cbn in Q. vm_compute in H. destruct (r' 0); [lia|discriminate].
Qed.

(** A variable with three facts none of which is true in the initial state: the BDD of the initial state stands for a state with its second fact. *)
Theorem missing_value_refuted : exists V bits t, intervals 0 V 3 /\ state_bdd V bits = Some t /\ ~ In 1 bits /\
  (exists r, t r = true) /\ forall r, t r = true -> shown V r 1.
Proof.
  exists [(0, 2)], []. eexists. split; [cbn; lia|]. split; [reflexivity|]. split; [intros []|]. split; [now exists (fun v => v =? 0)|].
  intros r H. exists 0, 1. split; [exists 0, 2; cbn; repeat split; lia|]. cbn in *. unfold conj, one, neg, bvar in H. destruct (r 0), (r 3); cbn in *; try discriminate; reflexivity.
Qed.

Print Assumptions image_exact.
Print Assumptions preimage_exact.
Print Assumptions valid_reachable.
Print Assumptions init_exact.
Print Assumptions goal_exact.
Print Assumptions add_and_delete_refuted.
Print Assumptions missing_value_refuted.
