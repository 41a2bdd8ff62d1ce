(** Invariants (C39, C40, C71, C72). *)
From Coq Require Import ZArith Lia Bool Permutation.
From Verif Require Import Base Htn_problem Htn_spec Inv_model Inv_spec Inv_rint Inv_close.
Local Open Scope Z_scope.

Lemma after_dec P plan : forall s : state, (forall f, s f \/ ~ s f) -> forall f, after P s plan f \/ ~ after P s plan f.
Proof.
  induction plan as [|a r IH]; intros s D f; cbn; auto. apply IH. intros g. unfold result.
  assert (DA : adds P a g \/ ~ adds P a g). { unfold adds. destruct (nth_error (p_add P) a) as [l|]; [|right; intros [? [? _]]; discriminate]. destruct (in_dec Nat.eq_dec g l) as [H|H]; [left; eauto|right; intros [l' [E H']]; congruence]. }
  assert (DD : dels P a g \/ ~ dels P a g). { unfold dels. destruct (nth_error (p_del P) a) as [l|]; [|right; intros [? [? _]]; discriminate]. destruct (in_dec Nat.eq_dec g l) as [H|H]; [left; eauto|right; intros [l' [E H']]; congruence]. }
  destruct (D g); tauto.
Qed.
Lemma reachable_dec P s : reachable P s -> forall f, s f \/ ~ s f.
Proof. intros [plan [_ E]] f. rewrite E. apply after_dec. intros g. unfold initial_state. destruct (in_dec Nat.eq_dec g (p_s0 P)); auto. Qed.

(** C39: the algorithm ends, and what it delivers holds in every state reachable by actions (none of which adds and deletes the same fact). *)
Theorem rintanen_invariants_hold P : wf_problem P -> no_conflict P ->
  exists v, rintanen P = Some v /\ forall a b, In (a, b) v -> lit_in (p_nfacts P) a /\ lit_in (p_nfacts P) b /\ forall s, reachable P s -> clause2_holds s (a, b).
Proof.
  intros WF NC. destruct (rintanen_reach P WF NC) as [v [E [F H]]]. exists v. split; auto. intros a b Hab. destruct (F a b Hab) as [Fa [Fb _]].
  split; [apply lit_in_fact; auto|]. split; [apply lit_in_fact; auto|]. intros s Hs. apply H; auto.
Qed.

(** The invariants from the input: whatever set of states satisfies the parsed groups satisfies the derived invariants. *)
Theorem extracted_invariants_hold order n X (Sig : state -> Prop) bi :
  (forall l, Permutation (order l) l) -> input_ok n (x_sas X) (x_strict X) (x_mutex X) (x_inv X) ->
  (forall s, Sig s -> (forall f, s f \/ ~ s f) /\ input_holds (x_sas X) (x_strict X) (x_mutex X) (x_inv X) s) ->
  extract_invariants order n X = Some bi ->
  forall a b l, at_lit n bi a = Some l -> In b l -> forall s, Sig s -> clause2_holds s (a, b).
Proof.
  intros ORD IO H E a b l El Hb s Hs. destruct (extract_ok n Sig order ORD X IO (fun s h => proj2 (H s h)) (fun s h => proj1 (H s h))) as [_ C].
  destruct (C bi E) as [_ [S _]]. apply (S a b); auto. exists l. auto.
Qed.

(** The extraction ends and has no undefined behaviour if every fact is true in one and false in another of these states. *)
Theorem extraction_defined order n X (Sig : state -> Prop) :
  (forall l, Permutation (order l) l) -> input_ok n (x_sas X) (x_strict X) (x_mutex X) (x_inv X) ->
  (forall s, Sig s -> (forall f, s f \/ ~ s f) /\ input_holds (x_sas X) (x_strict X) (x_mutex X) (x_inv X) s) ->
  (forall f, (f < n)%nat -> (exists s, Sig s /\ s f) /\ (exists s, Sig s /\ ~ s f)) ->
  exists bi, extract_invariants order n X = Some bi.
Proof.
  intros ORD IO H V. destruct (extract_ok n Sig order ORD X IO (fun s h => proj2 (H s h)) (fun s h => proj1 (H s h))) as [D _].
  destruct (extract_invariants order n X) as [bi|]; [eauto|]. exfalso. apply D; auto. intros l Rl. apply lit_in_fact in Rl. destruct (V (lfact l) Rl) as [[s [S1 S2]] [t [T1 T2]]].
  destruct (lit_cases l) as [[El _]|[El _]]; [exists s|exists t]; split; auto; rewrite El; [rewrite lit_mklit; tauto|rewrite lit_mklit_pos; tauto].
Qed.

(** All invariants that the planner keeps hold in all reachable states, if the input does. *)
Theorem all_invariants_hold order P X mutexes bi (Sig : state -> Prop) : (forall l, Permutation (order l) l) -> wf_problem P ->
  input_ok (p_nfacts P) (x_sas X) (x_strict X) (x_mutex X) (x_inv X) ->
  (forall s, Sig s -> exists plan, executable P (initial_state P) plan /\ (forall a f, In a plan -> adds P a f -> ~ dels P a f) /\ forall f, s f <-> after P (initial_state P) plan f) ->
  (forall s, Sig s -> input_holds (x_sas X) (x_strict X) (x_mutex X) (x_inv X) s) ->
  all_invariants order P X mutexes = Some bi ->
  bi_ok (p_nfacts P) bi /\ forall a b, known (p_nfacts P) bi a b -> forall s, Sig s -> clause2_holds s (a, b).
Proof.
  intros ORD WF IO RE IH E. unfold all_invariants in E. assert (DEC : forall s, Sig s -> forall f, s f \/ ~ s f) by (intros s Hs; destruct (RE s Hs) as (plan & X1 & _ & X2); apply (reachable_dec P); exists plan; auto).
  destruct (extract_ok (p_nfacts P) Sig order ORD X IO IH DEC) as [_ C].
  destruct (extract_invariants order (p_nfacts P) X) as [b0|]; [|discriminate]. cbn [obind] in E. destruct (C b0 eq_refl) as [O [S _]]. destruct mutexes.
  - destruct (rintanen_ok P WF) as [v [Ev [F H]]]. rewrite Ev in E. cbn [obind] in E.
    destruct (insert_all_ok (p_nfacts P) Sig v b0 O S) as [b1 [E1 [O1 [S1 _]]]].
    + intros a b Hab. destruct (F a b Hab) as [Fa [Fb _]]. split; [apply lit_in_fact; auto|]. split; [apply lit_in_fact; auto|]. intros s Hs. destruct (RE s Hs) as (plan & X1 & X2 & X3). specialize (H plan X1 X2 (a, b) Hab). unfold clause2_holds, lit_holds in *. rewrite !X3. exact H.
    + assert (b1 = bi) by congruence. subst b1. split; [auto|]. intros a b K s Hs. apply (S1 a b K s Hs).
  - assert (b0 = bi) by congruence. subst b0. split; [auto|]. intros a b K s Hs. apply (S a b K s Hs).
Qed.

(** C40: a mutex query is answered, and literals reported as incompatible are not true together in any reachable state. *)
Theorem mutex_queries_sound order P X mutexes bi : (forall l, Permutation (order l) l) -> wf_problem P -> no_conflict P ->
  input_ok (p_nfacts P) (x_sas X) (x_strict X) (x_mutex X) (x_inv X) ->
  (forall s, reachable P s -> input_holds (x_sas X) (x_strict X) (x_mutex X) (x_inv X) s) ->
  all_invariants order P X mutexes = Some bi ->
  forall a b, lit_in (p_nfacts P) a -> lit_in (p_nfacts P) b ->
    exists r, co_occur (p_nfacts P) bi a b = Some r /\ (r = false -> forall s, reachable P s -> ~ (lit_holds s a /\ lit_holds s b)).
Proof.
  intros ORD WF NC IO IH E a b Ra Rb. destruct (all_invariants_hold order P X mutexes bi (reachable P) ORD WF IO) as [O K]; auto; [intros s (plan & X1 & X2); exists plan; split; auto; split; auto; intros a' f _; apply NC|]. unfold co_occur.
  destruct (Z.eqb_spec a (- b - 1)) as [->|N].
  - exists false. split; auto. intros _ s _ [H1 H2]. exact (lit_neg s b H2 H1).
  - destruct (at_lit_some (p_nfacts P) bi (- a - 1) (bo_len _ _ O)) as [l El]; [unfold lit_in in *; lia|]. rewrite El. cbn [obind]. eexists. split; [reflexivity|].
    intros R s Hs [H1 H2]. apply negb_false_iff in R. apply count_in in R. destruct (K (- a - 1) (- b - 1) (ex_intro _ l (conj El R)) s Hs) as [H|H]; cbn [fst snd] in H; [exact (lit_neg s a H1 H)|exact (lit_neg s b H2 H)].
Qed.

(** C71 is false: if actions may add and delete the same facts, the algorithm keeps clauses that do not hold in reachable states. *)
Theorem rintanen_conflict_refuted :
  exists P v c s, wf_problem P /\ rintanen P = Some v /\ In c v /\ reachable P s /\ ~ clause2_holds s c.
Proof.
  set (P := {| p_nfacts := 2; p_s0 := []; p_goal := []; p_prec := [[]]; p_add := [[0; 1]]; p_del := [[0; 1]]; p_cost := [1]; p_prim := [true; false];
               p_methods := [{| m_task := 1; m_subs := [0]; m_ord := [] |}]; p_init := 1 |}%nat).
  exists P, [(0, -2); (-1, 1); (-1, -2)], (-1, -2), (after P (initial_state P) [0%nat]). split; [|split; [vm_compute; reflexivity|split; [cbn; auto|split]]].
  - split; cbn; try reflexivity.
    + intros [|[|t]]; cbn; try discriminate; try lia. destruct t; discriminate.
    + intros l f [[<-|[]]|[[<-|[]]|[<-|[]]]]; cbn; lia.
    + lia.
    + lia.
    + intros m [<-|[]]. split; cbn; try reflexivity.
      * intros t [<-|[]]; lia.
      * discriminate.
      * intros ? ? [].
      * intros j H. assert (forall x y, m_lt {| m_task := 1; m_subs := [0]; m_ord := [] |}%nat x y -> False) as L by (clear; intros x y H; induction H as [x y H|]; [destruct H|assumption]). exact (L j j H).
  - exists [0%nat]. split; [|tauto]. cbn. split; auto. intros f [l [E H]]. cbn in E. inversion E; subst. destruct H.
  - intros [H|H]; cbn [fst snd] in H; destruct H as [H _]; apply (H ltac:(lia)); cbn; unfold result; left; exists [0; 1]%nat; split; auto; cbn; auto.
Qed.

(** C72 is false: from (not 0 or 1), (not 1 or 2), (not 2 or not 0) the resolution derives (not 0 or not 0), and resolving (0 or 3) with it inserts into the set that is iterated. *)
Theorem resolution_iterator_refuted :
  exists n X, input_ok n (x_sas X) (x_strict X) (x_mutex X) (x_inv X) /\ (exists s, input_holds (x_sas X) (x_strict X) (x_mutex X) (x_inv X) s) /\ extract_invariants (fun l => l) n X = None.
Proof.
  exists 4%nat, {| x_sas := []; x_strict := []; x_mutex := []; x_inv := [[-1; 1]; [-2; 2]; [-3; -1]; [0; 3]] |}.
  split; [|split].
  - split; cbn; try (intros; contradiction). intros l x [<-|[<-|[<-|[<-|[]]]]]; cbn; intros H; unfold lit_in; lia.
  - exists (fun f => f = 3%nat). split; cbn; try (intros; contradiction). intros l [<-|[<-|[<-|[<-|[]]]]]; [exists (-1)|exists (-2)|exists (-1)|exists 3]; split; cbn; auto; split; cbn; lia.
  - vm_compute. reflexivity.
Qed.

Module Ex.
(** Three facts: the robot is at A (0) or at B (1), the light is on (2). Moving needs and deletes the position; the light is switched on at B. *)
Definition prob : problem := {| p_nfacts := 3; p_s0 := [0]; p_goal := [2]; p_prec := [[0]; [1]; [1]]; p_add := [[1]; [0]; [2]]; p_del := [[0]; [1]; []]; p_cost := [1; 1; 1];
  p_prim := [true; true; true; false]; p_methods := [{| m_task := 3; m_subs := [0; 2]; m_ord := [(0, 1)] |}]; p_init := 3 |}%nat.
Definition input : parsed := {| x_sas := [(0, 1); (2, 2)]%nat; x_strict := []; x_mutex := [[0; 1]]%nat; x_inv := [] |}.
(** The robot is at one of the places, and not at both. *)
Example found : rintanen prob = Some [(0, 1); (-1, -2)].
Proof. vm_compute. reflexivity. Qed.
Example extracted : extract_invariants (fun l => l) 3 input = Some [[]; [-1]; [-2]; [1]; [0]; []].
Proof. vm_compute. reflexivity. Qed.
Example all_of_them : all_invariants (fun l => l) prob input true = Some [[]; [-1]; [-2]; [1]; [0]; []].
Proof. vm_compute. reflexivity. Qed.
Example both_places : co_occur 3 [[]; [-1]; [-2]; [1]; [0]; []] 0 1 = Some false /\ co_occur 3 [[]; [-1]; [-2]; [1]; [0]; []] 0 2 = Some true.
Proof. split; reflexivity. Qed.

Lemma conflict_free : no_conflict prob.
Proof. intros a f [l [E H]] [l' [E' H']]. destruct a as [|[|[|a]]]; cbn in E, E'; try (destruct a; discriminate); inversion E; inversion E'; subst; cbn in H, H'; lia. Qed.
Lemma prob_wf : wf_problem prob.
Proof.
  split; cbn; try reflexivity.
  - intros [|[|[|[|t]]]]; cbn; try discriminate; try lia. destruct t; discriminate.
  - intros l f H. assert (In l [[0]; [1]; [2]; []]%nat) as HL by (cbn; intuition). cbn in HL. destruct HL as [<-|[<-|[<-|[<-|[]]]]]; cbn; lia.
  - lia.
  - lia.
  - intros m [<-|[]]. split; cbn; try reflexivity.
    + intros t [<-|[<-|[]]]; lia.
    + discriminate.
    + intros j k [E|[]]. inversion E; subst. lia.
    + intros j H. assert (forall x y, m_lt {| m_task := 3; m_subs := [0; 2]; m_ord := [(0, 1)] |}%nat x y -> (x < y)%nat) as L.
      { clear. intros x y H. induction H as [x y H|]; [|lia]. destruct H as [E|[]]. inversion E; subst. lia. }
      specialize (L j j H). lia.
Qed.
Lemma input_fine : input_ok 3 (x_sas input) (x_strict input) (x_mutex input) (x_inv input).
Proof. split; cbn; try (intros; contradiction). - intros a b [E|[E|[]]]; inversion E; subst; lia. - intros l f [<-|[]] H; cbn in H; lia. Qed.
(** The input holds in all reachable states, and in them the light is on and off, and the robot in both places. *)
Lemma one_place s : reachable prob s -> (s 0%nat /\ ~ s 1%nat) \/ (~ s 0%nat /\ s 1%nat).
Proof.
  intros [plan [X E]]. destruct (rintanen_invariants_hold prob prob_wf conflict_free) as [v [Ev H]]. rewrite found in Ev. inversion Ev; subst v.
  assert (R : reachable prob s) by (exists plan; auto).
  destruct (H 0 1 ltac:(cbn; auto)) as [_ [_ H1]]. destruct (H (-1) (-2) ltac:(cbn; auto)) as [_ [_ H2]]. specialize (H1 s R). specialize (H2 s R).
  unfold clause2_holds, lit_holds in H1, H2; cbn in H1, H2. destruct H1 as [[_ H1]|[_ H1]]; destruct H2 as [[H2 _]|[H2 _]]; specialize (H1 ltac:(lia)); specialize (H2 ltac:(lia)); tauto.
Qed.
Lemma input_true s : reachable prob s -> input_holds (x_sas input) (x_strict input) (x_mutex input) (x_inv input) s.
Proof.
  intros R. pose proof (one_place s R) as O. split; cbn; try (intros; contradiction).
  - intros a b [E|[E|[]]] N; inversion E; subst; [|lia]. cbn. destruct O as [[O _]|[_ O]]; [exists 0%nat|exists 1%nat]; cbn; auto.
  - intros a b H i j f g Ef Eg Hf Hg. destruct H as [E|[E|[]]]; inversion E; subst; cbn in Ef, Eg.
    + destruct i as [|[|i]]; destruct j as [|[|j]]; cbn in *; try reflexivity; try (destruct i; discriminate); try (destruct j; discriminate); exfalso; inversion Ef; inversion Eg; subst; tauto.
    + destruct i as [|i]; destruct j as [|j]; cbn in *; try reflexivity; try (destruct i; discriminate); try (destruct j; discriminate).
  - intros l [<-|[]] i j f g Ef Eg Hf Hg. destruct i as [|[|i]]; destruct j as [|[|j]]; cbn in *; try reflexivity; try (destruct i; discriminate); try (destruct j; discriminate); exfalso; inversion Ef; inversion Eg; subst; tauto.
Qed.
(** The theorems apply: the robot is never at both places. *)
Example never_both s : reachable prob s -> ~ (s 0%nat /\ s 1%nat).
Proof.
  intros R [A B]. destruct (mutex_queries_sound (fun l => l) prob input true _ (fun l => Permutation_refl l) prob_wf conflict_free input_fine input_true all_of_them 0 1) as [r [E H]]; [unfold lit_in; cbn; lia|unfold lit_in; cbn; lia|].
  assert (r = false) by (vm_compute in E; congruence). apply (H H0 s R). split; split; auto; lia.
Qed.
Example state_with_light : reachable prob (after prob (initial_state prob) [0; 2]%nat) /\ after prob (initial_state prob) [0; 2]%nat 2%nat.
Proof.
  split.
  - exists [0; 2]%nat. split; [|tauto]. cbn. split; [|split; auto].
    + intros f [l [E H]]. cbn in E. inversion E; subst. destruct H as [<-|[]]. cbn. unfold initial_state. cbn. auto.
    + intros f [l [E H]]. cbn in E. inversion E; subst. destruct H as [<-|[]]. left. exists [1]%nat. cbn. auto.
  - left. exists [2]%nat. cbn. auto.
Qed.
Example varied_here : forall f, (f < 3)%nat -> (exists s, reachable prob s /\ s f) /\ (exists s, reachable prob s /\ ~ s f).
Proof.
  destruct state_with_light as [R L]. assert (R0 : reachable prob (initial_state prob)) by (exists []; split; [exact I|cbn; tauto]).
  pose proof (one_place _ R) as O. assert (B : after prob (initial_state prob) [0; 2]%nat 1%nat).
  { right. split; [left; exists [1%nat]; cbn; auto|]. intros [l [E H]]. cbn in E. inversion E; subst. destruct H. }
  intros f Hf. destruct f as [|[|[|f]]]; [| | |lia].
  - split; [exists (initial_state prob)|exists (after prob (initial_state prob) [0; 2]%nat)]; split; auto; [unfold initial_state; cbn; auto|tauto].
  - split; [exists (after prob (initial_state prob) [0; 2]%nat)|exists (initial_state prob)]; split; auto. unfold initial_state; cbn. lia.
  - split; [exists (after prob (initial_state prob) [0; 2]%nat)|exists (initial_state prob)]; split; auto. unfold initial_state; cbn. lia.
Qed.
Example extraction_works : exists bi, extract_invariants (fun l => l) 3 input = Some bi.
Proof. apply (extraction_defined (fun l => l) 3 input (reachable prob) (fun l => Permutation_refl l) input_fine (fun s R => conj (reachable_dec prob s R) (input_true s R)) varied_here). Qed.
End Ex.

Print Assumptions rintanen_invariants_hold.
Print Assumptions extracted_invariants_hold.
Print Assumptions extraction_defined.
Print Assumptions all_invariants_hold.
Print Assumptions mutex_queries_sound.
Print Assumptions rintanen_conflict_refuted.
Print Assumptions resolution_iterator_refuted.
