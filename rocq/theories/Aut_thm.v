(** Theorems about the search of the symbolic planner. *)
From Coq Require Import Relations.
From Verif Require Import Base Htn_problem Htn_spec Htn_proof Htn_check To_spec To_sem Sas_spec Sas_run Sas_thm Aut_model Aut_sem Aut_inv Aut_step Aut_run.

(** ** C152 *)
Lemma listed_linear P : listed_in_order P -> linear_methods P.
Proof. intros LO m I. exists (seq 0 (length (m_subs m))). now apply LO. Qed.
Lemma fin_solution P s1 pl : wf_problem P -> listed_in_order P -> fin P (p_init P) (s0_bst P) s1 pl -> all_bits s1 (p_goal P) = true -> solution P pl.
Proof.
  intros WF LO [D R] G. apply (derives_solution P WF (listed_linear P LO)). split; [exact D|]. destruct (rep_run P WF pl (s0_bst P) s1 (initial_state P) (rep_s0 P WF) R) as [X R1].
  split; [exact X|]. eapply rep_goal; eassumption.
Qed.

(** C152: if the search reports a plan of some length, there is a solution with at most these costs. *)
Theorem symbolic_sound P fuel c : wf_problem P -> actions_first P -> listed_in_order P -> plan_symbolic P fuel = Some (Length c) ->
  exists plan, solution P plan /\ plan_cost P plan <= c.
Proof.
  intros WF AF LO E. destruct (symbolic_found P WF AF LO fuel c E) as (s1 & pl & F & C & G). exists pl. split; [|exact C]. eapply fin_solution; eassumption.
Qed.
Print Assumptions symbolic_sound.

(** A problem without solution is never reported to be solved. *)
Theorem symbolic_unsolvable P fuel c : wf_problem P -> actions_first P -> listed_in_order P -> (forall plan, ~ solution P plan) -> plan_symbolic P fuel <> Some (Length c).
Proof. intros WF AF LO N E. destruct (symbolic_sound P fuel c WF AF LO E) as (plan & S & _). exact (N plan S). Qed.
Print Assumptions symbolic_unsolvable.

(** ** Checks for the examples *)
Definition order_check (P : problem) : bool :=
  forallb (fun m => forallb (fun j => existsb (fun e => (fst e =? j) && (snd e =? S j)) (m_ord m)) (seq 0 (length (m_subs m) - 1))) (p_methods P).
Definition first_check (P : problem) : bool := forallb (fun t => nth t (p_prim P) false) (seq 0 (length (p_cost P))).
Lemma first_check_ok P : first_check P = true -> actions_first P.
Proof.
  unfold first_check. rewrite forallb_forall. intros H t L. specialize (H t). rewrite in_seq in H. specialize (H ltac:(lia)). unfold primitive. destruct (nth_error (p_prim P) t) as [b|] eqn:E.
  - rewrite (nth_error_nth _ _ _ E) in H. now rewrite H.
  - apply nth_error_None in E. rewrite nth_overflow in H; [discriminate|lia].
Qed.
(** Inputs on which the search should work: at most two subtasks per method, total order in the order of the list *)
Definition fine (P : problem) : Prop := wf_problem P /\ actions_first P /\ listed_in_order P /\ forall m, In m (p_methods P) -> length (m_subs m) <= 2.
Lemma fine_check P : problem_check P && order_check P && first_check P && forallb (fun m => length (m_subs m) <=? 2) (p_methods P) = true -> fine P.
Proof.
  rewrite !andb_true_iff. intros [[[A B] C] D]. split; [now apply problem_check_ok|]. split; [now apply first_check_ok|]. split; [now apply in_order_check|].
  intros m I. rewrite forallb_forall in D. now apply Nat.leb_le, D.
Qed.

Lemma fin_two P me a b s s1 s2 p1 p2 : fine P -> In me (p_methods P) -> m_subs me = [a; b] -> fin P a s s1 p1 -> fin P b s1 s2 p2 -> fin P (m_task me) s s2 (p1 ++ p2).
Proof.
  intros (WF & AF & LO & _) I E F1 F2. assert (T := LO me I). rewrite E in T. eapply tail_fin; [|exact F2]. change p1 with ([] ++ p1). eapply tail_two; [apply tail_id|exact I|reflexivity|exact E|exact T|exact F1].
Qed.
Ltac two m := match goal with |- fin _ ?t ?s _ _ => change t with (m_task m) end; eapply (fin_two _ m); [assumption|cbn; tauto|reflexivity| |].
Ltac act := apply fin_act; [apply first_check_ok; reflexivity|cbn; lia|reflexivity].

Definition mth (t : nat) (l : list nat) : method := {| m_task := t; m_subs := l; m_ord := [(0, 1)] |}.

Module SymExample.
  (** 3 -> 0 4, 4 -> 1 2; fact 0 has to be reached first. *)
  Definition P : problem := {| p_nfacts := 3; p_prim := [true; true; true; false; false]; p_prec := [[]; [0]; [1]]; p_add := [[0]; [1]; [2]]; p_del := [[]; [0]; []]; p_cost := [1; 2; 0];
    p_methods := [mth 3 [0; 4]; mth 4 [1; 2]]; p_init := 3; p_s0 := []; p_goal := [1; 2] |}.
  Example reported : fine P /\ plan_symbolic P 60 = Some (Length 3) /\ exists plan, solution P plan /\ plan_cost P plan <= 3.
  Proof.
    assert (F : fine P) by (apply fine_check; reflexivity). split; [exact F|]. assert (E : plan_symbolic P 60 = Some (Length 3)) by (vm_compute; reflexivity). split; [exact E|].
    destruct F as (WF & AF & LO & _). exact (symbolic_sound P 60 3 WF AF LO E).
  Qed.
End SymExample.

(** ** C153 to C157 *)
(** C153: for problems with at most two subtasks per method the search is defined. *)
Definition symbolic_defined : Prop := forall P, fine P -> forall fuel, plan_symbolic P fuel <> None.
(** C154: if the search reports that there is no plan, there is none. *)
Definition symbolic_complete : Prop := forall P, fine P -> forall fuel, plan_symbolic P fuel = Some Unsolvable -> forall plan, ~ solution P plan.
(** C155: the reported costs are the least costs of a solution. *)
Definition symbolic_optimal : Prop := forall P, fine P -> forall fuel c, plan_symbolic P fuel = Some (Length c) -> forall plan, solution P plan -> c <= plan_cost P plan.
(** C156: the search does not stop with an empty state on an edge. *)
Definition symbolic_nonempty : Prop := forall P, fine P -> forall fuel, plan_symbolic P fuel <> Some Stopped.
(** C157: C152 holds for totally ordered methods, however their subtasks are listed. *)
Definition symbolic_any_listing : Prop := forall P fuel c, wf_problem P -> actions_first P -> linear_methods P -> (forall m, In m (p_methods P) -> length (m_subs m) <= 2) ->
  plan_symbolic P fuel = Some (Length c) -> exists plan, solution P plan.

Module SymUndefined.
  (** 2 -> 1 1, 1 -> 0 0, every action costs 2: the map of depths of costs that were not reached is empty, and its last element is read. *)
  Definition P : problem := {| p_nfacts := 1; p_prim := [true; false; false]; p_prec := [[]]; p_add := [[]]; p_del := [[]]; p_cost := [2]; p_methods := [mth 1 [0; 0]; mth 2 [1; 1]]; p_init := 2; p_s0 := []; p_goal := [] |}.
  Lemma ok : fine P.
  Proof. apply fine_check. reflexivity. Qed.
  Lemma solvable : solution P [0; 0; 0; 0].
  Proof.
    assert (F := ok). eapply fin_solution with (s1 := [false]); [apply F|apply F| |reflexivity]. change [0; 0; 0; 0] with (([0] ++ [0]) ++ [0] ++ [0]).
    two (mth 2 [1; 1]); [two (mth 1 [0; 0])|two (mth 1 [0; 0])]; act.
  Qed.
  Lemma undefined : plan_symbolic P 60 = None.
  Proof. vm_compute. reflexivity. Qed.
End SymUndefined.
Theorem symbolic_defined_refuted : ~ symbolic_defined.
Proof. intros H. exact (H SymUndefined.P SymUndefined.ok 60 SymUndefined.undefined). Qed.
Print Assumptions symbolic_defined_refuted.

Module SymIncomplete.
  (** 2 -> 1 1, 1 -> 0 0 | 0 1, costs 0 *)
  Definition P : problem := {| p_nfacts := 1; p_prim := [true; false; false]; p_prec := [[]]; p_add := [[0]]; p_del := [[]]; p_cost := [0]; p_methods := [mth 1 [0; 0]; mth 2 [1; 1]; mth 1 [0; 1]]; p_init := 2; p_s0 := []; p_goal := [] |}.
  Lemma ok : fine P.
  Proof. apply fine_check. reflexivity. Qed.
  Lemma solvable : solution P [0; 0; 0; 0].
  Proof.
    assert (F := ok). eapply fin_solution with (s1 := [true]); [apply F|apply F| |reflexivity]. change [0; 0; 0; 0] with (([0] ++ [0]) ++ [0] ++ [0]).
    two (mth 2 [1; 1]); [two (mth 1 [0; 0])|two (mth 1 [0; 0])]; act.
  Qed.
  Lemma reported : plan_symbolic P 60 = Some Unsolvable.
  Proof. vm_compute. reflexivity. Qed.
End SymIncomplete.
Theorem symbolic_complete_refuted : ~ symbolic_complete.
Proof. intros H. exact (H SymIncomplete.P SymIncomplete.ok 60 SymIncomplete.reported _ SymIncomplete.solvable). Qed.
Print Assumptions symbolic_complete_refuted.

Module SymCostly.
  (** 3 -> 4 0 | 1 4, 4 -> 0 1: the plan 1 0 1 costs 4, reported are 5. *)
  Definition P : problem := {| p_nfacts := 1; p_prim := [true; true; true; false; false]; p_prec := [[0]; []; []]; p_add := [[0]; [0]; [0]]; p_del := [[]; []; []]; p_cost := [2; 1; 0];
    p_methods := [mth 3 [4; 0]; mth 4 [0; 1]; mth 3 [1; 4]]; p_init := 3; p_s0 := [0]; p_goal := [] |}.
  Lemma ok : fine P.
  Proof. apply fine_check. reflexivity. Qed.
  Lemma solvable : solution P [1; 0; 1].
  Proof.
    assert (F := ok). eapply fin_solution with (s1 := [true]); [apply F|apply F| |reflexivity]. change [1; 0; 1] with ([1] ++ [0] ++ [1]).
    two (mth 3 [1; 4]); [|two (mth 4 [0; 1])]; act.
  Qed.
  Lemma reported : plan_symbolic P 60 = Some (Length 5).
  Proof. vm_compute. reflexivity. Qed.
End SymCostly.
Theorem symbolic_optimal_refuted : ~ symbolic_optimal.
Proof. intros H. assert (Q := H SymCostly.P SymCostly.ok 60 5 SymCostly.reported _ SymCostly.solvable). vm_compute in Q. lia. Qed.
Print Assumptions symbolic_optimal_refuted.

Module SymStopped.
  (** 1 -> 2 2, 2 -> 0 0 | 2 0 | 0 2 *)
  Definition P : problem := {| p_nfacts := 3; p_prim := [true; false; false]; p_prec := [[]]; p_add := [[0; 2]]; p_del := [[]]; p_cost := [2];
    p_methods := [mth 1 [2; 2]; mth 2 [0; 0]; mth 2 [2; 0]; mth 2 [0; 2]]; p_init := 1; p_s0 := []; p_goal := [] |}.
  Lemma ok : fine P.
  Proof. apply fine_check. reflexivity. Qed.
  Lemma solvable : solution P [0; 0; 0; 0].
  Proof.
    assert (F := ok). eapply fin_solution with (s1 := [true; false; true]); [apply F|apply F| |reflexivity]. change [0; 0; 0; 0] with (([0] ++ [0]) ++ [0] ++ [0]).
    two (mth 1 [2; 2]); [two (mth 2 [0; 0])|two (mth 2 [0; 0])]; act.
  Qed.
  Lemma reported : plan_symbolic P 60 = Some Stopped.
  Proof. vm_compute. reflexivity. Qed.
End SymStopped.
Theorem symbolic_nonempty_refuted : ~ symbolic_nonempty.
Proof. intros H. exact (H SymStopped.P SymStopped.ok 60 SymStopped.reported). Qed.
Print Assumptions symbolic_nonempty_refuted.

Module SymListing.
  (** 2 -> 0 1 where 1 is to be executed first but needs the fact added by 0: the subtasks are executed in the order of the list. *)
  Definition m : method := {| m_task := 2; m_subs := [0; 1]; m_ord := [(1, 0)] |}.
  Definition P : problem := {| p_nfacts := 1; p_prim := [true; true; false]; p_prec := [[]; [0]]; p_add := [[0]; []]; p_del := [[]; []]; p_cost := [1; 1]; p_methods := [m]; p_init := 2; p_s0 := []; p_goal := [] |}.
  Lemma lt a b : m_lt m a b <-> a = 1 /\ b = 0.
  Proof.
    split; [|intros [-> ->]; apply t_step; now left]. induction 1 as [a b [H|[]]|a b c _ IH1 _ IH2]; [now injection H|lia].
  Qed.
  Lemma wf : wf_problem P.
  Proof.
    split; try (cbn; reflexivity).
    - intros [|[|[|t]]] H; cbn in H; try discriminate; try (cbn; lia). destruct t; discriminate.
    - intros l f H Hf. cbn in H. assert (Q : l = [] \/ l = [0]) by (intuition congruence). destruct Q as [-> | ->]; [destruct Hf|destruct Hf as [<-|[]]; cbn; lia].
    - intros f [].
    - intros f [].
    - intros me [<-|[]]. constructor; cbn.
      + reflexivity.
      + intros t [<-|[<-|[]]]; lia.
      + discriminate.
      + intros j k [H|[]]. injection H as <- <-. lia.
      + intros j H. apply lt in H. lia.
  Qed.
  Lemma total : total_seq m [1; 0].
  Proof.
    split; [|split].
    - repeat constructor; cbn; intuition congruence.
    - intros j. cbn. lia.
    - intros l1 a l2 b E Hb. destruct l1 as [|x [|y [|z l1]]]; cbn in E; try discriminate; injection E; intros; subst; cbn in Hb; [|destruct Hb]. destruct Hb as [<-|[]]. apply lt. auto.
  Qed.
  Lemma linear : linear_methods P.
  Proof. intros me [<-|[]]. exists [1; 0]. apply total. Qed.
  Lemma order o : total_seq m o -> o = [1; 0].
  Proof.
    intros (ND & I & T). assert (I0 := proj2 (I 0) ltac:(cbn; lia)). assert (I1 := proj2 (I 1) ltac:(cbn; lia)). destruct o as [|x o]; [destruct I0|].
    assert (X := proj1 (I x) (or_introl eq_refl)). cbn in X. assert (x = 1). { destruct x as [|[|x]]; [|reflexivity|lia]. exfalso. destruct I1 as [Q|Q]; [discriminate|]. assert (W := T [] 0 o 1 eq_refl Q). apply lt in W. lia. }
    subst x. f_equal. inversion_clear ND as [|? ? N1 ND']. destruct o as [|y o]; [destruct I0 as [Q|[]]; discriminate|].
    assert (Y : forall z, In z (y :: o) -> z = 0). { intros z Hz. assert (Z := proj1 (I z) (or_intror Hz)). cbn in Z. destruct z as [|[|z]]; [reflexivity|exfalso; auto|lia]. }
    rewrite (Y y (or_introl eq_refl)) in *. f_equal. destruct o as [|z o]; [reflexivity|]. exfalso. inversion_clear ND' as [|? ? N2 _]. apply N2. left. apply Y. right. now left.
  Qed.
  Lemma none plan : ~ solution P plan.
  Proof.
    intros H. apply (derives_solution P wf linear) in H as ((h & D) & X & _). destruct h as [|h]; cbn [derives] in D; (destruct D as [[D _]|D]; [discriminate|]); [exact D|].
    destruct D as (me & o & plans & [<-|[]] & _ & T & F & ->). apply order in T. subst o. destruct plans as [|p r]; [inversion F|]. assert (F1 : exists u, nth_error (m_subs m) 1 = Some u /\ derives P h u p) by (inversion F; assumption). destruct F1 as (u & U & D1). cbn in U. injection U as <-.
    assert (E : p = [1]). { destruct h as [|h]; cbn [derives] in D1; (destruct D1 as [[_ D1]|D1]; [exact D1|]); [destruct D1|]. destruct D1 as (me & ? & ? & [<-|[]] & Q & _). discriminate. }
    subst p. cbn [concat app executable] in X. destruct X as [X _]. apply (X 0). exists [0]. split; [reflexivity|now left].
  Qed.
  Lemma reported : plan_symbolic P 60 = Some (Length 2).
  Proof. vm_compute. reflexivity. Qed.
End SymListing.
Theorem symbolic_any_listing_refuted : ~ symbolic_any_listing.
Proof.
  intros H. destruct (H SymListing.P 60 2 SymListing.wf ltac:(apply first_check_ok; reflexivity) SymListing.linear ltac:(intros me [<-|[]]; cbn; lia) SymListing.reported) as (plan & S). exact (SymListing.none plan S).
Qed.
Print Assumptions symbolic_any_listing_refuted.
