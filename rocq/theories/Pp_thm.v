(** Properties C158 (models of the partially ordered SAT encoding are solutions), C159 (the planner for partially ordered problems returns solutions) and
    C160, C161 (refuted: it does so also with actions without effects; it finds every solution). *)
From Coq Require Import ZArith Permutation Sorting.Sorted Relation_Operators.
From Verif Require Import Base Htn_problem Htn_spec Sat_model Sat_spec Sat_proof Sf_model Sf_spec Sf_proof Posog_model Posog_spec Pom_model Pom_spec Pom_full Pom_thm.
From Verif Require Import Pdt_model Pdt_spec Pdt_expand Pdt_prune Pdt_clause Pp_model Pp_spec Pp_sem Pp_sound Pp_main.

(** C158: the formula of every depth is defined; its models, if no leaf without effects comes after a leaf with effects, spell the actions of a solution,
    and if every leaf with actions has one with effects, the printed plan is a solution. *)
Theorem po_encoding_sound P C uord d : wf_problem P -> po_conf P C uord -> acyclic_merges P C ->
  exists T nv k cl, po_encoding P C uord d = Some (T, nv, k, cl) /\
    (forall v, satisfies v cl -> effects_last P (k_leafs k) (k_adj k) -> exists ls plan, linearises v (k_leafs k) (k_adj k) ls /\ plan_of v (k_leafs k) ls plan /\ solution P plan) /\
    (forall v, satisfies v cl -> all_effects P (k_leafs k) -> solution P (po_plan v k)).
Proof. intros WF CO AM. destruct (encoding_ok P C uord WF CO AM d) as (T & nv & k & cl & E & _ & S1 & S2 & _). exists T, nv, k, cl. auto. Qed.

(** C159: if every action has an effect, the planner is defined and returns only solutions, whatever models the solver returns. *)
Theorem po_planner_sound P C uord solver rounds : wf_problem P -> po_conf P C uord -> acyclic_merges P C ->
  (forall cl v, solver cl = Some v -> satisfies v cl) -> (forall a, primitive P a -> effectful P a) ->
  exists r, solve_po P C uord solver rounds = Some r /\ forall plan, r = Some plan -> solution P plan.
Proof. intros WF CO AM SO EF. apply (po_search_ok P C uord WF CO AM solver rounds SO EF). apply start_pinv. exact (wf_init _ WF). Qed.

(** ** Tools for examples *)
Lemma dag_rank adj (f : nat -> nat) : (forall x l y, nth_error adj x = Some l -> In y l -> f x < f y) -> dag adj.
Proof. intros H. assert (G : forall x y, precedes adj x y -> f x < f y). { intros x y Q. induction Q as [x y (l & E & I)|]; [eauto|lia]. } intros x Q. apply G in Q. lia. Qed.
Fixpoint insert_by (P : problem) (x : nat * nat * nat) (l : list (nat * nat * nat)) : list (nat * nat * nat) :=
  match l with [] => [x] | y :: r => if subs_len P (fst (fst y)) <=? subs_len P (fst (fst x)) then x :: l else y :: insert_by P x r end.
Definition sort_subs (P : problem) (l : list (nat * nat * nat)) := fold_right (insert_by P) [] l.
Lemma sort_subs_ok P l : Permutation (sort_subs P l) l /\ StronglySorted (fun x y => subs_len P (fst (fst y)) <= subs_len P (fst (fst x))) (sort_subs P l).
Proof.
  assert (IP : forall x l, Permutation (insert_by P x l) (x :: l)). { intros x. induction l0 as [|y r IH]; cbn [insert_by]; auto. destruct (_ <=? _); auto. rewrite IH. apply perm_swap. }
  induction l as [|x l [IH1 IH2]]; cbn [sort_subs fold_right]; [split; constructor|]. fold (sort_subs P l). split; [rewrite IP; auto|]. clear IH1. induction IH2 as [|y r S1 IH S2]; cbn [insert_by]; [constructor; constructor|]. destruct (Nat.leb_spec (subs_len P (fst (fst y))) (subs_len P (fst (fst x)))) as [L|L].
  - constructor; [constructor; auto|]. constructor; auto. rewrite Forall_forall in *. intros z Hz. specialize (S2 z Hz). lia.
  - constructor; auto. apply Forall_forall. intros z Hz. apply (Permutation_in _ (IP x r)) in Hz. destruct Hz as [<-|Hz]; [lia|]. rewrite Forall_forall in S2. auto.
Qed.
(** Orderings given by one pair of positions or none. *)
Lemma one_before t s a b : a <> b -> a < length s -> b < length s -> closed_order {| m_task := t; m_subs := s; m_ord := [(a, b)] |} /\ forall j, ~ m_lt {| m_task := t; m_subs := s; m_ord := [(a, b)] |} j j.
Proof.
  intros N La Lb. split.
  - constructor; cbn.
    + intros x y [E|[]]. apply pair_equal_spec in E as [<- <-]. auto.
    + intros x [E|[]]. apply pair_equal_spec in E as [<- E]. congruence.
    + intros x y z [E|[]] [E2|[]]. apply pair_equal_spec in E as [<- <-]. apply pair_equal_spec in E2 as [E2 _]. congruence.
  - assert (G : forall j k, m_lt {| m_task := t; m_subs := s; m_ord := [(a, b)] |} j k -> j = a /\ k = b). { intros j k Q. induction Q as [j k [E|[]]|x y z _ [-> ->] _ [E _]]; [apply pair_equal_spec in E as [<- <-]; auto|congruence]. }
    intros j Q. destruct (G j j Q). congruence.
Qed.
Lemma none_before t s : closed_order {| m_task := t; m_subs := s; m_ord := [] |} /\ forall j, ~ m_lt {| m_task := t; m_subs := s; m_ord := [] |} j j.
Proof. split; [constructor; cbn; [intros a b []|intros a []|intros a b c []]|]. intros j Q. induction Q as [j k []|]; auto. Qed.
Lemma perm_seq l n : NoDup l -> length l = n -> (forall x, In x l -> x < n) -> Permutation l (seq 0 n).
Proof. intros N L R. apply NoDup_Permutation_bis; [auto|rewrite seq_length; lia|]. intros x Hx. apply in_seq. specialize (R x Hx). lia. Qed.

Module Ex.
  (** Actions 0 (adds fact 0), 1 (needs fact 0, adds 1), 2 (needs 1, adds 2). Task 3 becomes the unordered tasks 4 and 0; task 4 becomes 1 before 2, or 2 and 0. *)
  Definition prob : problem :=
    {| p_nfacts := 3; p_prim := [true; true; true; false; false]; p_prec := [[]; [0]; [1]]; p_add := [[0]; [1]; [2]]; p_del := [[]; []; []]; p_cost := [1; 1; 1];
       p_methods := [{| m_task := 3; m_subs := [4; 0]; m_ord := [] |}; {| m_task := 4; m_subs := [1; 2]; m_ord := [(0, 1)] |}; {| m_task := 4; m_subs := [2; 0]; m_ord := [] |}];
       p_init := 3; p_s0 := []; p_goal := [2] |}.
  Definition conf : sconf := {| s_mto := [[1; 0]; [0; 1]; [1; 0]]; s_sort := sort_subs prob; s_bits := Nat.log2_up |}.
  Lemma prob_wf : wf_problem prob.
  Proof.
    constructor; cbn; auto.
    - intros t H. do 3 (destruct t as [|t]; [lia|]). do 2 (destruct t as [|t]; [discriminate|]). destruct t; discriminate.
    - intros l f H F. repeat (destruct H as [H|H]); try contradiction; repeat (destruct H as [H|H]); subst; cbn in F; try contradiction; lia.
    - intros f [].
    - intros f [<-|[]]. lia.
    - intros m [<-|[<-|[<-|[]]]]; constructor; cbn; auto; try discriminate; try (intros t H; lia); try (intros j k []); try (apply none_before); try (apply one_before; cbn; lia).
      + apply pair_equal_spec in H as [<- <-]. lia.
      + destruct H.
  Qed.
  Lemma conf_fine : po_conf prob conf Cex.uord.
  Proof.
    constructor.
    - intros [|[|[|m]]] me E; cbn in E; try (destruct m; discriminate); apply some_eq in E; subst me; eexists _, _; (split; [reflexivity|split; [|split; [reflexivity|]]]);
        try (apply none_before); try (apply one_before; cbn; lia); try (apply perm_seq; [repeat (constructor; [cbn; lia|]); constructor|reflexivity|cbn; lia]).
    - apply sort_subs_ok.
    - intros me [<-|[<-|[<-|[]]]]; cbn; lia.
    - intros t H. do 3 (destruct t as [|t]; [discriminate|]). destruct t as [|[|t]]; [eexists; split; [now left|reflexivity]|eexists; split; [right; now left|reflexivity]|destruct t; discriminate].
    - apply Cex.bits_suffice.
    - apply Cex.uord_ok.
  Qed.
  Lemma merges : acyclic_merges prob conf.
  Proof.
    intros abs adj bdj asgs ND NE AB E. assert (R : forall t, In t abs -> t = 3 \/ t = 4). { intros t Ht. specialize (AB t Ht). do 3 (destruct t as [|t]; [discriminate|]). destruct t as [|[|t]]; auto. destruct t; discriminate. }
    assert (CS : In abs [[3]; [4]; [3; 4]; [4; 3]]).
    { destruct abs as [|a [|b [|c r]]]; [congruence|..].
      - destruct (R a (or_introl eq_refl)) as [-> | ->]; cbn; auto.
      - inversion ND as [|? ? N1 _]; subst. cbn in N1. destruct (R a (or_introl eq_refl)) as [-> | ->], (R b (or_intror (or_introl eq_refl))) as [-> | ->]; cbn; tauto.
      - exfalso. inversion ND as [|? ? N1 N2]; subst. inversion N2 as [|? ? N3 _]; subst. cbn in N1, N3. destruct (R a (or_introl eq_refl)) as [-> | ->], (R b (or_intror (or_introl eq_refl))) as [-> | ->], (R c (or_intror (or_intror (or_introl eq_refl)))) as [-> | ->]; tauto. }
    destruct CS as [<-|[<-|[<-|[<-|[]]]]]; vm_compute in E; apply some_eq in E; do 2 apply pair_equal_spec in E as [E _]; subst adj;
      apply (dag_rank _ (fun x => x)); intros x l y Hx Hy; do 3 (destruct x as [|x]; [cbn in Hx; first [discriminate|apply some_eq in Hx; subst l; cbn in Hy; lia]|]); cbn in Hx; destruct x; discriminate.
  Qed.
  Lemma effects a : primitive prob a -> effectful prob a.
  Proof. intros H. destruct a as [|[|[|a]]]; [exists 0|exists 1|exists 2|do 2 (destruct a as [|a]; [discriminate|]); destruct a; discriminate]; left; eexists; (split; [reflexivity|now left]). Qed.
  Definition model : Z -> bool := fun x => existsb (Z.eqb x) (map Z.of_nat [2; 5; 7; 22; 23; 27; 29; 30; 37; 38; 42; 50; 53; 54; 56; 57; 58; 61; 66; 72; 75; 76; 78; 80; 81; 82; 87; 88]).
  (** The first formula has no model, the second one has the plan 0, 1, 2 with the actions of two methods interleaved. *)
  Definition solver (cl : list clause) : option (Z -> bool) := if forallb (existsb (lit_true model)) cl then Some model else None.
  Example found : solve_po prob conf Cex.uord solver 2 = Some (Some [0; 1; 2]).
  Proof. vm_compute. reflexivity. Qed.
  Example plan_solves : solution prob [0; 1; 2].
  Proof.
    destruct (po_planner_sound prob conf Cex.uord solver 2 prob_wf conf_fine merges) as (r & E & S).
    - intros cl v. unfold solver. destruct (forallb _ cl) eqn:Q; [|discriminate]. intros E. apply some_eq in E. subst v. now apply Cex.check.
    - exact effects.
    - rewrite found in E. apply some_eq in E. apply S. auto.
  Qed.
End Ex.

(** ** Problems whose tree is complete after the first depth; later depths only change the variables of the methods. *)
Section Flat.
  Variables (P : problem) (C : sconf) (uord : list nat -> list nat) (T1 : Z -> pdt).
  Hypothesis WF : wf_problem P.
  Hypothesis CO : po_conf P C uord.
  Hypothesis AM : acyclic_merges P C.
  Hypothesis FIRST : exists a nv k cl, create_po P C uord 1 (pdt_root P, 0%Z) = Some (T1 a, nv, k, cl).
  Hypothesis ASG : forall a nv, exists nv', assign P [] (T1 a) [] nv = (T1 nv, nv').
  Hypothesis UPTO : forall a K, expand_upto (po_expand_node P C) K (T1 a) = Some (T1 a).
  Lemma flat_step a nv d : pinv P C (T1 a, nv) -> exists nv' k cl, create_po P C uord d (T1 a, nv) = Some (T1 nv, nv', k, cl) /\ pinv P C (T1 nv, nv') /\ psays P k cl /\ pfacts P C uord d (T1 a, nv) (T1 nv) nv' k cl.
  Proof.
    intros I. destruct (create_po_ok P C uord WF CO AM d (T1 a, nv) I) as (T' & nv' & k & cl & E & I' & S & F). destruct (pf_tree _ _ _ _ _ _ _ _ _ F) as (T & n0 & X1 & X2). cbn [fst snd] in *. rewrite UPTO in X1. injection X1 as <-.
    destruct (ASG a nv) as (n1 & X3). rewrite X3 in X2. injection X2 as <- <-. exists nv', k, cl. auto.
  Qed.
  Lemma flat_state d : exists a nv, po_state P C uord (S d) = Some (T1 a, nv) /\ pinv P C (T1 a, nv).
  Proof.
    induction d as [|d (a & nv & E & I)].
    - destruct FIRST as (a & nv & k & cl & E). exists a, nv. cbn [po_state obind]. rewrite E. split; auto. destruct (create_po_ok P C uord WF CO AM 1 (pdt_root P, 0%Z) (start_pinv P C (wf_init _ WF))) as (T' & nv' & k' & cl' & E' & I & _). congruence.
    - cbn [po_state] in *. rewrite E. cbn [obind]. destruct (flat_step a nv (S (S d)) I) as (nv' & k' & cl' & E' & I' & _). rewrite E'. exists nv, nv'. auto.
  Qed.
  Lemma flat_encoding d : exists a nv k cl st, po_encoding P C uord d = Some (T1 a, nv, k, cl) /\ psays P k cl /\ pfacts P C uord (S d) st (T1 a) nv k cl.
  Proof.
    unfold po_encoding. destruct d as [|d].
    - cbn [po_state obind]. destruct (create_po_ok P C uord WF CO AM 1 (pdt_root P, 0%Z) (start_pinv P C (wf_init _ WF))) as (T' & nv' & k' & cl' & E' & I & S & F). destruct FIRST as (a & nv & k & cl & E). assert (T' = T1 a) by congruence. subst T'. exists a, nv', k', cl', (pdt_root P, 0%Z). auto.
    - destruct (flat_state d) as (a & nv & E & I). rewrite E. cbn [obind]. destruct (flat_step a nv (S (S d)) I) as (nv' & k' & cl' & E' & I' & S & F). exists nv, nv', k', cl', (T1 a, nv). auto.
  Qed.
End Flat.
Definition set_meths (T : pdt) (mv : list (list (option Z))) : pdt :=
  match T with PNode d ch => PNode {| pn_prims := pn_prims d; pn_abs := pn_abs d; pn_cp := pn_cp d; pn_ca := pn_ca d; pn_exp := pn_exp d; pn_ptr := pn_ptr d; pn_pos := pn_pos d; pn_none := pn_none d;
    pn_pvar := pn_pvar d; pn_avar := pn_avar d; pn_mvar := mv |} ch end.

(** If no formula has a model, the planner runs forever. *)
Lemma never P C uord solver : (forall cl v, solver cl = Some v -> satisfies v cl) -> (forall d, exists T nv k cl, po_encoding P C uord d = Some (T, nv, k, cl) /\ forall v, ~ satisfies v cl) ->
  forall rounds, solve_po P C uord solver rounds = Some None.
Proof.
  intros SO UN. assert (G : forall rounds d st, po_state P C uord d = Some st -> po_search P C uord solver rounds (S d) st = Some None); [|intros rounds; now apply (G rounds 0)].
  induction rounds as [|r IH]; intros d st E; [reflexivity|]. cbn [po_search]. destruct (UN d) as (T & nv & k & cl & E2 & U). unfold po_encoding in E2. rewrite E in E2. cbn [obind] in E2. rewrite E2. cbn [obind].
  destruct (solver cl) as [v|] eqn:Q; [destruct (U v); auto|]. apply IH. cbn [po_state]. rewrite E. cbn [obind]. rewrite E2. reflexivity.
Qed.

(** One method with the subtasks 0 < 1 and 2; action 1 needs fact 0, the actions 1 and 2 have no effects. *)
Module R.
  Definition prob (s0 add del : list nat) : problem := {| p_nfacts := 1; p_prim := [true; true; true; false]; p_prec := [[]; [0]; []]; p_add := [add; []; []]; p_del := [del; []; []]; p_cost := [1; 1; 1];
    p_methods := [{| m_task := 3; m_subs := [0; 1; 2]; m_ord := [(0, 1)] |}]; p_init := 3; p_s0 := s0; p_goal := [] |}.
  Lemma prob_wf s0 add del : (forall f, In f (s0 ++ add ++ del) -> f < 1) -> wf_problem (prob s0 add del).
  Proof.
    intros B. constructor; cbn; auto.
    - intros t H. do 3 (destruct t as [|t]; [lia|]). destruct t as [|[|t]]; discriminate.
    - intros l f H F. assert (BA : In f add -> f < 1) by (intros; apply B, in_or_app; right; apply in_or_app; auto). assert (BD : In f del -> f < 1) by (intros; apply B, in_or_app; right; apply in_or_app; auto).
      repeat (destruct H as [H|H]); try contradiction; subst; cbn in F; auto; try contradiction; lia.
    - intros f H. apply B, in_or_app. auto.
    - intros f [].
    - intros m [<-|[]]. constructor; cbn; auto; try discriminate; [intros t H; lia|intros j k [H|[]]; apply pair_equal_spec in H as [<- <-]; lia|apply one_before; cbn; lia].
  Qed.
  Definition conf (s0 add del : list nat) : sconf := {| s_mto := [[2; 0; 1]]; s_sort := sort_subs (prob s0 add del); s_bits := Nat.log2_up |}.
  Lemma conf_fine s0 add del : po_conf (prob s0 add del) (conf s0 add del) Cex.uord.
  Proof.
    constructor.
    - intros [|m] me E; cbn in E; [|destruct m; discriminate]. apply some_eq in E. subst me. eexists _, _. split; [reflexivity|split; [|split; [reflexivity|]]].
      + apply one_before; cbn; lia.
      + apply perm_seq; [repeat (constructor; [cbn; lia|]); constructor|reflexivity|cbn; lia].
    - apply sort_subs_ok.
    - intros me [<-|[]]. cbn. lia.
    - intros t H. do 3 (destruct t as [|t]; [discriminate|]). destruct t as [|t]; [eexists; split; [now left|reflexivity]|destruct t; discriminate].
    - apply Cex.bits_suffice.
    - apply Cex.uord_ok.
  Qed.
  Lemma merges s0 add del : acyclic_merges (prob s0 add del) (conf s0 add del).
  Proof.
    intros abs adj bdj asgs ND NE AB E. assert (R : forall t, In t abs -> t = 3). { intros t Ht. specialize (AB t Ht). do 3 (destruct t as [|t]; [discriminate|]). destruct t as [|t]; auto. destruct t; discriminate. }
    assert (abs = [3]).
    { destruct abs as [|a [|b r]]; [congruence|now rewrite (R a (or_introl eq_refl))|]. inversion ND as [|? ? N1 _]; subst. cbn in N1. destruct N1. left. rewrite (R a (or_introl eq_refl)). apply R. right. now left. }
    subst abs. vm_compute in E. apply some_eq in E. do 2 apply pair_equal_spec in E as [E _]. subst adj.
    apply (dag_rank _ (fun x => x)); intros x l y Hx Hy; do 3 (destruct x as [|x]; [cbn in Hx; first [discriminate|apply some_eq in Hx; subst l; cbn in Hy; lia]|]); cbn in Hx; destruct x; discriminate.
  Qed.

  (** Every solution executes action 0 before action 1. *)
  Definition after_one (tn : tnet) : Prop := (forall x, t_in tn x <-> exists j, j < 3 /\ x = [j]) /\ (forall j, j < 3 -> t_lab tn [j] = j) /\ t_ord tn [0] [1].
  Lemma refined s0 add del tn tn' : refines (prob s0 add del) tn tn' -> (tn = initial_network (prob s0 add del) -> tn' = tn \/ after_one tn') /\ (after_one tn -> tn' = tn).
  Proof.
    intros H. induction H as [tn|tn x m tn1 tn2 D _ [_ IH2]]; [auto|]. split.
    - intros ->. right. assert (A : after_one tn1).
      { destruct D as [D1 D2 D3 D4 D5 D6 D7]. destruct D1 as [<-|[]]. cbn in D2, D4, D6, D7. subst x. split; [|split].
        - intros y. rewrite D4. split; [intros [[-> N]|H]; [congruence|exact H]|auto].
        - intros j L. apply (D6 j). do 3 (destruct j as [|j]; [reflexivity|]). lia.
        - apply D7. right. left. exists 0, 1. repeat (split; [lia||reflexivity|]). apply t_step. now left. }
      rewrite (IH2 A). exact A.
    - intros (A1 & A2 & A3). exfalso. destruct D as [D1 D2 D3 _ _ _ _]. destruct D1 as [<-|[]]. cbn in D3. apply A1 in D2 as (j & L & ->). rewrite A2 in D3 by auto. lia.
  Qed.
  Lemma zero_first s0 add del plan : solution (prob s0 add del) plan -> exists i j, i < j /\ nth_error plan i = Some 0 /\ nth_error plan j = Some 1.
  Proof.
    intros (tn & L & RE & PR & (ND & IL & OR) & -> & _). apply refined in RE as [RE _]. destruct (RE eq_refl) as [-> |(A1 & A2 & A3)].
    - exfalso. specialize (PR [] eq_refl). discriminate.
    - assert (I0 : In [0] L) by (apply IL, A1; exists 0; auto). assert (I1 : In [1] L) by (apply IL, A1; exists 1; auto).
      apply In_nth_error in I0 as (i & Ei). apply In_nth_error in I1 as (j & Ej). exists i, j. split; [eapply OR; eauto|]. rewrite (map_nth_error (t_lab tn) i L Ei), (map_nth_error (t_lab tn) j L Ej), !A2 by lia. auto.
  Qed.
  Lemma no_solution plan : ~ solution (prob [0] [] [0]) plan.
  Proof.
    intros SO. destruct (zero_first _ _ _ _ SO) as (i & j & L & Ei & Ej). destruct SO as (_ & _ & _ & _ & _ & _ & EX & _). revert EX. generalize (initial_state (prob [0] [] [0])).
    assert (K : forall plan s j, ~ s 0 -> nth_error plan j = Some 1 -> ~ executable (prob [0] [] [0]) s plan).
    { clear. induction plan as [|a r IH]; intros s j N E; [destruct j; discriminate|]. intros [A X]. destruct j as [|j].
      - cbn in E. apply some_eq in E. subst a. apply N, A. exists [0]. split; [reflexivity|now left].
      - revert X. apply (IH _ j); auto. intros [(l & G & I)|[H _]]; auto. destruct a as [|[|[|a]]]; cbn in G; try (apply some_eq in G; subst l; destruct I). destruct a; discriminate. }
    revert i j L Ei Ej. induction plan as [|a r IH]; intros i j L Ei Ej s X; [destruct i; discriminate|]. destruct j as [|j]; [lia|]. destruct X as [_ X]. cbn in Ej. destruct i as [|i].
    - cbn in Ei. apply some_eq in Ei. subst a. revert X. apply (K _ _ j); auto. intros [(l & G & I)|[_ H]]; [cbn in G; apply some_eq in G; subst l; destruct I|]. apply H. exists [0]. split; [reflexivity|now left].
    - cbn in Ei. revert X. apply (IH i j); auto. lia.
  Qed.
  Definition model : Z -> bool := fun x => existsb (Z.eqb x) (map Z.of_nat [2; 3; 5; 7; 9; 10; 11; 12; 13; 15; 16; 17; 18; 19; 20; 21]).
  Definition solver (cl : list clause) : option (Z -> bool) := if forallb (existsb (lit_true model)) cl then Some model else None.

  (** Action 0 adds fact 0. *)
  Notation PA := (prob [] [0] []).
  Notation CA := (conf [] [0] []).
  Definition T0 : pdt := Eval vm_compute in match create_po PA CA Cex.uord 1 (pdt_root PA, 0%Z) with Some (T, _, _, _) => T | None => pdt_root PA end.
  Definition T1 (a : Z) : pdt := set_meths T0 [[Some (a + 1)%Z]].
  Lemma first : exists a nv k cl, create_po PA CA Cex.uord 1 (pdt_root PA, 0%Z) = Some (T1 a, nv, k, cl).
  Proof. assert (H : T0 = T1 2) by (vm_compute; reflexivity). exists 2%Z. rewrite <- H. eexists _, _, _. vm_compute. reflexivity. Qed.
  Lemma assigned a nv : exists nv', assign PA [] (T1 a) [] nv = (T1 nv, nv').
  Proof. eexists. vm_compute. reflexivity. Qed.
  Lemma expanded a K : expand_upto (po_expand_node PA CA) K (T1 a) = Some (T1 a).
  Proof. destruct K as [|[|K]]; vm_compute; reflexivity. Qed.
  Lemma has_solution : solution PA [0; 1; 2].
  Proof.
    apply (dtr_solution PA (DN {| m_task := 3; m_subs := [0; 1; 2]; m_ord := [(0, 1)] |} [DA [] 0; DA [] 1; DA [] 2])) with (L := [[0]; [1]; [2]]).
    - intros m I. apply (wfm_acyclic PA m). apply (wf_methods PA); auto. apply prob_wf. cbn. lia.
    - constructor; [now left|reflexivity|]. repeat constructor.
    - reflexivity.
    - repeat constructor; cbn; intuition discriminate.
    - intros x. split.
      + intros [<-|[<-|[<-|[]]]]; cbn; eauto.
      + intros (p & a & E). destruct x as [|j x]; [discriminate|]. cbn in E. do 3 (destruct j as [|j]; [cbn in E; destruct x; [cbn; auto|discriminate]|]). destruct j; discriminate.
    - intros i j x y Ei Ej (r & a & b & x' & y' & m & kids & -> & -> & E & Q).
      assert (r = []). { destruct r as [|c r]; auto. cbn in E. do 3 (destruct c as [|c]; [cbn in E; destruct r; discriminate|]). destruct c; discriminate. } subst r. cbn in E. injection E as <- <-.
      assert (a = 0 /\ b = 1) as [-> ->]. { clear Ei Ej. induction Q as [a b [E|[]]|u w z _ [-> ->] _ [E _]]; [apply pair_equal_spec in E as [<- <-]; auto|discriminate]. }
      destruct i as [|[|[|i]]]; cbn in Ei; try discriminate; [|destruct i; discriminate]. destruct j as [|[|[|j]]]; cbn in Ej; try discriminate; [lia|destruct j; discriminate].
    - repeat constructor; eexists; reflexivity.
    - cbn [executable]. split; [intros f (l & G & I); apply some_eq in G; subst l; destruct I|]. split; [intros f (l & G & I); apply some_eq in G; subst l; destruct I as [<-|[]]; left; exists [0]; split; [reflexivity|now left]|].
      split; [intros f (l & G & I); apply some_eq in G; subst l; destruct I|exact I].
    - intros f [].
  Qed.
  Lemma unsat d : exists T nv k cl, po_encoding PA CA Cex.uord d = Some (T, nv, k, cl) /\ forall v, ~ satisfies v cl.
  Proof.
    destruct (flat_encoding PA CA Cex.uord T1 (prob_wf [] [0] [] ltac:(cbn; lia)) (conf_fine _ _ _) (merges _ _ _) first assigned expanded d) as (a & nv & k & cl & st & E & _ & F). exists (T1 a), nv, k, cl. split; [exact E|].
    intros v SA. destruct F as [_ FL _ (nv2 & FG & PI & EF & SV)]. destruct (SV v SA) as (NO & ON & SF). rewrite FL in *. change (pl_of (T1 a)) with [[(Some 5%Z, 0)]; [(Some 7%Z, 1)]; [(Some 9%Z, 2)]] in *.
    assert (V : v 7%Z = true).
    { destruct (NO [] (dat (T1 a)) (kids (T1 a))) as (_ & _ & _ & [SA1 SA2] & _); [reflexivity|reflexivity|discriminate|]. destruct (SA2 0 ON) as (m & OM). destruct (SA1 0 m OM) as [_ SM]. destruct OM as (mvs & x & G1 & G2 & _).
      vm_compute in G1. apply some_eq in G1. subst mvs. destruct m as [|m]; [|destruct m; discriminate]. specialize (SM 1 _ eq_refl). vm_compute in SM. destruct SM as (y & Y & V). apply some_eq in Y. injection Y as <-. exact V. }
    apply po_inv in EF as (effs & nv1 & F & G & E1 & E2 & E3 & ->). destruct PI as [WF BO UO NV LO AN WG DG].
    assert (LM : length (k_vars k) = 1).
    { destruct (full_atoms PA Cex.uord false nv2 _ effs (k_vars k) nv1 WF UO NV LO E1) as (_ & L & H & Q & _). rewrite Q. destruct effs as [|e0 [|e1 [|e2 [|e3 r]]]]; try discriminate L.
      assert (NE : forall a lf, nth_error [[(Some 5%Z, 0)]; [(Some 7%Z, 1)]; [(Some 9%Z, 2)]] (S a) = Some lf -> ~ effect_leaf PA lf).
      { intros i lf Ga (x & b & I & (f & EF)). destruct i as [|[|i]]; cbn in Ga; [| |destruct i; discriminate]; apply some_eq in Ga; subst lf; destruct I as [I|[]]; apply pair_equal_spec in I as [_ <-]; destruct EF as [(l & G1 & G2)|(l & G1 & G2)]; cbn in G1; apply some_eq in G1; subst l; destruct G2. }
      assert (e1 = false) as ->. { destruct e1; auto. elim (NE 0 _ eq_refl). now apply (H 1 _ eq_refl). } assert (e2 = false) as ->. { destruct e2; auto. elim (NE 1 _ eq_refl). now apply (H 2 _ eq_refl). }
      destruct e0; reflexivity. }
    destruct (full_sound PA (s_bits CA) Cex.uord false nv2 _ (k_adj k) effs (k_vars k) nv1 (k_base k) nv F G WF BO UO NV LO AN E1 E2 E3 v SF) as (PL & _ & ST & S0 & _ & SS).
    assert (O : occurs v [(Some 7%Z, 1)] 1) by (exists 7%Z; split; [now left|exact V]).
    assert (Q := pl_all _ _ _ _ _ _ PL 1 [(Some 7%Z, 1)] eq_refl (ex_intro _ 1 O)). destruct (full_pl _ (k_vars k) (k_base k) v 1) as [p|] eqn:QP; [|congruence].
    destruct (pl_rng _ _ _ _ _ _ PL 1 p QP) as [_ Lp]. change (p < length (k_vars k)) in Lp. assert (p = 0) by lia. subst p.
    destruct (k_vars k) as [|acts r] eqn:KV; [discriminate|]. assert (HA := pl_up _ _ _ _ _ _ PL 1 _ 0 acts 1 eq_refl QP eq_refl O).
    assert (A : applicable PA (ST 0) 1) by (apply (sr_app _ _ _ _ (SS 0 acts eq_refl)); apply in_chosen; exact HA).
    assert (H : ST 0 0) by (apply A; exists [0]; split; [reflexivity|now left]). apply S0 in H; [destruct H|cbn; lia].
  Qed.
End R.

(** C160: with actions without effects the planner may return a plan for a problem without solutions. *)
Theorem po_planner_effectless_refuted : exists P C uord solver plan, wf_problem P /\ po_conf P C uord /\ acyclic_merges P C /\ (forall cl v, solver cl = Some v -> satisfies v cl) /\
  solve_po P C uord solver 1 = Some (Some plan) /\ forall plan', ~ solution P plan'.
Proof.
  exists (R.prob [0] [] [0]), (R.conf [0] [] [0]), Cex.uord, R.solver, [0; 1; 2]. split; [apply R.prob_wf; cbn; lia|]. split; [apply R.conf_fine|]. split; [apply R.merges|]. split; [|split; [vm_compute; reflexivity|apply R.no_solution]].
  intros cl v. unfold R.solver. destruct (forallb _ cl) eqn:Q; [|discriminate]. intros E. apply some_eq in E. subst v. now apply Cex.check.
Qed.

(** C161: with actions without effects the planner may run forever although there is a solution. *)
Theorem po_planner_no_position_refuted : exists P C uord plan, wf_problem P /\ po_conf P C uord /\ acyclic_merges P C /\ consistent P plan /\ solution P plan /\
  forall solver rounds, (forall cl v, solver cl = Some v -> satisfies v cl) -> solve_po P C uord solver rounds = Some None.
Proof.
  exists (R.prob [] [0] []), (R.conf [] [0] []), Cex.uord, [0; 1; 2]. split; [apply R.prob_wf; cbn; lia|]. split; [apply R.conf_fine|]. split; [apply R.merges|]. split.
  - intros a f _ _ (l & G & I). destruct a as [|[|[|a]]]; cbn in G; [apply some_eq in G; subst l; destruct I..|]. destruct a; discriminate.
  - split; [apply R.has_solution|]. intros solver rounds SO. now apply never, R.unsat.
Qed.

(** Tasks A=0 B=1 P=2 Q=3 X=4 (Posog_thm): the methods A < B, P, Q and B < X, P order A before X; the method with A and X unordered needs X before A. *)
Module Sp.
  Definition prob : problem := {| p_nfacts := 3; p_prim := [true; true; true; true; true; false]; p_prec := [[1]; [0]; [0]; [0]; []]; p_add := [[2]; [2]; [2]; [2]; [1]]; p_del := [[]; []; []; []; []]; p_cost := [1; 1; 1; 1; 1];
    p_methods := [ {| m_task := 5; m_subs := [0; 1; 2; 3]; m_ord := [(0, 1)] |}; {| m_task := 5; m_subs := [1; 4; 2]; m_ord := [(0, 1)] |}; {| m_task := 5; m_subs := [0; 4]; m_ord := [] |} ]; p_init := 5; p_s0 := []; p_goal := [2] |}.
  Definition conf : sconf := {| s_mto := [[3; 2; 0; 1]; [2; 0; 1]; [1; 0]]; s_sort := sort_subs prob; s_bits := Nat.log2_up |}.
  Lemma prob_wf : wf_problem prob.
  Proof.
    constructor; cbn; auto.
    - intros t H. do 5 (destruct t as [|t]; [lia|]). destruct t as [|[|t]]; discriminate.
    - intros l f H F. repeat (destruct H as [H|H]); try contradiction; repeat (destruct H as [H|H]); subst; cbn in F; try contradiction; lia.
    - intros f [].
    - intros f [<-|[]]. lia.
    - intros m [<-|[<-|[<-|[]]]]; constructor; cbn; auto; try discriminate; try (intros t H; lia); try (intros j k []); try (apply none_before); try (apply one_before; cbn; lia);
        first [apply pair_equal_spec in H as [<- <-]; lia|destruct H].
  Qed.
  Lemma conf_fine : po_conf prob conf Cex.uord.
  Proof.
    constructor.
    - intros [|[|[|m]]] me E; cbn in E; try (destruct m; discriminate); apply some_eq in E; subst me; eexists _, _; (split; [reflexivity|split; [|split; [reflexivity|]]]);
        try (apply none_before); try (apply one_before; cbn; lia); try (apply perm_seq; [repeat (constructor; [cbn; lia|]); constructor|reflexivity|cbn; lia]).
    - apply sort_subs_ok.
    - intros me [<-|[<-|[<-|[]]]]; cbn; lia.
    - intros t H. do 5 (destruct t as [|t]; [discriminate|]). destruct t as [|t]; [eexists; split; [now left|reflexivity]|destruct t; discriminate].
    - apply Cex.bits_suffice.
    - apply Cex.uord_ok.
  Qed.
  Lemma merges : acyclic_merges prob conf.
  Proof.
    intros abs adj bdj asgs ND NE AB E. assert (R : forall t, In t abs -> t = 5). { intros t Ht. specialize (AB t Ht). do 5 (destruct t as [|t]; [discriminate|]). destruct t as [|t]; auto. destruct t; discriminate. }
    assert (abs = [5]).
    { destruct abs as [|a [|b r]]; [congruence|now rewrite (R a (or_introl eq_refl))|]. inversion ND as [|? ? N1 _]; subst. cbn in N1. destruct N1. left. rewrite (R a (or_introl eq_refl)). apply R. right. now left. }
    subst abs. vm_compute in E. apply some_eq in E. do 2 apply pair_equal_spec in E as [E _]. subst adj.
    apply (dag_rank _ (fun x => x)); intros x l y Hx Hy; do 5 (destruct x as [|x]; [cbn in Hx; first [discriminate|apply some_eq in Hx; subst l; cbn in Hy; lia]|]); cbn in Hx; destruct x; discriminate.
  Qed.
  Lemma effects a : primitive prob a -> effectful prob a.
  Proof. intros H. destruct a as [|[|[|[|[|a]]]]]; [exists 2..|exists 1|]; [left; eexists; (split; [reflexivity|now left])..|]. destruct a as [|[|a]]; discriminate. Qed.
  Lemma has_solution : solution prob [4; 0].
  Proof.
    apply (dtr_solution prob (DN {| m_task := 5; m_subs := [0; 4]; m_ord := [] |} [DA [] 0; DA [] 4])) with (L := [[1]; [0]]).
    - intros m I. apply (wfm_acyclic prob m). apply (wf_methods prob); auto. apply prob_wf.
    - constructor; [right; right; now left|reflexivity|]. repeat constructor.
    - reflexivity.
    - repeat constructor; cbn; intuition discriminate.
    - intros x. split.
      + intros [<-|[<-|[]]]; cbn; eauto.
      + intros (p & a & E). destruct x as [|j x]; [discriminate|]. cbn in E. do 2 (destruct j as [|j]; [cbn in E; destruct x; [cbn; auto|discriminate]|]). destruct j; discriminate.
    - intros i j x y Ei Ej (r & a & b & x' & y' & m & kids & -> & -> & E & Q). exfalso.
      assert (r = []). { destruct r as [|c r]; auto. cbn in E. do 2 (destruct c as [|c]; [cbn in E; destruct r; discriminate|]). destruct c; discriminate. } subst r. cbn in E. injection E as <- <-.
      clear Ei Ej. induction Q as [a b []|]; auto.
    - repeat constructor; eexists; reflexivity.
    - cbn [executable]. split; [intros f (l & G & I); apply some_eq in G; subst l; destruct I|]. split; [|exact I]. intros f (l & G & I). apply some_eq in G. subst l. destruct I as [<-|[]]. left. exists [1]. split; [reflexivity|now left].
    - intros f [<-|[]]. left. exists [2]. split; [reflexivity|now left].
  Qed.
  (** Every executable sequence that reaches the goal has action 4 before action 0. *)
  Lemma added a f : adds prob a f -> (f = 2 /\ a < 4) \/ (f = 1 /\ a = 4).
  Proof. intros (l & G & I). do 5 (destruct a as [|a]; [cbn in G; apply some_eq in G; subst l; destruct I as [<-|[]]; lia|]). destruct a; discriminate. Qed.
  Lemma no_zero plan : forall s, ~ s 0 -> ~ s 2 -> (forall a, In a plan -> a < 5) -> executable prob s plan -> after prob s plan 2 -> In 0 plan.
  Proof.
    induction plan as [|a r IH]; intros s N0 N2 B X H; [contradiction|]. destruct X as [A X]. destruct a as [|a]; [now left|right]. cbn [after] in H.
    assert (Q : S a = 4). { assert (L := B (S a) (or_introl eq_refl)). destruct a as [|[|[|[|a]]]]; auto; [exfalso; apply N0, A; exists [0]; split; [reflexivity|now left]..|lia]. }
    rewrite Q in *. apply (IH (result prob s 4)); auto.
    - intros [D|[D _]]; auto. apply added in D. lia.
    - intros [D|[D _]]; auto. apply added in D. lia.
    - intros b Hb. apply B. now right.
  Qed.
  Lemma four_first plan : (forall a, In a plan -> a < 5) -> executable prob (initial_state prob) plan -> goal_state prob (after prob (initial_state prob) plan) -> exists r, plan = 4 :: r /\ In 0 r.
  Proof.
    intros B X G. specialize (G 2 (or_introl eq_refl)). assert (Z := no_zero plan (initial_state prob) ltac:(intros []) ltac:(intros []) B X G). destruct plan as [|a r]; [destruct Z|]. destruct X as [A X].
    assert (a = 4). { assert (L := B a (or_introl eq_refl)). destruct a as [|[|[|[|a]]]]; [exfalso; apply (A 1); exists [1]; split; [reflexivity|now left]|exfalso; apply (A 0); exists [0]; (split; [reflexivity|now left])..|lia]. }
    subst a. exists r. split; auto. destruct Z as [Z|Z]; [discriminate|auto].
  Qed.
  Definition T0 : pdt := Eval vm_compute in match create_po prob conf Cex.uord 1 (pdt_root prob, 0%Z) with Some (T, _, _, _) => T | None => pdt_root prob end.
  Definition T1 (a : Z) : pdt := set_meths T0 [[Some (a + 1)%Z; Some (a + 1 + 1)%Z; Some (a + 1 + 1 + 1)%Z]].
  Lemma first : exists a nv k cl, create_po prob conf Cex.uord 1 (pdt_root prob, 0%Z) = Some (T1 a, nv, k, cl).
  Proof. assert (H : T0 = T1 2) by (vm_compute; reflexivity). exists 2%Z. rewrite <- H. eexists _, _, _. vm_compute. reflexivity. Qed.
  Lemma assigned a nv : exists nv', assign prob [] (T1 a) [] nv = (T1 nv, nv').
  Proof. eexists. vm_compute. reflexivity. Qed.
  Lemma expanded a K : expand_upto (po_expand_node prob conf) K (T1 a) = Some (T1 a).
  Proof. destruct K as [|[|K]]; vm_compute; reflexivity. Qed.
  Notation lfs := [[(Some 7%Z, 0)]; [(Some 9%Z, 1)]; [(Some 11%Z, 2)]; [(Some 13%Z, 3)]; [(Some 15%Z, 4)]].
  Lemma leaf_action v l a : (exists lf, nth_error lfs l = Some lf /\ occurs v lf a) -> a = l /\ l < 5.
  Proof. intros (lf & G & (x & I & _)). do 5 (destruct l as [|l]; [cbn in G; apply some_eq in G; subst lf; destruct I as [I|[]]; apply pair_equal_spec in I as [_ <-]; split; [reflexivity|lia]|]). destruct l; discriminate. Qed.
  Lemma leaf_effects l lf : nth_error lfs l = Some lf -> effect_leaf prob lf.
  Proof. intros G. do 5 (destruct l as [|l]; [cbn in G; apply some_eq in G; subst lf; eexists _, _; split; [now left|apply effects; reflexivity]|]). destruct l; discriminate. Qed.
  Lemma unsat d : exists T nv k cl, po_encoding prob conf Cex.uord d = Some (T, nv, k, cl) /\ forall v, ~ satisfies v cl.
  Proof.
    destruct (flat_encoding prob conf Cex.uord T1 prob_wf conf_fine merges first assigned expanded d) as (a & nv & k & cl & st & E & (_ & SY & _ & _) & F). exists (T1 a), nv, k, cl. split; [exact E|].
    intros v SA. assert (FL := pf_leafs _ _ _ _ _ _ _ _ _ F). change (pl_of (T1 a)) with lfs in FL. destruct (pf_adj _ _ _ _ _ _ _ _ _ F) as (o & s & EO & ES & EA).
    assert (AJ : k_adj k = [[1]; [4]; []; []; []]). { vm_compute in EO. apply some_eq in EO. subst o. vm_compute in ES. apply some_eq in ES. subst s. exact EA. }
    rewrite FL, AJ in SY. destruct (SY v SA) as (ls & plan & [_ _ OR] & PO & SO).
    { intros l m lf kf _ Gm _ _ _. exact (leaf_effects m kf Gm). }
    assert (EQ : ls = plan /\ forall b, In b plan -> b < 5).
    { clear - PO. induction PO as [|l b ls plan H _ [-> IH]]; [split; [auto|intros b []]|]. apply leaf_action in H as [-> L]. split; auto. intros c [<-|Hc]; auto. }
    destruct EQ as [-> B]. destruct SO as (_ & _ & _ & _ & _ & _ & EX & GO). destruct (four_first plan B EX GO) as (r & -> & I0). inversion OR as [|? ? FA _]; subst. rewrite Forall_forall in FA. apply (FA 0 I0).
    apply t_trans with 1; apply t_step; eexists; (split; [reflexivity|now left]).
  Qed.
End Sp.

(** C161: also if every action has effects the planner may run forever although there is a solution. *)
Theorem po_planner_spurious_order_refuted : exists P C uord plan, wf_problem P /\ po_conf P C uord /\ acyclic_merges P C /\ (forall a, primitive P a -> effectful P a) /\ consistent P plan /\ solution P plan /\
  forall solver rounds, (forall cl v, solver cl = Some v -> satisfies v cl) -> solve_po P C uord solver rounds = Some None.
Proof.
  exists Sp.prob, Sp.conf, Cex.uord, [4; 0]. split; [apply Sp.prob_wf|]. split; [apply Sp.conf_fine|]. split; [apply Sp.merges|]. split; [apply Sp.effects|]. split.
  - intros a f _ _ (l & G & I). do 5 (destruct a as [|a]; [cbn in G; apply some_eq in G; subst l; destruct I|]). destruct a; discriminate.
  - split; [apply Sp.has_solution|]. intros solver rounds SO. now apply never, Sp.unsat.
Qed.

Print Assumptions po_encoding_sound.
Print Assumptions po_planner_sound.
Print Assumptions po_planner_effectless_refuted.
Print Assumptions po_planner_no_position_refuted.
Print Assumptions po_planner_spurious_order_refuted.
