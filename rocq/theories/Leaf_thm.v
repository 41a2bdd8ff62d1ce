(** Properties C177-C184: the option methodPreconditionsInSeparateLeafs. C182 and C184 are refuted. *)
From Coq Require Import ZArith Permutation Sorting.Sorted Relation_Operators.
From Verif Require Import Base Htn_problem Htn_spec Htn_proof Htn_check To_spec To_sem Sat_model Sat_spec Sf_model Sf_spec Sf_proof Sog_spec Posog_model Posog_spec Pom_model Pom_spec Pom_full Pom_thm.
From Verif Require Import Pdt_model Pdt_spec Pdt_tree Pdt_expand Pdt_leafs Pdt_dec Pdt_main Pdt_thm Pp_model Pp_spec Pp_sem Pp_sound Pp_main Pp_thm Pdt_round Leaf_model Leaf_spec Leaf_proof Leaf_pure Leaf_main.

(** C177: every method is placed along its total order on increasing vertices, and every vertex is labelled with the subtasks placed on it. *)
Theorem compact_placement P C ms :
  wf_problem P -> conf_ok P C -> ms <> [] -> (forall m, In m ms -> m < length (p_methods P)) ->
  exists labels asgs, compact_sog P C ms = Some (labels, asgs) /\ length asgs = length ms /\
    forall k m me o asg, nth_error ms k = Some m -> nth_error (p_methods P) m = Some me -> nth_error (s_mto C) m = Some o -> nth_error asgs k = Some asg ->
      length asg = length (m_subs me) /\ Sog_spec.placement (length labels) o (map (fun j => nth j asg 0) o) /\
      forall i v t, nth_error asg i = Some v -> nth_error (m_subs me) i = Some t -> exists ls, nth_error labels v = Some ls /\ In t ls.
Proof.
  intros WF CO NE H. destruct (leaf_sog_ok P C WF CO ms NE) as (labels & eff & asgs & E & _ & PL & LB).
  - intros m Hm. apply get_some. auto.
  - exists labels, asgs. split; auto. split; [clear -PL; induction PL; cbn; auto|]. intros k m me o asg Hk Em Eo Ha. destruct (forall2_nth _ _ _ _ _ _ PL Hk Ha) as (me' & o' & E1 & E2 & E3 & E4). unfold get in E1, E2.
    assert (me' = me) by congruence. assert (o' = o) by congruence. subst me' o'. split; auto. split; auto. intros i v t. exact (forall2_nth _ _ _ _ _ _ LB Hk Ha me i v t Em).
Qed.

(** C178: no vertex carries an action without effects together with another task; the vertices created for the first method carry none. *)
Theorem compact_separated P C ms labels asgs :
  wf_problem P -> conf_ok P C -> (forall m, In m ms -> m < length (p_methods P)) -> compact_sog P C ms = Some (labels, asgs) ->
  separated P labels /\ forall v ls t, v < subs_len P (hd 0 ms) -> ms <> [] -> nth_error labels v = Some ls -> In t ls -> ~ no_effect P t.
Proof.
  intros WF CO H E. destruct ms as [|m0 ms]; [cbn in E; injection E as <- <-; split; [intros [|v] ls t t' G; discriminate|congruence]|].
  destruct (leaf_sog_ok P C WF CO (m0 :: ms) ltac:(discriminate)) as (labels' & eff & asgs' & E' & CI & _ & _); [intros m Hm; apply get_some; auto|]. rewrite E in E'. apply some_eq in E'. injection E' as -> ->.
  destruct (cinv_separated P (wf_effects P WF) _ _ _ CI) as [S1 S2]. split; auto. intros v ls t L _. now apply S2.
Qed.

(** C179: in the trees built with the option no leaf has actions of both kinds (state_formula.cpp 262-274 does not end the program),
    and no node has both abstract tasks and actions without effects. *)
Lemma pure_leafs P : effects_known P -> forall T q, tall (fun d _ => pure P d) T -> forall p d, In (p, d) (leafs T q) -> mixed_leaf P d = Some false.
Proof.
  intros EK T q TA p d I. apply leafs_in in I as (path & E & _). apply (pure_not_mixed P EK). apply (tall_at _ _ _ _ TA) in E. now apply tall_node in E as [E _].
Qed.
Theorem separate_leafs_pure P C K T :
  wf_problem P -> conf_ok P C -> expand_upto (leaf_expand P C) K (pdt_root P) = Some T ->
  tall (fun d _ => pure P d) T /\ forall q d, In (q, d) (leafs T []) -> mixed_leaf P d = Some false.
Proof. intros WF CO E. assert (Q := leaf_tree_pure P C WF CO K T E). split; auto. intros q d. exact (pure_leafs P (wf_effects P WF) T [] Q q d). Qed.
Theorem separate_leafs_pure_po P C uord K T :
  wf_problem P -> po_conf P C uord -> expand_upto (po_leaf_expand P C) K (pdt_root P) = Some T ->
  tall (fun d _ => pure P d) T /\ forall q d, In (q, d) (leafs T []) -> mixed_leaf P d = Some false.
Proof.
  intros WF CO E. assert (Q : tall (fun d _ => pure P d) T); [|split; auto; intros q d; exact (pure_leafs P (wf_effects P WF) T [] Q q d)].
  apply (po_leaf_tree_pure P C (wf_effects P WF) K T); auto. intros abs m Hm. apply in_map_iff in Hm as ([[m' a] mi] & <- & Hm). apply (Permutation_in _ (proj1 (pc_sort _ _ _ CO _))) in Hm. apply gather_in in Hm as (t & _ & Hm). apply nth_error_In in Hm.
  apply Pdt_tree.methods_in in Hm as (me & Em & _). exact (pc_meth _ _ _ CO m' me Em).
Qed.

(** C180: whenever the formula of a depth is defined, the plans of its models are solutions; so are the plans of the planner. *)
Theorem separate_leafs_sound P C ff bc d T nv cl :
  wf_problem P -> conf_ok P C -> nth_error (p_prim P) (p_init P) = Some false -> leaf_formula P C ff bc d = Some (T, nv, Some cl) ->
  (forall c l, In c cl -> In l c -> (1 <= Z.abs l <= nv)%Z) /\ forall v, satisfies v cl -> solution P (sat_plan v T).
Proof.
  intros WF CO AB E. assert (S := leaf_formula_says P C WF CO ff bc AB d T nv (Some cl) E). split; [apply S|]. intros v H. exact (says_solution P C WF CO _ T nv cl v S H).
Qed.
Theorem separate_leafs_planner_sound P C ff bc solver rounds plan :
  wf_problem P -> conf_ok P C -> nth_error (p_prim P) (p_init P) = Some false -> solver_ok solver -> solve_leaf P C solver ff bc rounds = Some (Some plan) -> solution P plan.
Proof. intros WF CO AB SO E. exact (proj1 (leaf_search_ok P C WF CO ff bc solver rounds SO 1 (pdt_root P, 0%Z) _ (start_ok P AB) E) plan eq_refl). Qed.

(** C181: the formula is defined if the tree is; then every plan with a derivation of height at most d + 1 is the plan of a model,
    and the planner does not give up before the depth of a solution. *)
Theorem separate_leafs_defined P C ff bc d st :
  wf_problem P -> conf_ok P C -> nth_error (p_prim P) (p_init P) = Some false -> leaf_state P C ff bc d = Some st -> (exists T, expand_upto (leaf_expand P C) (S d) (fst st) = Some T) ->
  exists T nv o, leaf_formula P C ff bc d = Some (T, nv, o).
Proof.
  intros WF CO AB E X. destruct (create_leaf_ok P C WF CO ff bc (S d) st (leaf_state_ok P C WF CO ff bc AB d st E) X) as (T & nv & o & E' & _). exists T, nv, o. unfold leaf_formula. rewrite E. exact E'.
Qed.
Theorem separate_leafs_complete P C ff bc d T nv o plan h :
  wf_problem P -> conf_ok P C -> nth_error (p_prim P) (p_init P) = Some false -> leaf_formula P C ff bc d = Some (T, nv, o) ->
  h <= S d -> derives P h (p_init P) plan -> executable P (initial_state P) plan -> goal_state P (after P (initial_state P) plan) -> consistent P plan ->
  exists cl v, o = Some cl /\ satisfies v cl /\ sat_plan v T = plan.
Proof. intros WF CO AB E Lh D EX GO CN. exact (proj2 (leaf_formula_says P C WF CO ff bc AB d T nv o E) plan h Lh D CN EX GO). Qed.
Theorem separate_leafs_planner_complete P C ff bc solver plan :
  wf_problem P -> conf_ok P C -> nth_error (p_prim P) (p_init P) = Some false -> solver_ok solver -> solution P plan -> consistent P plan ->
  exists r0, forall rounds, r0 <= rounds -> solve_leaf P C solver ff bc rounds <> Some None.
Proof.
  intros WF CO AB SO S CN. apply (derives_solution P WF (conf_linear P C CO)) in S as ((h & D) & EX & GO). exists (S h). intros rounds L E.
  apply (proj2 (leaf_search_ok P C WF CO ff bc solver rounds SO 1 (pdt_root P, 0%Z) None (start_ok P AB) E) plan h); auto; lia.
Qed.

(** C183: for totally ordered problems the inheritance of an action never ends the program for lack of a child (pdt.cpp 315-318). *)
Theorem some_child_selected P C d labels asgs occ p :
  wf_problem P -> conf_ok P C -> actions_first P -> pure P d -> pn_abs d <> [] -> (forall t, In t (pn_abs d) -> nth_error (p_prim P) t = Some false) -> In p (pn_prims d) ->
  compact_sog P C (map (fun '(m, _, _) => m) (s_sort C (gather P (pn_abs d)))) = Some (labels, asgs) -> occurrences P (length labels) (s_sort C (gather P (pn_abs d))) asgs = Some occ ->
  exists e, no_eff P p = Some e /\ pick_child P e occ (seq 0 (length labels)) <> Some None.
Proof.
  intros WF CO AF PU NA AB Ip E Eo. assert (EK := wf_effects P WF). assert (PP := proj1 PU p Ip). destruct (Posog_merge.effectless_some P p EK) as (e & Ee). unfold effectless in Ee. rewrite PP in Ee. exists e. split; [exact Ee|].
  assert (e = false). { destruct e; auto. exfalso. apply (proj2 (proj2 PU) NA p Ip). now apply (effectless_no_eff P EK p true PP). } subst e.
  set (ms := map (fun '(m, _, _) => m) (s_sort C (gather P (pn_abs d)))) in *.
  assert (MM : forall m, In m ms -> exists me, nth_error (p_methods P) m = Some me). { intros m Hm. apply in_map_iff in Hm as ([[m' a] mi] & <- & Hm). exact (gathered P C CO _ _ _ _ Hm). }
  assert (NE : ms <> []).
  { destruct (pn_abs d) as [|t r] eqn:Ea; [congruence|]. destruct (ok_covered P C CO t (AB t (or_introl eq_refl))) as (me & Im & Et). apply In_nth_error in Im as (m & Em). assert (I : In m (methods_of P t)) by (apply Pdt_tree.methods_in; eauto). apply In_nth_error in I as (mi & I).
    intros Q. assert (IG : In (m, 0, mi) (s_sort C (gather P (t :: r)))). { apply (Permutation_in _ (Permutation_sym (proj1 (ok_sort P C CO _)))). apply gather_in. exists t. auto. } apply (in_map (fun '(m, _, _) => m)) in IG. fold ms in IG. rewrite Q in IG. destruct IG. }
  destruct (leaf_sog_ok P C WF CO ms NE MM) as (labels' & eff & asgs' & E' & CI & _ & LB). rewrite E in E'. apply some_eq in E'. injection E' as -> ->. destruct (cinv_separated P EK _ _ _ CI) as [_ S2].
  assert (LP : 0 < subs_len P (hd 0 ms)). { destruct ms as [|m0 r]; [congruence|]. destruct (MM m0 (or_introl eq_refl)) as (me & Em). cbn [hd]. unfold subs_len. rewrite Em. assert (W := wfm_nonempty _ _ (wf_methods _ WF me (nth_error_In _ _ Em))). destruct (m_subs me); [congruence|cbn; lia]. }
  apply (picked P EK labels (length labels) (s_sort C (gather P (pn_abs d))) asgs occ AF); auto; [intros ls t; apply S2; exact LP|destruct CI; lia].
Qed.

Module Ex.
  Lemma seq1 t x : total_seq {| m_task := t; m_subs := [x]; m_ord := [] |} [0].
  Proof. split; [repeat constructor; auto|]. split; [intros j; cbn; split; [intros [<-|[]]; lia|lia]|]. intros l1 a l2 b E. destruct l1 as [|z l1]; [injection E as <- <-; intros []|]. destruct l1; discriminate. Qed.
  Lemma seq2 t x y : total_seq {| m_task := t; m_subs := [x; y]; m_ord := [(0, 1)] |} [0; 1].
  Proof.
    split; [repeat constructor; cbn; intuition discriminate|]. split; [intros j; cbn; split; [intros [<-|[<-|[]]]; lia|intros L; assert (D : j = 0 \/ j = 1) by lia; destruct D; auto]|].
    intros l1 a l2 b E. destruct l1 as [|z l1]; [injection E as <- <-; intros [<-|[]]; apply t_step; now left|]. destruct l1 as [|w l1]; [injection E as <- <- <-; intros []|]. destruct l1; discriminate.
  Qed.
  (** Action 0 has no effects and needs fact 0, the actions 1 and 2 add the facts 1 and 2. Task 3 becomes 4 or 2; task 4 becomes 0, 1 or 1. *)
  Definition prob : problem :=
    {| p_nfacts := 3; p_prim := [true; true; true; false; false]; p_prec := [[0]; []; []]; p_add := [[]; [1]; [2]]; p_del := [[]; []; []]; p_cost := [1; 1; 1];
       p_methods := [{| m_task := 3; m_subs := [4]; m_ord := [] |}; {| m_task := 3; m_subs := [2]; m_ord := [] |}; {| m_task := 4; m_subs := [0; 1]; m_ord := [(0, 1)] |}; {| m_task := 4; m_subs := [1]; m_ord := [] |}];
       p_init := 3; p_s0 := [0]; p_goal := [1] |}.
  Lemma prob_wf : wf_problem prob.
  Proof. apply problem_check_ok. vm_compute. reflexivity. Qed.
  Definition conf : sconf := {| s_mto := [[0]; [0]; [0; 1]; [0]]; s_sort := sort_subs prob; s_bits := fun n => n |}.
  Lemma conf_fine : conf_ok prob conf.
  Proof.
    constructor.
    - intros m me E. do 4 (destruct m as [|m]; [cbn in E; injection E as <-; eexists; split; [reflexivity|first [apply seq1|apply seq2]]|]). destruct m; discriminate.
    - apply sort_subs_ok.
    - intros me [<-|[<-|[<-|[<-|[]]]]]; cbn; lia.
    - intros t E. do 3 (destruct t as [|t]; [discriminate|]). destruct t as [|[|t]]; [eexists; split; [now left|reflexivity]|eexists; split; [right; right; now left|reflexivity]|destruct t; discriminate].
    - intros n _. cbn. apply Nat.lt_le_incl, Nat.pow_gt_lin_r. lia.
  Qed.
  Lemma plan_derives : derives prob 2 3 [0; 1].
  Proof.
    right. eexists _, [0], [[0; 1]]. split; [left; reflexivity|]. split; auto. split; [apply seq1|]. split; auto. constructor; [|constructor]. exists 4. split; auto.
    right. eexists _, [0; 1], [[0]; [1]]. split; [right; right; left; reflexivity|]. split; auto. split; [apply seq2|]. split; auto. constructor; [exists 0; split; auto; left; split; reflexivity|]. constructor; [|constructor]. exists 1. split; auto. left. split; reflexivity.
  Qed.
  Lemma plan_works : executable prob (initial_state prob) [0; 1] /\ goal_state prob (after prob (initial_state prob) [0; 1]).
  Proof.
    cbn [executable after]. split; [split; [|split; auto]|].
    - intros f (l & E & I). cbn in E. injection E as <-. destruct I as [<-|[]]. now left.
    - intros f (l & E & I). cbn in E. injection E as <-. destruct I.
    - intros f [<-|[]]. left. exists [1]. split; [reflexivity|now left].
  Qed.
  Lemma plan_consistent plan : consistent prob plan.
  Proof. intros a f _ _ (l & E & I). destruct a as [|[|[|a]]]; cbn in E; try (injection E as <-; destruct I). destruct a; discriminate. Qed.

  (** The subtasks of task 4: vertices 0 and 1 are free of actions without effects, so 0 and then 1 get new vertices. *)
  Example placed_apart : compact_sog prob conf [2; 3] = Some ([[1]; []; [0]; [1]], [[2; 3]; [0]]).
  Proof. vm_compute. reflexivity. Qed.
  (** The tree of depth 2: the action 2 is inherited by the child with action 1, not by the one with action 0. *)
  Example tree2 : exists T, expand_upto (leaf_expand prob conf) 2 (pdt_root prob) = Some T /\ map (fun x => pn_prims (snd x)) (leafs T []) = [[1; 2]; []; [0]; [1]].
  Proof. eexists. split; [vm_compute; reflexivity|vm_compute; reflexivity]. Qed.
  Definition formula2 := Eval vm_compute in match leaf_formula prob conf true true 1 with Some (_, nv, Some cl) => Some (nv, length cl) | _ => None end.
  Example defined2 : formula2 <> None.
  Proof. discriminate. Qed.
  Example found2 : exists T nv cl v, leaf_formula prob conf true true 1 = Some (T, nv, Some cl) /\ satisfies v cl /\ sat_plan v T = [0; 1] /\ solution prob (sat_plan v T).
  Proof.
    destruct (separate_leafs_defined prob conf true true 1 (match leaf_state prob conf true true 1 with Some st => st | None => (pdt_root prob, 0%Z) end) prob_wf conf_fine eq_refl) as (T & nv & o & E); [vm_compute; reflexivity|eexists; vm_compute; reflexivity|].
    destruct plan_works as [W1 W2]. destruct (separate_leafs_complete prob conf true true 1 T nv o [0; 1] 2 prob_wf conf_fine eq_refl E ltac:(lia) plan_derives W1 W2 (plan_consistent _)) as (cl & v & -> & S & PL). exists T, nv, cl, v. split; auto. split; auto. split; auto.
    exact (proj2 (separate_leafs_sound prob conf true true 1 T nv cl prob_wf conf_fine eq_refl E) v S).
  Qed.
  Lemma first : actions_first prob.
  Proof. intros t H. do 3 (destruct t as [|t]; [discriminate|]). cbn. lia. Qed.
  (** The node with the action 2 and the abstract task 4. *)
  Definition node : pnode := fresh_node [2] [4] [] [].
  Lemma node_pure : pure prob node.
  Proof.
    split; [intros p [<-|[]]; reflexivity|]. split; [intros p q [<-|[]] [<-|[]]; tauto|]. intros _ p [<-|[]] (_ & E & _). discriminate.
  Qed.
  Example child_for_2 : exists occ, occurrences prob 4 (s_sort conf (gather prob [4])) [[2; 3]; [0]] = Some occ /\ leaf_picker prob 4 occ 2 = Some 0.
  Proof. eexists. split; vm_compute; reflexivity. Qed.
End Ex.

Module R.
  (** The action 0 needs the fact 0 and adds 1, the action 1 adds 0. Task 2 becomes 3 or 0; task 3 becomes 4; task 4 becomes 1, 0. *)
  Definition prob : problem :=
    {| p_nfacts := 2; p_prim := [true; true; false; false; false]; p_prec := [[0]; []]; p_add := [[1]; [0]]; p_del := [[]; []]; p_cost := [1; 1];
       p_methods := [{| m_task := 2; m_subs := [3]; m_ord := [] |}; {| m_task := 2; m_subs := [0]; m_ord := [] |}; {| m_task := 3; m_subs := [4]; m_ord := [] |}; {| m_task := 4; m_subs := [1; 0]; m_ord := [(0, 1)] |}];
       p_init := 2; p_s0 := []; p_goal := [1] |}.
  Lemma prob_wf : wf_problem prob.
  Proof. apply problem_check_ok. vm_compute. reflexivity. Qed.
  Definition conf : sconf := {| s_mto := [[0]; [0]; [0]; [0; 1]]; s_sort := sort_subs prob; s_bits := fun n => n |}.
  Lemma conf_fine : conf_ok prob conf.
  Proof.
    constructor.
    - intros m me E. do 4 (destruct m as [|m]; [cbn in E; injection E as <-; eexists; split; [reflexivity|first [apply Ex.seq1|apply Ex.seq2]]|]). destruct m; discriminate.
    - apply sort_subs_ok.
    - intros me [<-|[<-|[<-|[<-|[]]]]]; cbn; lia.
    - intros t E. do 2 (destruct t as [|t]; [discriminate|]). destruct t as [|[|[|t]]]; [eexists; split; [now left|reflexivity]|eexists; split; [right; right; now left|reflexivity]|eexists; split; [right; right; right; now left|reflexivity]|destruct t; discriminate].
    - intros n _. cbn. apply Nat.lt_le_incl, Nat.pow_gt_lin_r. lia.
  Qed.
  Lemma plan_solves : solution prob [1; 0].
  Proof.
    apply (derives_solution prob prob_wf (conf_linear prob conf conf_fine)). cbn [executable after]. split; [exists 3|split; [split; [|split; auto]|]].
    - right. eexists _, [0], [[1; 0]]. split; [left; reflexivity|]. split; auto. split; [apply Ex.seq1|]. split; auto. constructor; [|constructor]. exists 3. split; auto.
      right. eexists _, [0], [[1; 0]]. split; [right; right; left; reflexivity|]. split; auto. split; [apply Ex.seq1|]. split; auto. constructor; [|constructor]. exists 4. split; auto.
      right. eexists _, [0; 1], [[1]; [0]]. split; [right; right; right; left; reflexivity|]. split; auto. split; [apply Ex.seq2|]. split; auto. constructor; [exists 1; split; auto; left; split; reflexivity|]. constructor; [|constructor]. exists 0. split; auto. left. split; reflexivity.
    - intros f (l & E & I). cbn in E. injection E as <-. destruct I.
    - intros f (l & E & I). cbn in E. injection E as <-. destruct I as [<-|[]]. left. exists [0]. split; [reflexivity|now left].
    - intros f [<-|[]]. left. exists [1]. split; [reflexivity|now left].
  Qed.
  Lemma plan_consistent plan : consistent prob plan.
  Proof. intros a f _ _ (l & E & I). destruct a as [|[|a]]; cbn in E; try (injection E as <-; destruct I). destruct a; discriminate. Qed.
  Lemma first : actions_first prob.
  Proof. intros t H. do 2 (destruct t as [|t]; [discriminate|]). cbn. lia. Qed.
  (** The node with the action 0 and the task 3 has one child with the task 4, whose number is looked up among the effects of actions. *)
  Example abstract_read : exists occ, occurrences prob 1 (s_sort conf (gather prob [3])) [[0]] = Some occ /\ child_tasks occ 0 = [4] /\ no_eff prob 4 = None /\ pick_child prob false occ [0] = None.
  Proof. eexists. split; [vm_compute; reflexivity|]. split; [vm_compute; reflexivity|]. split; vm_compute; reflexivity. Qed.
End R.

(** C182 (refuted): the planner with the option is defined, as without it. The first task of a child is compared by its effects even if it is abstract
    (pdt.cpp 297 reads numAdds and numDels behind their ends). *)
Theorem separate_leafs_read_refuted : exists P C plan, wf_problem P /\ conf_ok P C /\ actions_first P /\ nth_error (p_prim P) (p_init P) = Some false /\ solution P plan /\ consistent P plan /\
  expand_upto (leaf_expand P C) 2 (pdt_root P) = None /\ (forall solver bc r, solve_leaf P C solver true bc (S (S r)) = None).
Proof.
  exists R.prob, R.conf, [1; 0]. split; [exact R.prob_wf|]. split; [exact R.conf_fine|]. split; [exact R.first|]. split; [reflexivity|]. split; [exact R.plan_solves|]. split; [exact (R.plan_consistent _)|]. split; [vm_compute; reflexivity|].
  intros solver bc r. destruct bc; vm_compute; reflexivity.
Qed.

Module Q.
  (** The action 0 needs the fact 0 and adds it; the actions 1 and 2 have no effects. Task 3 becomes 4 or 0; task 4 becomes 1 and 2, unordered. *)
  Definition prob : problem :=
    {| p_nfacts := 1; p_prim := [true; true; true; false; false]; p_prec := [[0]; []; []]; p_add := [[0]; []; []]; p_del := [[]; []; []]; p_cost := [1; 1; 1];
       p_methods := [{| m_task := 3; m_subs := [4]; m_ord := [] |}; {| m_task := 3; m_subs := [0]; m_ord := [] |}; {| m_task := 4; m_subs := [1; 2]; m_ord := [] |}]; p_init := 3; p_s0 := []; p_goal := [] |}.
  Lemma prob_wf : wf_problem prob.
  Proof. apply problem_check_ok. vm_compute. reflexivity. Qed.
  Definition conf : sconf := {| s_mto := [[0]; [0]; [0; 1]]; s_sort := sort_subs prob; s_bits := Nat.log2_up |}.
  Lemma conf_fine : po_conf prob conf Cex.uord.
  Proof.
    constructor.
    - intros [|[|[|m]]] me E; cbn in E; try (destruct m; discriminate); apply some_eq in E; subst me; eexists _, _; (split; [reflexivity|split; [|split; [reflexivity|]]]);
        try (apply none_before); try (apply perm_seq; [repeat (constructor; [cbn; lia|]); constructor|reflexivity|cbn; lia]).
    - apply sort_subs_ok.
    - intros me [<-|[<-|[<-|[]]]]; cbn; lia.
    - intros t H. do 3 (destruct t as [|t]; [discriminate|]). destruct t as [|[|t]]; [eexists; split; [now left|reflexivity]|eexists; split; [right; right; now left|reflexivity]|destruct t; discriminate].
    - apply Cex.bits_suffice.
    - apply Cex.uord_ok.
  Qed.
  Lemma has_solution : solution prob [1; 2].
  Proof.
    apply (dtr_solution prob (DN {| m_task := 3; m_subs := [4]; m_ord := [] |} [DN {| m_task := 4; m_subs := [1; 2]; m_ord := [] |} [DA [] 1; DA [] 2]])) with (L := [[0; 0]; [0; 1]]).
    - intros m I. apply (wfm_acyclic prob m). apply (wf_methods prob); auto. apply prob_wf.
    - constructor; [now left|reflexivity|]. constructor; [|constructor]. constructor; [right; right; now left|reflexivity|]. repeat constructor.
    - reflexivity.
    - repeat constructor; cbn; intuition discriminate.
    - intros x. split.
      + intros [<-|[<-|[]]]; cbn; eauto.
      + intros (p & a & E). destruct x as [|j x]; [discriminate|]. destruct j as [|j]; [|cbn in E; destruct j; discriminate]. destruct x as [|j x]; [discriminate|]. cbn in E. do 2 (destruct j as [|j]; [cbn in E; destruct x; [cbn; auto|discriminate]|]). destruct j; discriminate.
    - intros i j x y Ei Ej (r & a & b & x' & y' & m & kids & -> & -> & E & Q). exfalso.
      assert (M : m_ord m = []). { destruct r as [|c r]; [cbn in E; injection E as <- <-; reflexivity|]. cbn in E. destruct c as [|c]; [|destruct c; discriminate]. destruct r as [|c r]; [injection E as <- <-; reflexivity|]. cbn in E. do 2 (destruct c as [|c]; [cbn in E; destruct r; discriminate|]). destruct c; discriminate. }
      clear -Q M. induction Q as [a b H|]; auto. unfold m_before in H. rewrite M in H. destruct H.
    - repeat constructor; eexists; reflexivity.
    - cbn [executable]. split; [|split; auto]; intros f (l & E & I); cbn in E; injection E as <-; destruct I.
    - intros f [].
  Qed.
  Definition T1 : pdt := Eval vm_compute in match expand_upto (po_leaf_expand prob conf) 1 (pdt_root prob) with Some T => T | None => pdt_root prob end.
  Definition node : pnode := Eval vm_compute in match leafs T1 [] with (_, d) :: _ => d | [] => fresh_node [] [] [] [] end.
  Definition occ := Eval vm_compute in match occurrences prob 2 (s_sort conf (gather prob [4])) [[0; 1]] with Some o => o | None => [] end.
  Lemma node_pure : pure prob node.
  Proof. split; [intros p [<-|[]]; reflexivity|]. split; [intros p q [<-|[]] [<-|[]]; tauto|]. intros _ p [<-|[]] (_ & E & _). discriminate. Qed.
End Q.

(** C184 (refuted): also for partially ordered problems every inherited action finds a child. If all children have actions without effects, the program ends. *)
Theorem selection_exit_refuted : exists P C uord plan d labels asgs occ p, wf_problem P /\ po_conf P C uord /\ solution P plan /\
  (exists T q, expand_upto (po_leaf_expand P C) 1 (pdt_root P) = Some T /\ In (q, d) (leafs T [])) /\ In p (pn_prims d) /\ pn_abs d <> [] /\ pure P d /\
  po_leaf_sog P C (pn_abs d) = Some (labels, asgs) /\ occurrences P (length labels) (s_sort C (gather P (pn_abs d))) asgs = Some occ /\
  no_eff P p = Some false /\ pick_child P false occ (seq 0 (length labels)) = Some None /\ expand_upto (po_leaf_expand P C) 2 (pdt_root P) = None.
Proof.
  exists Q.prob, Q.conf, Cex.uord, [1; 2], Q.node, [[1]; [2]], [[0; 1]], Q.occ, 0. split; [exact Q.prob_wf|]. split; [exact Q.conf_fine|]. split; [exact Q.has_solution|]. split; [exists Q.T1, [0]; split; [vm_compute; reflexivity|now left]|].
  split; [now left|]. split; [discriminate|]. split; [exact Q.node_pure|]. do 4 (split; [vm_compute; reflexivity|]). vm_compute. reflexivity.
Qed.

Print Assumptions compact_placement.
Print Assumptions compact_separated.
Print Assumptions separate_leafs_pure.
Print Assumptions separate_leafs_pure_po.
Print Assumptions separate_leafs_sound.
Print Assumptions separate_leafs_planner_sound.
Print Assumptions separate_leafs_defined.
Print Assumptions separate_leafs_complete.
Print Assumptions separate_leafs_planner_complete.
Print Assumptions some_child_selected.
Print Assumptions separate_leafs_read_refuted.
Print Assumptions selection_exit_refuted.
