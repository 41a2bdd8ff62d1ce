(** Properties C69 (models of the totally ordered SAT encoding are plans), C70 (every plan is found at the depth of its derivation) and C45 (leaf pruning). *)
From Coq Require Import ZArith Permutation Sorting.Sorted.
From Verif Require Import Base Htn_problem Htn_spec Htn_proof To_spec To_sem Sat_model Sat_spec Sf_model Sf_spec Sf_proof Pdt_model Pdt_spec Pdt_leafs Pdt_prune Pdt_round Pdt_expand Pdt_main.

Section Thm.
  Existing Instance to_kind.
  Variables (P : problem) (C : sconf) (ff bc : bool).
  Hypothesis WF : wf_problem P.
  Hypothesis CO : conf_ok P C.
  Hypothesis AB : nth_error (p_prim P) (p_init P) = Some false.
  Lemma conf_linear : linear_methods P.
  Proof. intros m Hm. apply In_nth_error in Hm as (i & Hi). destruct (ok_mto _ _ CO i m Hi) as (o & _ & H). eauto. Qed.
  Lemma says_solution depth T nv cl v : says P depth T nv (Some cl) -> satisfies v cl -> solution P (sat_plan v T).
  Proof. intros [[_ S] _] H. apply (derives_solution P WF conf_linear). exact (S v H). Qed.
  Lemma search_ok solver rounds : solver_ok solver -> forall depth st, sinv P st -> exists r, sat_search P C solver ff bc rounds depth st = Some r /\ (forall plan, r = Some plan -> solution P plan) /\
    forall plan h, h < depth + rounds -> derives P h (p_init P) plan -> consistent P plan -> executable P (initial_state P) plan -> goal_state P (after P (initial_state P) plan) -> 0 < rounds -> r <> None.
  Proof.
    intros SO. induction rounds as [|rounds IH]; intros depth st SI; cbn [sat_search]; [exists None; split; auto; split; [discriminate|intros; lia]|].
    destruct (create_ok P C ff bc WF CO depth st SI) as (T & nv & o & E & SI' & SA). rewrite E. cbn [obind].
    destruct (match o with Some cl => solver cl | None => None end) as [v|] eqn:EV.
    - exists (Some (sat_plan v T)). split; auto. split; [|intros; discriminate]. intros plan Ep. apply some_eq in Ep. subst plan. destruct o as [cl|]; [|discriminate]. apply (says_solution depth T nv cl v SA). specialize (SO cl). now rewrite EV in SO.
    - destruct (IH (S depth) (T, nv) SI') as (r & R1 & R2 & R3). exists r. split; auto. split; auto. intros plan h Lh D CN EX GO _. destruct (Nat.le_gt_cases h depth) as [L|L].
      + exfalso. destruct (proj2 SA plan h L D CN EX GO) as (cl & v & -> & S & _). specialize (SO cl). rewrite EV in SO. exact (SO v S).
      + apply (R3 plan h); auto; lia.
  Qed.
End Thm.

(** C69: for every depth the formula is defined, mentions only variables that exist, and the plan printed for a model solves the problem. *)
Theorem sat_encoding_sound P C ff bc d :
  wf_problem P -> conf_ok P C -> nth_error (p_prim P) (p_init P) = Some false ->
  exists T nv o, sat_formula P C ff bc d = Some (T, nv, o) /\
    forall cl, o = Some cl -> (forall c l, In c cl -> In l c -> (1 <= Z.abs l <= nv)%Z) /\ forall v, satisfies v cl -> solution P (sat_plan v T).
Proof.
  intros WF CO AB. destruct (formula_ok P C ff bc WF CO AB d) as (T & nv & o & E & S). exists T, nv, o. split; auto. intros cl ->. split; [apply S|]. intros v H. exact (says_solution P C WF CO _ T nv cl v S H).
Qed.

(** C70: a plan with a derivation of height at most d + 1, whose actions do not add facts they delete, is the plan of a model of the formula for depth d + 1. *)
Theorem sat_encoding_complete P C ff bc d plan h :
  wf_problem P -> conf_ok P C -> nth_error (p_prim P) (p_init P) = Some false ->
  h <= S d -> derives P h (p_init P) plan -> executable P (initial_state P) plan -> goal_state P (after P (initial_state P) plan) -> consistent P plan ->
  exists T nv cl v, sat_formula P C ff bc d = Some (T, nv, Some cl) /\ satisfies v cl /\ sat_plan v T = plan.
Proof.
  intros WF CO AB Lh D EX GO CN. destruct (formula_ok P C ff bc WF CO AB d) as (T & nv & o & E & S). destruct (proj2 S plan h Lh D CN EX GO) as (cl & v & -> & H1 & H2). exists T, nv, cl, v. auto.
Qed.

(** Every solution without such actions is found at some depth and at all later depths. *)
Theorem sat_encoding_finds P C ff bc plan :
  wf_problem P -> conf_ok P C -> nth_error (p_prim P) (p_init P) = Some false -> solution P plan -> consistent P plan ->
  exists d0, forall d, d0 <= d -> exists T nv cl v, sat_formula P C ff bc d = Some (T, nv, Some cl) /\ satisfies v cl /\ sat_plan v T = plan.
Proof.
  intros WF CO AB S CN. apply (derives_solution P WF (conf_linear P C CO)) in S as ((h & D) & EX & GO). exists h. intros d L. apply (sat_encoding_complete P C ff bc d plan h); auto.
Qed.

(** The planner with a correct and complete solver: it is defined, returns only solutions, and finds one if there is one without such actions. *)
Theorem sat_planner_sound P C ff bc solver rounds :
  wf_problem P -> conf_ok P C -> nth_error (p_prim P) (p_init P) = Some false -> solver_ok solver ->
  exists r, solve_sat P C solver ff bc rounds = Some r /\ forall plan, r = Some plan -> solution P plan.
Proof.
  intros WF CO AB SO. destruct (search_ok P C ff bc WF CO solver rounds SO 1 (pdt_root P, 0%Z) (start_ok P AB)) as (r & E & S & _). exists r. auto.
Qed.
Theorem sat_planner_complete P C ff bc solver plan :
  wf_problem P -> conf_ok P C -> nth_error (p_prim P) (p_init P) = Some false -> solver_ok solver -> solution P plan -> consistent P plan ->
  exists r0, forall rounds, r0 <= rounds -> exists plan', solve_sat P C solver ff bc rounds = Some (Some plan') /\ solution P plan'.
Proof.
  intros WF CO AB SO S CN. apply (derives_solution P WF (conf_linear P C CO)) in S as ((h & D) & EX & GO). exists (S h). intros rounds L.
  destruct (search_ok P C ff bc WF CO solver rounds SO 1 (pdt_root P, 0%Z) (start_ok P AB)) as (r & E & S & K). unfold solve_sat. rewrite E. destruct r as [plan'|]; [exists plan'; auto|]. exfalso. apply (K plan h); auto; lia.
Qed.

(** C45: an action pruned from a leaf by the forward-reachability filter is not executed there in any execution that takes at most one action per leaf,
    none of them pruned before. [sel] gives the position of the action of a leaf, [F] and [F'] are the pruning tables. *)
Theorem leaf_pruning_keeps_executions P T F F' fuel sel :
  wf_problem P -> (forall q d p, In (q, d) (leafs T []) -> In p (pn_prims d) -> primitive P p) ->
  ff_loop P fuel (leafs T []) F = Some F' ->
  (forall q d i, In (q, d) (leafs T []) -> sel q = Some i -> ~ In (IP q i) F) ->
  executable P (initial_state P) (flat_map (fun '(q, d) => match sel q with Some i => match nth_error (pn_prims d) i with Some p => [p] | None => [] end | None => [] end) (leafs T [])) ->
  forall q d i, In (q, d) (leafs T []) -> In (IP q i) F' -> sel q <> Some i.
Proof.
  intros WF PO E NM EX q d i Hq Hi Hs. refine (ff_loop_keep P WF (leafs T []) sel PO _ fuel F F' E NM q d i Hq Hs Hi). unfold sel_plan. erewrite flat_map_ext; [exact EX|]. intros [q' d']. reflexivity.
Qed.
Theorem leaf_pruning_defined P ls F :
  wf_problem P -> (forall q d p, In (q, d) ls -> In p (pn_prims d) -> primitive P p) ->
  exists F', ff_loop P (S (length (flat_map (fun '(_, d) => pn_prims d) ls))) ls F = Some F' /\ incl F F'.
Proof.
  intros WF PO. destruct (ff_loop_ok P WF ls PO (S (length (flat_map (fun '(_, d) => pn_prims d) ls))) F) as (F' & E & I & _); [assert (Z := left_prims_le ls F); lia|]. eauto.
Qed.

Module Ex.
  (** Actions 0 (needs fact 0, adds 1) and 1 (needs 1, adds 2); the task 2 is decomposed into 0, 2 or into 1. *)
  Definition prob : problem :=
    {| p_nfacts := 3; p_prim := [true; true; false]; p_prec := [[0]; [1]]; p_add := [[1]; [2]]; p_del := [[0]; []]; p_cost := [1; 1];
       p_methods := [{| m_task := 2; m_subs := [2; 0]; m_ord := [(1, 0)] |}; {| m_task := 2; m_subs := [1]; m_ord := [] |}]; p_init := 2; p_s0 := [0]; p_goal := [2] |}.
  Lemma prob_wf : wf_problem prob.
  Proof.
    constructor; cbn; auto.
    - intros t H. destruct t as [|[|[|t]]]; cbn in H; try discriminate; try lia. destruct t; discriminate.
    - intros l f H F. repeat (destruct H as [H|H]); try contradiction; repeat (destruct H as [H|H]); subst; cbn in F; try contradiction; lia.
    - intros f [<-|[]]. lia.
    - intros f [<-|[]]. lia.
    - intros m [<-|[<-|[]]].
      + assert (LT : forall j k, m_lt {| m_task := 2; m_subs := [2; 0]; m_ord := [(1, 0)] |} j k -> k < j).
        { intros j k H. induction H as [j k H|]; [|lia]. destruct H as [[= <- <-]|[]]; lia. }
        constructor; cbn; auto; try discriminate.
        * intros t [<-|[<-|[]]]; lia.
        * intros j k [[= <- <-]|[]]; lia.
        * intros j H. specialize (LT j j H). lia.
      + constructor; cbn; auto; try discriminate.
        * intros t [<-|[]]; lia.
        * intros j k [].
        * intros j H. induction H as [j k H|]; auto.
  Qed.
  Fixpoint insert (x : nat * nat * nat) (l : list (nat * nat * nat)) : list (nat * nat * nat) :=
    match l with [] => [x] | y :: r => if subs_len prob (fst (fst y)) <=? subs_len prob (fst (fst x)) then x :: l else y :: insert x r end.
  Definition sort (l : list (nat * nat * nat)) := fold_right insert [] l.
  Lemma sort_ok l : Permutation (sort l) l /\ StronglySorted (fun x y => subs_len prob (fst (fst y)) <= subs_len prob (fst (fst x))) (sort l).
  Proof.
    assert (IP : forall x l, Permutation (insert x l) (x :: l)). { intros x. induction l0 as [|y r IH]; cbn [insert]; auto. destruct (_ <=? _); auto. rewrite IH. apply perm_swap. }
    induction l as [|x l [IH1 IH2]]; cbn [sort fold_right]; [split; constructor|]. fold (sort l). split; [rewrite IP; auto|]. clear IH1. induction IH2 as [|y r S1 IH S2]; cbn [insert]; [constructor; constructor|]. destruct (Nat.leb_spec (subs_len prob (fst (fst y))) (subs_len prob (fst (fst x)))) as [L|L].
    - constructor; [constructor; auto|]. constructor; auto. rewrite Forall_forall in *. intros z Hz. specialize (S2 z Hz). lia.
    - constructor; auto. apply Forall_forall. intros z Hz. apply (Permutation_in _ (IP x r)) in Hz. destruct Hz as [<-|Hz]; [lia|]. rewrite Forall_forall in S2. auto.
  Qed.
  Definition conf : sconf := {| s_mto := [[1; 0]; [0]]; s_sort := sort; s_bits := fun n => n |}.
  Lemma conf_fine : conf_ok prob conf.
  Proof.
    constructor.
    - intros [|[|m]] me E; cbn in E; [injection E as <-|injection E as <-|destruct m; discriminate].
      + exists [1; 0]. split; auto. split; [repeat constructor; cbn; intuition discriminate|]. split; [intros j; cbn; split; [intros [<-|[<-|[]]]; lia|intros L; assert (D : j = 0 \/ j = 1) by lia; destruct D; auto]|].
        intros l1 a l2 b E. destruct l1 as [|x l1]; [injection E as <- <-; intros [<-|[]]; left; now left|]. destruct l1 as [|y l1]; [injection E as <- <- <-; intros []|]. destruct l1; discriminate.
      + exists [0]. split; auto. split; [repeat constructor; cbn; intuition discriminate|]. split; [intros j; cbn; split; [intros [<-|[]]; lia|lia]|].
        intros l1 a l2 b E. destruct l1 as [|x l1]; [injection E as <- <-; intros []|]. destruct l1; discriminate.
    - exact sort_ok.
    - intros me [<-|[<-|[]]]; cbn; lia.
    - intros [|[|[|t]]] E; cbn in E; try discriminate; [eexists; split; [now left|reflexivity]|destruct t; discriminate].
    - intros n _. cbn. apply Nat.lt_le_incl, Nat.pow_gt_lin_r. lia.
  Qed.
  Definition plan : list nat := [0; 1].
  Lemma plan_derives : derives prob 2 2 plan.
  Proof.
    right. exists {| m_task := 2; m_subs := [2; 0]; m_ord := [(1, 0)] |}, [1; 0], [[0]; [1]]. split; [now left|]. split; auto. split; [|split; auto].
    - destruct (ok_mto _ _ conf_fine 0 _ eq_refl) as (o & E & T). cbn in E. injection E as <-. exact T.
    - constructor; [exists 0; split; auto; left; split; reflexivity|]. constructor; [|constructor]. exists 2. split; auto. right. exists {| m_task := 2; m_subs := [1]; m_ord := [] |}, [0], [[1]]. split; [right; now left|]. split; auto. split; [|split; auto].
      + destruct (ok_mto _ _ conf_fine 1 _ eq_refl) as (o & E & T). cbn in E. injection E as <-. exact T.
      + constructor; [|constructor]. exists 1. split; auto. left. split; reflexivity.
  Qed.
  Lemma plan_works : executable prob (initial_state prob) plan /\ goal_state prob (after prob (initial_state prob) plan).
  Proof.
    cbn [plan executable after]. split; [split; [|split; auto]|].
    - intros f (l & E & I). cbn in E. injection E as <-. destruct I as [<-|[]]. now left.
    - intros f (l & E & I). cbn in E. injection E as <-. destruct I as [<-|[]]. left. exists [1]. split; [reflexivity|now left].
    - intros f [<-|[]]. left. exists [2]. split; [reflexivity|now left].
  Qed.
  Lemma plan_consistent : consistent prob plan.
  Proof.
    intros a f [<-|[<-|[]]] (l & E & I) (l' & E' & I'); cbn in E, E'; injection E as <-; injection E' as <-; cbn in I, I'; [|auto]. destruct I as [<-|[]], I' as [H|[]]. discriminate.
  Qed.
  (** The plan is found at depth 2, and not at depth 1 (where the initial task is pruned). *)
  Example found : exists T nv cl v, sat_formula prob conf true true 1 = Some (T, nv, Some cl) /\ satisfies v cl /\ sat_plan v T = plan.
  Proof. apply (sat_encoding_complete prob conf true true 1 plan 2); auto using prob_wf, conf_fine, plan_derives, plan_consistent; apply plan_works. Qed.
  Example not_yet : exists T, sat_formula prob conf true true 0 = Some (T, 0%Z, None).
  Proof. eexists. vm_compute. reflexivity. Qed.
  Example found_works : forall T nv cl v, sat_formula prob conf true true 1 = Some (T, nv, Some cl) -> satisfies v cl -> solution prob (sat_plan v T).
  Proof. intros T nv cl v E S. destruct (sat_encoding_sound prob conf true true 1 prob_wf conf_fine eq_refl) as (T' & nv' & o & E' & H). rewrite E in E'. apply some_eq in E'. injection E' as -> -> ->. now apply (H cl). Qed.

  (** A solver by enumeration. *)
  Definition vars_of (F : list clause) : list Z := map Z.abs (concat F).
  Definition check (v : Z -> bool) (F : list clause) : bool := forallb (fun c => existsb (lit_true v) c) F.
  Fixpoint subsets (l : list Z) : list (list Z) := match l with [] => [[]] | x :: r => subsets r ++ map (cons x) (subsets r) end.
  Definition as_val (s : list Z) : Z -> bool := fun x => existsb (Z.eqb x) s.
  Definition enumerate (F : list clause) : option (Z -> bool) := option_map as_val (find (fun s => check (as_val s) F) (subsets (vars_of F))).
  Lemma enumerate_ok : solver_ok enumerate.
  Proof.
    assert (CK : forall v F, check v F = true <-> satisfies v F).
    { intros v F. unfold check, satisfies. rewrite forallb_forall. split; intros H c Hc; specialize (H c Hc); [apply existsb_exists in H as (l & L1 & L2); exists l; auto|]. apply existsb_exists. destruct H as (l & L1 & L2). exists l; auto. }
    intros F. unfold enumerate. destruct (find _ _) as [s|] eqn:E; cbn [option_map].
    - apply find_some in E as [_ E]. now apply CK.
    - intros v Hv. assert (IN : In (filter v (vars_of F)) (subsets (vars_of F))).
      { clear. induction (vars_of F) as [|x l IH]; [now left|]. cbn [filter subsets]. apply in_or_app. destruct (v x); [right; apply in_map; exact IH|left; exact IH]. }
      assert (Q := find_none _ _ E _ IN). cbn beta in Q. enough (Z : check (as_val (filter v (vars_of F))) F = true) by congruence. apply CK. intros c Hc. destruct (Hv c Hc) as (l & L1 & L2). exists l. split; auto.
      assert (AV : as_val (filter v (vars_of F)) (Z.abs l) = v (Z.abs l)).
      { assert (M : In (Z.abs l) (vars_of F)) by (apply in_map, in_concat; eauto). destruct (v (Z.abs l)) eqn:Ev; [apply existsb_exists; exists (Z.abs l); split; [now apply filter_In|apply Z.eqb_refl]|]. destruct (as_val (filter v (vars_of F)) (Z.abs l)) eqn:Ea; auto. apply existsb_exists in Ea as (y & Y1 & Y2). apply Z.eqb_eq in Y2. subst y. apply filter_In in Y1 as [_ Y1]. congruence. }
      assert (LT : forall w : Z -> bool, lit_true w l = if (l <? 0)%Z then negb (w (Z.abs l)) else w (Z.abs l)) by (intros w; unfold lit_true; destruct (Z.ltb_spec l 0); do 2 f_equal; lia). rewrite LT in *. now rewrite AV.
  Qed.
  Example planner_finds : exists r0, forall rounds, r0 <= rounds -> exists plan', solve_sat prob conf enumerate true true rounds = Some (Some plan') /\ solution prob plan'.
  Proof.
    apply (sat_planner_complete prob conf true true enumerate plan); auto using prob_wf, conf_fine, enumerate_ok, plan_consistent. apply (derives_solution prob prob_wf (conf_linear prob conf conf_fine)). split; [exists 2; exact plan_derives|exact plan_works].
  Qed.

  (** Leaf pruning: of two leaves with the actions 0 and 1 each, the first cannot be 1. *)
  Definition leaf2 : pnode := fresh_node [0; 1] [] [] [].
  Definition tree2 : pdt := PNode (fresh_node [] [2] [] []) [PNode leaf2 []; PNode leaf2 []].
  Example pruned : ff_loop prob 5 (leafs tree2 []) [] = Some [IP [0] 1].
  Proof. reflexivity. Qed.
  Example second_leaf : executable prob (initial_state prob) (flat_map (fun '(q, d) => match (fun q => match q with [0] => Some 0 | [1] => Some 1 | _ => None end) q with Some i => match nth_error (pn_prims d) i with Some p => [p] | None => [] end | None => [] end) (leafs tree2 [])).
  Proof. exact (proj1 plan_works). Qed.
End Ex.

Print Assumptions sat_encoding_sound.
Print Assumptions sat_encoding_complete.
Print Assumptions sat_encoding_finds.
Print Assumptions sat_planner_sound.
Print Assumptions sat_planner_complete.
Print Assumptions leaf_pruning_keeps_executions.
Print Assumptions leaf_pruning_defined.
