(** Properties C43 (the state-transition clauses encode executability), C44 (block compression) and C68 (refuted: actions adding a fact they delete). *)
From Coq Require Import ZArith.
From Verif Require Import Base Htn_problem Htn_spec Sat_model Sat_spec Sat_proof Sf_model Sf_spec Sf_proof.

Local Open Scope Z_scope.

Lemma prefix_plan (v : assignment) (leafs : list (list (Z * nat))) blocks k : concat blocks = seq 0 (length leafs) ->
  bplan leafs v (firstn k blocks) = chosen v (firstn (length (concat (firstn k blocks))) leafs).
Proof.
  intros CB. set (m := length (concat (firstn k blocks))).
  assert (SQ : concat (firstn k blocks) = seq 0 m /\ (m <= length leafs)%nat).
  { assert (Q : concat (firstn k blocks) ++ concat (skipn k blocks) = seq 0 (length leafs)) by (rewrite <- concat_app, firstn_skipn; exact CB).
    assert (L : (m <= length leafs)%nat). { assert (L := f_equal (@length nat) Q). rewrite app_length, seq_length in L. fold m in L. lia. } split; auto.
    assert (F := f_equal (firstn m) Q). rewrite firstn_app, firstn_all2 in F by (unfold m; lia). replace (m - length (concat (firstn k blocks)))%nat with 0%nat in F by (unfold m; lia).
    rewrite app_nil_r in F. rewrite F. replace (length leafs) with (m + (length leafs - m))%nat by lia. rewrite seq_app, firstn_app, seq_length, Nat.sub_diag, firstn_all2 by (rewrite seq_length; lia). apply app_nil_r. }
  destruct SQ as [SQ L].
  assert (Q : bplan leafs v (firstn k blocks) = flat_map (fun i => chosen_at v (nth i leafs [])) (concat (firstn k blocks))).
  { unfold bplan. generalize (firstn k blocks). intros bs. induction bs as [|b r IH]; auto. cbn [flat_map concat]. rewrite flat_map_app, <- IH. f_equal.
    unfold bchosen, chosen, bleafs. rewrite flat_map_concat_map, map_map, <- flat_map_concat_map. reflexivity. }
  rewrite Q, SQ, <- flat_nth. rewrite firstn_length_le by exact L. rewrite !flat_map_concat_map. f_equal. apply map_ext_in. intros i Hi. apply in_seq in Hi.
  assert (EN : nth i (firstn m leafs) [] = nth i leafs []); [|now rewrite EN]. rewrite <- (firstn_skipn m leafs) at 2. rewrite app_nth1; auto. rewrite firstn_length_le by exact L. lia.
Qed.

(** C43, from models to executions: if at most one action is chosen per leaf, the actions chosen by a model can be executed in leaf order and reach the
    goal, and the state variables before block k describe the state reached by the actions of the preceding blocks. *)
Theorem state_formula_sound P nv leafs blocks F nv' v :
  wf_problem P -> 0 <= nv -> (forall l x, In l leafs -> In x l -> 1 <= fst x <= nv) ->
  blocks_independent P leafs blocks -> state_formula P nv leafs blocks = Some (F, nv') ->
  one_each v leafs -> satisfies v F ->
  executable P (initial_state P) (chosen v leafs) /\ goal_state P (after P (initial_state P) (chosen v leafs)) /\
  forall k, (k <= length blocks)%nat ->
    describes P v (nv + 1 + Z.of_nat k * Z.of_nat (Nat.max 1 (p_nfacts P))) (after P (initial_state P) (chosen v (firstn (length (concat (firstn k blocks))) leafs))).
Proof.
  intros WF NV XP BI E OE S. assert (FO := blocks_fop P leafs v blocks BI OE). destruct (formula_sound P WF nv leafs NV XP v blocks F nv' E FO S) as (EX & GO & DE).
  rewrite (bplan_chosen leafs v blocks (proj1 BI)) in *. split; auto. split; auto. intros k Hk. specialize (DE k Hk). rewrite prefix_plan in DE by apply BI. exact DE.
Qed.

(** C43, from executions to models: a choice of at most one action per leaf, none of them adding a fact it deletes, whose execution is possible and
    reaches the goal becomes a model by setting the state variables only. *)
Theorem state_formula_complete P nv leafs blocks F nv' v :
  wf_problem P -> 0 <= nv -> (forall l x, In l leafs -> In x l -> 1 <= fst x <= nv) ->
  blocks_independent P leafs blocks -> state_formula P nv leafs blocks = Some (F, nv') ->
  one_each v leafs -> consistent P (chosen v leafs) ->
  executable P (initial_state P) (chosen v leafs) -> goal_state P (after P (initial_state P) (chosen v leafs)) ->
  exists v', (forall x, x <= nv \/ nv' < x -> v' x = v x) /\ satisfies v' F.
Proof.
  intros WF NV XP BI E OE CO EX GO. assert (FO := blocks_fop P leafs v blocks BI OE). assert (BC := bplan_chosen leafs v blocks (proj1 BI)).
  apply (formula_complete P WF nv leafs NV XP v blocks F nv' E (proj1 BI) FO); rewrite BC; auto.
Qed.

(** The formula is defined for at least one leaf whose actions exist, and mentions no variable beyond the new number of variables. *)
Theorem state_formula_defined P nv leafs blocks :
  wf_problem P -> (forall l x, In l leafs -> In x l -> (snd x < length (p_cost P))%nat) -> blocks <> [] -> concat blocks = seq 0 (length leafs) ->
  exists F nv', state_formula P nv leafs blocks = Some (F, nv').
Proof. intros WF AO. exact (formula_defined P WF nv leafs blocks AO). Qed.
Theorem state_formula_fresh P nv leafs blocks F nv' :
  wf_problem P -> 0 <= nv -> (forall l x, In l leafs -> In x l -> 1 <= fst x <= nv) -> state_formula P nv leafs blocks = Some (F, nv') ->
  nv <= nv' /\ forall c l, In c F -> In l c -> 1 <= Z.abs l <= nv'.
Proof. intros WF NV XP E. exact (formula_vars P WF nv leafs NV XP blocks F nv' E). Qed.

(** The two ways of forming blocks: every leaf its own block, or merging leaves without interference (C44). Both satisfy the hypothesis above, so a model
    of the compressed formula is executable in leaf order and its state variables describe the states between the blocks. *)
Theorem unit_blocks_independent P leafs : blocks_independent P leafs (unit_blocks leafs).
Proof. apply unit_ok. Qed.
Theorem block_compression_independent P leafs blocks : block_compression P (map (map snd) leafs) = Some blocks -> blocks_independent P leafs blocks /\ blocks <> [].
Proof. intros E. split; [now apply compression_ok|eapply compress_nonempty; exact E]. Qed.
Theorem block_compression_defined P prims : wf_problem P -> (forall p a, In p prims -> In a p -> (a < length (p_cost P))%nat) -> exists blocks, block_compression P prims = Some blocks.
Proof. intros WF H. apply compress_defined; auto. intros a []. Qed.

(** C44: the compressed formula and the formula with one step per leaf have the same choices of actions. *)
Theorem compression_equivalent P nv leafs blocks F nv1 G nv2 v :
  wf_problem P -> 0 <= nv -> (forall l x, In l leafs -> In x l -> 1 <= fst x <= nv) ->
  block_compression P (map (map snd) leafs) = Some blocks ->
  state_formula P nv leafs blocks = Some (F, nv1) -> state_formula P nv leafs (unit_blocks leafs) = Some (G, nv2) ->
  one_each v leafs -> consistent P (chosen v leafs) ->
  ((exists v', (forall x, x <= nv -> v' x = v x) /\ satisfies v' F) <-> (exists v', (forall x, x <= nv -> v' x = v x) /\ satisfies v' G)).
Proof.
  intros WF NV XP EB EF EG OE CO. assert (BF := compression_ok P leafs blocks EB). assert (BG := unit_ok P leafs).
  assert (AG : forall v', (forall x, x <= nv -> v' x = v x) -> chosen v' leafs = chosen v leafs /\ one_each v' leafs).
  { intros v' A. assert (Q : forall l, In l leafs -> chosen_at v' l = chosen_at v l). { intros l Hl. apply chosen_at_agree. intros x Hx. apply A. specialize (XP l x Hl Hx). lia. }
    split; [apply chosen_agree; intros l x Hl Hx; apply A; specialize (XP l x Hl Hx); lia|]. intros l Hl. rewrite Q by auto. now apply OE. }
  split; intros (v' & A & S); destruct (AG v' A) as [E1 E2].
  - destruct (state_formula_sound P nv leafs blocks F nv1 v' WF NV XP BF EF E2 S) as (EX & GO & _). rewrite E1 in *.
    destruct (state_formula_complete P nv leafs (unit_blocks leafs) G nv2 v WF NV XP BG EG OE CO EX GO) as (w & AW & SW). exists w. split; auto.
  - destruct (state_formula_sound P nv leafs (unit_blocks leafs) G nv2 v' WF NV XP BG EG E2 S) as (EX & GO & _). rewrite E1 in *.
    destruct (state_formula_complete P nv leafs blocks F nv1 v WF NV XP BF EF OE CO EX GO) as (w & AW & SW). exists w. split; auto.
Qed.

Module Ex.
  (** Actions: 0 needs fact 0 and adds 1; 1 adds 2; 2 needs 1 and 2, deletes 0 and adds 3. Facts 0-3, goal 3. *)
  Definition prob : problem :=
    {| p_nfacts := 4; p_prim := [true; true; true; false]; p_prec := [[0]; []; [1; 2]]%nat; p_add := [[1]; [2]; [3]]%nat; p_del := [[]; []; [0]]%nat; p_cost := [1; 1; 1]%nat;
       p_methods := [{| m_task := 3; m_subs := [0; 1; 2]%nat; m_ord := [(0, 1); (1, 2)]%nat |}]; p_init := 3; p_s0 := [0]%nat; p_goal := [3]%nat |}.
  Lemma prob_wf : wf_problem prob.
  Proof.
    constructor; cbn; auto.
    - intros t H. destruct t as [|[|[|[|[|t]]]]]; cbn in H; try discriminate; lia.
    - intros l f H F. repeat (destruct H as [H|H]); try contradiction; repeat (destruct H as [H|H]); subst; cbn in F; try contradiction; lia.
    - intros f [<-|[]]. lia.
    - intros f [<-|[]]. lia.
    - intros m [<-|[]]. assert (LT : forall j k, m_lt {| m_task := 3; m_subs := [0; 1; 2]%nat; m_ord := [(0, 1); (1, 2)]%nat |} j k -> (j < k)%nat).
      { intros j k H. induction H as [j k H|]; [|lia]. destruct H as [[= <- <-]|[[= <- <-]|[]]]; lia. }
      constructor; cbn; auto; try discriminate.
      + intros t [<-|[<-|[<-|[]]]]; lia.
      + intros j k [[= <- <-]|[[= <- <-]|[]]]; lia.
      + intros j H. specialize (LT j j H). lia.
  Qed.
  (** Three leaves; the first two are merged. *)
  Definition leafs : list (list (Z * nat)) := [[(1, 0%nat); (2, 1%nat)]; [(3, 1%nat)]; [(4, 2%nat); (5, 0%nat)]].
  Example merged : block_compression prob (map (map snd) leafs) = Some [[0; 1]; [2]]%nat.
  Proof. reflexivity. Qed.
  Definition v : assignment := fun x => (x =? 1) || (x =? 3) || (x =? 4).
  Example plan : chosen v leafs = [0; 1; 2]%nat.
  Proof. reflexivity. Qed.
  Example works : executable prob (initial_state prob) (chosen v leafs) /\ goal_state prob (after prob (initial_state prob) (chosen v leafs)).
  Proof.
    assert (D : forall a f, dels prob a f -> a = 2%nat /\ f = 0%nat).
    { intros a f (l & E & I). destruct a as [|[|[|a]]]; cbn in E; try (injection E as <-; cbn in I); try contradiction; [|destruct a; discriminate]. destruct I as [<-|[]]; auto. }
    change (chosen v leafs) with [0; 1; 2]%nat. cbn [executable after]. split; [|intros f [<-|[]]; left; exists [3%nat]; split; [reflexivity|now left]].
    split; [|split; [|split; [|exact I]]].
    - intros f (l & E & H). injection E as <-. destruct H as [<-|[]]. now left.
    - intros f (l & E & H). injection E as <-. destruct H.
    - intros f (l & E & H). injection E as <-. destruct H as [<-|[<-|[]]].
      + right. split; [|intros Q; apply D in Q; lia]. left. exists [1%nat]. split; [reflexivity|now left].
      + left. exists [2%nat]. split; [reflexivity|now left].
  Qed.
  (** So the compressed formula has a model choosing these actions. *)
  Example model : exists F nv' v', state_formula prob 5 leafs [[0; 1]; [2]]%nat = Some (F, nv') /\ length F = 31%nat /\ (forall x, x <= 5 \/ nv' < x -> v' x = v x) /\ satisfies v' F.
  Proof.
    destruct (state_formula prob 5 leafs [[0; 1]; [2]]%nat) as [[F nv']|] eqn:E; [|vm_compute in E; discriminate].
    assert (LF : length F = 31%nat). { assert (Q : option_map (fun r => length (fst r)) (state_formula prob 5 leafs [[0; 1]; [2]]%nat) = Some 31%nat) by (vm_compute; reflexivity). rewrite E in Q. cbn in Q. congruence. }
    destruct (state_formula_complete prob 5 leafs [[0; 1]; [2]]%nat F nv' v) as (v' & A & S); auto.
    - apply prob_wf.
    - lia.
    - intros l x Hl Hx. cbn in Hl. repeat (destruct Hl as [<-|Hl]; [cbn in Hx; repeat (destruct Hx as [<-|Hx]; [cbn; lia|]); destruct Hx|]). destruct Hl.
    - apply (block_compression_independent prob leafs _ merged).
    - intros l Hl. cbn in Hl. repeat (destruct Hl as [<-|Hl]; [cbn; lia|]). destruct Hl.
    - intros a f H (l & E1 & I1) (d & E2 & I2). change (chosen v leafs) with [0; 1; 2]%nat in H.
      destruct H as [<-|[<-|[<-|[]]]]; cbn in E1, E2; injection E1 as <-; injection E2 as <-; cbn in I1, I2; lia.
    - apply works.
    - apply works.
    - exists F, nv', v'. auto.
  Qed.

  (** C68 (refuted): the only action deletes and adds fact 0, which is the goal. Executing it in the initial state {} reaches the goal (deletes are
      applied before adds, as in the search, Model.cpp 1001-1393), but no model of the clauses chooses it. *)
  Definition swap : problem :=
    {| p_nfacts := 1; p_prim := [true; false]; p_prec := [[]]; p_add := [[0%nat]]; p_del := [[0%nat]]; p_cost := [1%nat];
       p_methods := [{| m_task := 1; m_subs := [0%nat]; m_ord := [] |}]; p_init := 1; p_s0 := []; p_goal := [0%nat] |}.
  Definition sleafs : list (list (Z * nat)) := [[(1, 0%nat)]].
  Theorem overlapping_effects_refuted :
    executable swap (initial_state swap) [0%nat] /\ goal_state swap (after swap (initial_state swap) [0%nat]) /\
    exists F nv', state_formula swap 1 sleafs (unit_blocks sleafs) = Some (F, nv') /\ forall v, ~ satisfies v F.
  Proof.
    split; [split; [intros f (l & E & H); injection E as <-; destruct H|exact I]|]. split; [intros f [<-|[]]; left; exists [0%nat]; split; [reflexivity|now left]|].
    eexists _, _. split; [vm_compute; reflexivity|]. intros w S.
    destruct (w 1) eqn:W.
    - destruct (S [-1; 3]) as (l & Il & T); [cbn; tauto|]. destruct (S [-1; -3]) as (l' & Il' & T'); [cbn; tauto|].
      destruct Il as [<-|[<-|[]]]; cbn in T; [rewrite W in T; discriminate|]. destruct Il' as [<-|[<-|[]]]; cbn in T'; [rewrite W in T'|rewrite T in T']; discriminate.
    - destruct (S [-3; 2; 1]) as (l & Il & T); [cbn; tauto|]. destruct (S [-2]) as (l' & Il' & T'); [cbn; tauto|]. destruct (S [3]) as (l'' & Il'' & T''); [cbn; tauto|].
      destruct Il' as [<-|[]], Il'' as [<-|[]]. cbn in T', T''. destruct Il as [<-|[<-|[<-|[]]]]; cbn in T; rewrite ?W, ?T'' in T; try discriminate. rewrite T in T'. discriminate.
  Qed.
End Ex.

Print Assumptions state_formula_sound.
Print Assumptions state_formula_complete.
Print Assumptions state_formula_defined.
Print Assumptions state_formula_fresh.
Print Assumptions block_compression_independent.
Print Assumptions compression_equivalent.
Print Assumptions Ex.overlapping_effects_refuted.
Print Assumptions block_compression_defined.
Print Assumptions unit_blocks_independent.
