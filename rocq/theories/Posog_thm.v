(** Ordering graphs of partially ordered decomposition trees (C47, C48, C76 - C79). *)
From Coq Require Import Relation_Operators Operators_Properties.
From Verif Require Import Base Htn_problem Posog_model Posog_spec Posog_merge Posog_order Posog_tree.
From Verif Require Order_model.

(** C47: removing transitive edges of an acyclic graph is defined, removes edges only, keeps the order and leaves no edge that is the composition of two. *)
Theorem transitive_edges_removed adj : wf_graph adj -> dag adj -> exists adj', remove_transitive adj = Some adj' /\ length adj' = length adj /\
  (forall x y, edge adj' x y -> edge adj x y) /\ (forall x y, precedes adj' x y <-> precedes adj x y) /\
  (forall x y z, edge adj x y -> edge adj y z -> ~ edge adj' x z).
Proof.
  intros W D. destruct (remove_ok adj W) as (adj' & E & L & F). exists adj'. split; auto. split; auto. split; [intros x y Q; now apply F|]. split; [now apply reduction_closure|].
  intros x y z Q1 Q2 Q. apply F in Q as [_ N]. apply N. eauto.
Qed.

(** Acyclicity is needed: three vertices ordered in both directions lose every edge. *)
Theorem transitive_edges_of_cycle_lost : exists adj adj', wf_graph adj /\ remove_transitive adj = Some adj' /\ precedes adj 0 1 /\ forall x y, ~ precedes adj' x y.
Proof.
  exists [[1; 2]; [0; 2]; [0; 1]], [[]; []; []]. split; [|split; [|split]].
  - intros x y (l & G & I). destruct x as [|[|[|x]]]; cbn in G; try (apply some_eq in G; subst l; cbn in *; lia). destruct x; discriminate.
  - vm_compute. reflexivity.
  - apply t_step. exists [1; 2]. split; [reflexivity|now left].
  - intros x y Q. induction Q as [x y (l & G & I)|]; auto. destruct x as [|[|[|x]]]; cbn in G; try (apply some_eq in G; subst l; destruct I). destruct x; discriminate.
Qed.

(** C76: the merged graph of any list of methods with transitively closed strict orders is defined; every method is embedded in it edge by edge; its edges and
    labels all stem from methods, its two edge sets are converse to each other, and it has neither loops nor pairs of opposite edges nor unlabelled vertices. *)
Theorem methods_embedded P sep mto ms : effects_known P -> ms <> [] -> (forall m, In m ms -> meth_ok P mto m) ->
  exists g mps, po_sog P sep mto ms = Some (g, mps) /\ length mps = length ms /\
    (forall k m me mp, nth_error ms k = Some m -> nth_error (p_methods P) m = Some me -> nth_error mps k = Some mp ->
       embedded (g_n g) (g_labels g) (fun x y => g_adj g x y = true) me mp) /\
    (forall x y, g_adj g x y = true -> exists k m me mp i j, nth_error ms k = Some m /\ nth_error (p_methods P) m = Some me /\ nth_error mps k = Some mp /\
       In (i, j) (m_ord me) /\ nth_error mp i = Some x /\ nth_error mp j = Some y) /\
    (forall v ls t, nth_error (g_labels g) v = Some ls -> In t ls -> exists k m me mp i, nth_error ms k = Some m /\ nth_error (p_methods P) m = Some me /\ nth_error mps k = Some mp /\
       nth_error mp i = Some v /\ nth_error (m_subs me) i = Some t) /\
    length (g_labels g) = g_n g /\ (forall v ls, nth_error (g_labels g) v = Some ls -> ls <> []) /\
    (forall x y, g_bdj g y x = g_adj g x y) /\ (forall x y, g_adj g x y = true -> x < g_n g /\ y < g_n g /\ g_adj g y x = false).
Proof.
  intros EK NE H. destruct ms as [|m0 r]; [contradiction|]. destruct (sog_ok P sep mto m0 r EK H) as (g & mps & mes & E & MI & M & F & _).
  exists g, mps. split; auto. assert (LF : length mes = length (m0 :: r)). { clear -F. induction F; cbn; auto. }
  split; [rewrite <- M, map_length; auto|].
  assert (FW : forall k m me mp, nth_error (m0 :: r) k = Some m -> nth_error (p_methods P) m = Some me -> nth_error mps k = Some mp -> In (me, mp) mes).
  { rewrite <- M. clear -F. induction F as [|m [me' mp'] ms mes Q F IH]; intros k m1 me mp G1 G2 G3; [destruct k; discriminate|]. destruct k as [|k]; cbn in G1, G3.
    - apply some_eq in G1. apply some_eq in G3. subst. cbn in Q. left. congruence.
    - right. eapply IH; eauto. }
  assert (BW : forall me mp, In (me, mp) mes -> exists k m, nth_error (m0 :: r) k = Some m /\ nth_error (p_methods P) m = Some me /\ nth_error mps k = Some mp).
  { rewrite <- M. clear -F. induction F as [|m [me' mp'] ms mes Q F IH]; intros me mp I; [destruct I|]. destruct I as [I|I].
    - apply pair_equal_spec in I as [<- <-]. exists 0, m. auto.
    - destruct (IH me mp I) as (k & m1 & Z). exists (S k), m1. auto. }
  destruct MI as [GI HM ED LB FU EM]. split; [|split; [|split; [|split; [|split; [|split]]]]].
  - intros k m me mp G1 G2 G3. destruct (EM me mp (FW k m me mp G1 G2 G3)) as (CO & LN & PL). now apply placed_embedded.
  - intros x y Q. destruct (ED x y Q) as (me & mp & i & j & I & Z). destruct (BW me mp I) as (k & m & Z2). exists k, m, me, mp, i, j. tauto.
  - intros v ls t G I0. destruct (LB v ls t G I0) as (me & mp & i & I & Z). destruct (BW me mp I) as (k & m & Z2). exists k, m, me, mp, i. tauto.
  - apply GI.
  - intros v ls G. destruct (FU v) as (ls' & G' & N). { rewrite <- (gi_lab _ GI). apply nth_error_Some. congruence. } rewrite G in G'. apply some_eq in G'. now subst.
  - intros x y. destruct (g_adj g x y) eqn:A; [now apply (gi_conv _ GI)|]. destruct (g_bdj g y x) eqn:B; auto. apply (gi_conv _ GI) in B. congruence.
  - intros x y Q. destruct (gi_rng _ GI x y Q) as (A & B & _). split; auto. split; auto. destruct (g_adj g y x) eqn:Z; auto. elim (gi_dis _ GI y x Z). now apply (gi_anti _ GI).
Qed.

(** C79: if actions without effects are to be kept separate, no vertex carries both such an action and another task. *)
Theorem effectless_separated P mto ms g mps : effects_known P -> (forall m, In m ms -> meth_ok P mto m) -> po_sog P true mto ms = Some (g, mps) ->
  forall v ls t t', nth_error (g_labels g) v = Some ls -> In t ls -> In t' ls -> (no_effect P t <-> no_effect P t').
Proof.
  intros EK H E v ls t t' G I I'. destruct ms as [|m0 r]; [discriminate|]. destruct (sog_ok P true mto m0 r EK H) as (g1 & mps1 & mes & E1 & MI & _).
  assert (g1 = g) by congruence. subst g1. destruct (effectless_some P t EK) as (e & Ee). destruct (effectless_some P t' EK) as (e' & Ee').
  rewrite <- (effectless_iff P t EK e Ee), <- (effectless_iff P t' EK e' Ee'). rewrite (mi_hom _ _ _ _ MI eq_refl v ls t e G I Ee), (mi_hom _ _ _ _ MI eq_refl v ls t' e' G I' Ee'). tauto.
Qed.

(** C77: on an acyclic graph the depth first search computes for every vertex exactly the vertex itself and all later ones. *)
Theorem successor_sets_exact adj : wf_graph adj -> dag adj -> exists sets, reach_sets adj = Some sets /\ length sets = length adj /\
  forall x l, nth_error sets x = Some l -> forall y, In y l <-> x = y \/ precedes adj x y.
Proof.
  intros W D. destruct (reach_sets_ok adj W D) as (sets & E & L & F). exists sets. split; auto. split; auto. intros x l G y. rewrite (F x l G y). unfold reaches. split; [tauto|].
  intros [->|Q]; auto. left. split; auto. rewrite <- L. apply nth_error_Some. congruence.
Qed.

(** C78: the ordering graph of the leafs of a tree whose node graphs are acyclic: defined, acyclic, the edges in both directions describe the same order,
    and a leaf precedes another one exactly if the node where their paths separate orders the two children that way. *)
Theorem leaf_order_exact t : wf_otree t -> exists s, leaf_sogs t = Some s /\ l_n s = length (leaf_paths t) /\
  length (l_adj s) = l_n s /\ wf_graph (l_adj s) /\ dag (l_adj s) /\ length (l_bdj s) = l_n s /\ wf_graph (l_bdj s) /\ converse (l_adj s) (l_bdj s) /\
  (forall u p, nth_error (leaf_paths t) u = Some p -> exists id prims abs ls, subtree t p = Some (OLeaf id prims abs) /\ nth_error (l_leaf s) u = Some id /\
     nth_error (l_labels s) u = Some ls /\ forall x, In x ls <-> In x prims \/ In x abs) /\
  (forall u v p q, nth_error (leaf_paths t) u = Some p -> nth_error (leaf_paths t) v = Some q -> (precedes (l_adj s) u v <-> tree_before t p q)).
Proof.
  intros W. destruct (tree_ok t W) as (s & E & WS & (LN & LO) & OR). exists s. destruct WS. repeat (split; [now auto|]). exact OR.
Qed.

(** ** C48 refuted *)
Module Cex.
  (** Tasks A=0 B=1 P=2 Q=3 X=4; the methods have 4, 3 and 2 subtasks, so the sort leaves no choice.
      m0: A < B, P, Q; m1: B < X, P; m2: X < A; m3: A, X unordered *)
  Definition pr : problem := {| p_nfacts := 1; p_prim := [true; true; true; true; true; false]; p_prec := repeat [] 5; p_add := repeat [0] 5; p_del := repeat [] 5; p_cost := repeat 1 5;
    p_methods := [ {| m_task := 5; m_subs := [0; 1; 2; 3]; m_ord := [(0, 1)] |}; {| m_task := 5; m_subs := [1; 4; 2]; m_ord := [(0, 1)] |};
                   {| m_task := 5; m_subs := [4; 0]; m_ord := [(0, 1)] |}; {| m_task := 5; m_subs := [0; 4]; m_ord := [] |} ]; p_init := 5; p_s0 := []; p_goal := [] |}.
  (** methodTotalOrder as computed by Model.cpp 2985-3006 *)
  Definition succs (me : method) (a : nat) : list nat := map snd (filter (fun p => Nat.eqb (fst p) a) (m_ord me)).
  Definition mto : list (list nat) := [[3; 2; 0; 1]; [2; 0; 1]; [0; 1]; [1; 0]].
  Example mto_ok : map (fun me => Order_model.topSort (length (m_subs me)) (succs me)) (p_methods pr) = map Some mto.
  Proof. vm_compute. reflexivity. Qed.
  Lemma known : effects_known pr.
  Proof. intros t H. do 5 (destruct t as [|t]; [cbn; lia|]). destruct t as [|[|t]]; cbn in H; discriminate. Qed.
  Lemma ok m : m < 4 -> meth_ok pr mto m.
  Proof.
    assert (CO : forall k t s, k >= 2 -> length s = k -> closed_order {| m_task := t; m_subs := s; m_ord := [(0, 1)] |}).
    { intros k t s K L. constructor; cbn.
      - intros a b [E|[]]. apply pair_equal_spec in E as [<- <-]. lia.
      - intros a [E|[]]. apply pair_equal_spec in E as [<- E]. discriminate.
      - intros a b c [E|[]] [E2|[]]. apply pair_equal_spec in E as [<- <-]. apply pair_equal_spec in E2 as [E2 _]. discriminate. }
    assert (PM : forall l n, NoDup l -> length l = n -> (forall x, In x l -> x < n) -> Permutation l (seq 0 n)).
    { intros l n N L R. apply NoDup_Permutation_bis; [auto|rewrite seq_length; lia|]. intros x Hx. apply in_seq. specialize (R x Hx). lia. }
    intros L. destruct m as [|[|[|[|m]]]]; [| | | |lia]; eexists _, _; (split; [reflexivity|split; [|split; [reflexivity|]]]);
      try (eapply CO; [|reflexivity]; cbn; lia); try (apply PM; [|reflexivity|]; [repeat (constructor; [cbn; lia|]); constructor|cbn; lia]).
    constructor; cbn; [intros a b []|intros a []|intros a b c []].
  Qed.
End Cex.

(** Each method is a strict partial order, the methods are sorted by size, and still the merged graph has a cycle. *)
Theorem merged_order_cyclic_refuted : exists P mto ms g mps v, effects_known P /\ (forall m, In m ms -> meth_ok P mto m) /\ po_sog P false mto ms = Some (g, mps) /\
  clos_trans nat (fun x y => g_adj g x y = true) v v.
Proof.
  destruct (po_sog Cex.pr false Cex.mto [0; 1; 2]) as [[g mps]|] eqn:E; [|vm_compute in E; discriminate].
  exists Cex.pr, Cex.mto, [0; 1; 2], g, mps, 0. split; [apply Cex.known|]. split; [intros m I; apply Cex.ok; cbn in I; lia|]. split; [auto|].
  vm_compute in E. apply some_eq, pair_equal_spec in E as [-> _].
  apply t_trans with 1; [apply t_step; reflexivity|]. apply t_trans with 4; apply t_step; reflexivity.
Qed.

(** Also without a cycle the merged graph may order two subtasks that their method leaves unordered. *)
Theorem merged_order_spurious_refuted : exists P mto ms g mps m me mp i j u v, effects_known P /\ (forall m, In m ms -> meth_ok P mto m) /\ po_sog P false mto ms = Some (g, mps) /\
  nth_error ms 2 = Some m /\ nth_error (p_methods P) m = Some me /\ nth_error mps 2 = Some mp /\ m_ord me = [] /\ nth_error mp i = Some u /\ nth_error mp j = Some v /\ i <> j /\
  clos_trans nat (fun x y => g_adj g x y = true) u v.
Proof.
  destruct (po_sog Cex.pr false Cex.mto [0; 1; 3]) as [[g mps]|] eqn:E; [|vm_compute in E; discriminate].
  eexists Cex.pr, Cex.mto, [0; 1; 3], g, mps, 3, _, _, 0, 1, 0, 4. split; [apply Cex.known|]. split; [intros m I; apply Cex.ok; cbn in I; lia|]. split; [auto|].
  vm_compute in E. apply some_eq, pair_equal_spec in E as [-> ->]. repeat (split; [reflexivity|]). split; [lia|].
  apply t_trans with 1; apply t_step; reflexivity.
Qed.

Module Ex.
  (** 0 -> 1 -> 2 -> 3 with the shortcuts 0 -> 2 and 0 -> 3 (the second is only found to be transitive through 2) *)
  Definition g4 : list (list nat) := [[1; 2; 3]; [2]; [3]; []].
  Example g4_reduced : remove_transitive g4 = Some [[1]; [2]; [3]; []].
  Proof. vm_compute. reflexivity. Qed.
  Example g4_sets : option_map (map (fun l => map (fun y => memb y l) [0; 1; 2; 3])) (reach_sets g4) =
    Some [[true; true; true; true]; [false; true; true; true]; [false; false; true; true]; [false; false; false; true]].
  Proof. vm_compute. reflexivity. Qed.
  Lemma g4_edge x y : edge g4 x y -> x < y < 4.
  Proof.
    intros (l & G & I). destruct x as [|[|[|[|x]]]]; cbn in G; try (apply some_eq in G; subst l; cbn in I; lia). destruct x; discriminate.
  Qed.
  Example g4_hyps : wf_graph g4 /\ dag g4.
  Proof.
    split; [intros x y Q; apply g4_edge in Q; cbn; lia|]. assert (G : forall x y, precedes g4 x y -> x < y). { intros x y Q. induction Q as [x y Q|]; [apply g4_edge in Q; lia|lia]. }
    intros x Q. apply G in Q. lia.
  Qed.
  (** a node with two unordered children, the first of which has two ordered ones *)
  Definition t3 : otree := ONode [[]; []] [[]; []] [ONode [[1]; []] [[]; [0]] [OLeaf 10 [1] []; OLeaf 11 [2] [3]]; OLeaf 12 [] [4]].
  Example t3_order : option_map l_adj (leaf_sogs t3) = Some [[1]; []; []].
  Proof. vm_compute. reflexivity. Qed.
  Example t3_wf : wf_otree t3.
  Proof.
    assert (E0 : forall n x y, ~ edge (repeat [] n) x y) by (intros; apply edge_repeat).
    assert (P0 : forall n x y, ~ precedes (repeat [] n) x y). { intros n x y Q. induction Q as [x y Q|]; [exact (E0 n x y Q)|auto]. }
    assert (E1 : forall x y, edge [[1]; []] x y <-> x = 0 /\ y = 1).
    { intros x y. split; [intros (l & G & I)|intros [-> ->]; exists [1]; split; [reflexivity|now left]]. destruct x as [|[|x]]; cbn in G; try (apply some_eq in G; subst l; cbn in I); [lia|lia|destruct x; discriminate]. }
    assert (E2 : forall x y, edge [[]; [0]] x y <-> x = 1 /\ y = 0).
    { intros x y. split; [intros (l & G & I)|intros [-> ->]; exists [0]; split; [reflexivity|now left]]. destruct x as [|[|x]]; cbn in G; try (apply some_eq in G; subst l; cbn in I); [lia|lia|destruct x; discriminate]. }
    assert (P1 : forall x y, precedes [[1]; []] x y <-> x = 0 /\ y = 1).
    { intros x y. split; [|intros Q; apply t_step; now apply E1]. intros Q. induction Q as [x y Q|]; [now apply E1|lia]. }
    assert (P2 : forall x y, precedes [[]; [0]] x y <-> x = 1 /\ y = 0).
    { intros x y. split; [|intros Q; apply t_step; now apply E2]. intros Q. induction Q as [x y Q|]; [now apply E2|lia]. }
    constructor; try reflexivity; try discriminate.
    - intros x y Q. elim (E0 2 x y Q).
    - intros x y Q. elim (E0 2 x y Q).
    - intros x Q. exact (P0 2 x x Q).
    - intros x y. split; intros Q; elim (P0 2 _ _ Q).
    - constructor; [|constructor; [|constructor]]; [|constructor]. constructor; try reflexivity; try discriminate.
      + intros x y Q. apply E1 in Q. cbn. lia.
      + intros x y Q. apply E2 in Q. cbn. lia.
      + intros x Q. apply P1 in Q. lia.
      + intros x y. rewrite P1, P2. lia.
      + constructor; [constructor|constructor; [constructor|constructor]].
  Qed.
  (** merging: the hypotheses hold in the example of the refutation; three methods, the third one embedded with its order *)
  Example embed_hyps : effects_known Cex.pr /\ forall m, In m [0; 1; 3] -> meth_ok Cex.pr Cex.mto m.
  Proof. split; [apply Cex.known|]. intros m I. apply Cex.ok. cbn in I. lia. Qed.
  Example embed_value : option_map snd (po_sog Cex.pr false Cex.mto [0; 1; 3]) = Some [[0; 1; 2; 3]; [1; 4; 2]; [0; 4]].
  Proof. vm_compute. reflexivity. Qed.
End Ex.

Print Assumptions transitive_edges_removed.
Print Assumptions transitive_edges_of_cycle_lost.
Print Assumptions methods_embedded.
Print Assumptions effectless_separated.
Print Assumptions successor_sets_exact.
Print Assumptions leaf_order_exact.
Print Assumptions merged_order_cyclic_refuted.
Print Assumptions merged_order_spurious_refuted.
