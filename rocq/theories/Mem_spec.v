(** Histories of creating and deleting search nodes on the stores; reachability of objects. *)
From Coq Require Import Relations.
From Verif Require Import Base Htn_model Mem_model.

(** [mhistory P C v l]: from the initial node, nodes have been created from existing ones and deleted, in any order; [l] are the nodes that exist. *)
Inductive mhistory (P : problem) (C : config) : mworld -> list mnode -> Prop :=
| mh_init : forall v n, minit P = Some (v, n) -> mhistory P C v [n]
| mh_apply : forall v l n i x tk fuel v' n', mhistory P C v l -> In n l -> k_abs n = [] ->
    get (k_prim n) i = Some x -> rtask (rd (v_ps v)) x = Some tk -> isApplicable P (k_state n) tk = Some true ->
    mapply P C fuel v n i = Some (v', n') -> mhistory P C v' (n' :: l)
| mh_decompose : forall v l n i x tk mi fuel v' n', mhistory P C v l -> In n l ->
    get (k_abs n) i = Some x -> rtask (rd (v_ps v)) x = Some tk -> In mi (task_to_methods P tk) ->
    mdecompose P C fuel v n i mi = Some (v', n') -> mhistory P C v' (n' :: l)
| mh_delete : forall v l1 n l2 v', mhistory P C v (l1 ++ n :: l2) -> delete_node v n = Some v' -> mhistory P C v' (l1 ++ l2).

(** The pointers of a store. *)
Definition points {A} (out : A -> list nat) (M : store A) (i j : nat) : Prop := exists c, nth_error M i = Some (Some c) /\ In j (out (c_val c)).
Definition reaches {A} (out : A -> list nat) (M : store A) : nat -> nat -> Prop := clos_refl_trans nat (points out M).
Definition allocated {A} (M : store A) (i : nat) : Prop := exists c, nth_error M i = Some (Some c).

(** The plan steps and solution steps to which a node points. *)
Definition steps (n : mnode) : list nat := k_abs n ++ k_prim n.
Definition sols (n : mnode) : list nat := ptr (k_sol n).

(** The solution steps of a node, following prev. *)
Inductive sol_chain (S : store sstep) : option nat -> list solstep -> Prop :=
| sc_null : sol_chain S None []
| sc_step : forall i c l, nth_error S i = Some (Some c) -> sol_chain S (snd (c_val c)) l -> sol_chain S (Some i) (fst (c_val c) :: l).

(** A node of the stores and a node of Htn_model with the same content. *)
Record same_node (S : store sstep) (k : mnode) (n : node) : Prop := {
  sn_state : k_state k = n_state n; sn_abs : k_abs k = n_abs n; sn_prim : k_prim k = n_prim n; sn_cost : k_cost k = n_cost n; sn_depth : k_depth k = n_depth n;
  sn_mixed : k_mixed k = n_mixed n; sn_reach : k_reach k = n_reach n; sn_sol : sol_chain S (k_sol k) (n_sol n) }.

(** Fringe, visited list and heuristics of the two searches: they treat nodes of the same content alike. The visited list and the heuristics may read all
    plan steps reachable from the node. *)
Definition same_steps (v : mworld) (w : world) (k : mnode) : Prop :=
  forall r i, In r (steps k) -> reaches ps_succ (v_ps v) r i -> exists c, nth_error (v_ps v) i = Some (Some c) /\ nth_error (w_heap w) i = Some (c_val c).
Record env_agree {V} (D : menv V) (E : search_env V) : Prop := {
  ea_pop : forall S (L : list (mnode * node)), (forall p, In p L -> same_node S (fst p) (snd p)) ->
    match m_pop D (map fst L), e_pop E (map snd L) with
    | None, None => True
    | Some (k, f), Some (n, g) => exists L', Permutation L ((k, n) :: L') /\ f = map fst L' /\ g = map snd L'
    | _, _ => False
    end;
  ea_push : forall S (L : list (mnode * node)) k n, (forall p, In p L -> same_node S (fst p) (snd p)) -> same_node S k n ->
    exists L', Permutation L' ((k, n) :: L) /\ m_push D k (map fst L) = map fst L' /\ e_push E n (map snd L) = map snd L';
  ea_insert : forall v w x k n, same_node (v_ss v) k n -> same_steps v w k -> m_insert D v x k = v_insert E w x n;
  ea_dead : forall v w k n, same_node (v_ss v) k n -> same_steps v w k -> m_dead D v k = h_dead E w n;
  ea_rnd : forall i, m_rnd D i = rnd E i;
  ea_subopt : m_subopt D = subopt E }.
