(** Model of the implications of the ILP heuristic (cAndOrLmsFull), src/heuristics/dofHeuristics/hhDOfree.cpp 842-927. [I x] lists what the iterator of LmCausal yields for the element [x]
    ([lm_iter], LmCausal.cpp 786-831). *)
From Verif Require Import Base Htn_problem Tab_model Pg_model Lm_model Lm_spec Scc_model Dof_spec Dof_model Tdg_model.
Local Open Scope Z_scope.

(** hhDOfree.h 137 *)
Definition largeC : Z := 100.
(** v[iUA[t]], v[iM[m]], v[iUF[f]] *)
Definition elem_var (e : elem) : var := match e with EF f => UF f | ET t => UA t | EM m => MV m end.
(** hhDOfree.cpp 848-867, the same in 876-895 and 904-923: one implication, [x] is the variable of the element *)
Definition imp_con (r : pg_result) (s : list bool) (x : var) (y : elem) : option (list lin) :=
  let ge v := [ge0 [(largeC, v); (-1, x)]] in
  let zero := [eqc [(1, x)] 0] in
  match y with
  | ET t => Some (if taskReachable r t then ge (UA t) else zero)
  | EF f => b <- get s f ;; if negb b && useful r f then Some (ge (UF f)) else fr <- factReachable r f ;; Some (if negb fr then zero else [])
  | EM m => Some (if methodReachable r m then ge (MV m) else zero)
  end.
(** hhDOfree.cpp 843, 871, 899: reachable tasks, reachable methods, useful facts *)
Definition imp_elems (r : pg_result) : list elem := map ET (r_tasks r) ++ map EM (r_meths r) ++ map EF (r_useful r).
(** hhDOfree.cpp 843-926 *)
Definition imp_cons (r : pg_result) (s : list bool) (I : elem -> option (list elem)) : option (list lin) :=
  oflat (fun x => ys <- I x ;; oflat (imp_con r s (elem_var x)) ys) (imp_elems r).
(** The implications are added to the program. *)
Definition imp_ilp (r : pg_result) (s : list bool) (I : elem -> option (list elem)) (J : ilp) : option ilp :=
  l <- imp_cons r s I ;; Some {| i_vars := i_vars J; i_obj := i_obj J; i_cons := i_cons J ++ l |}.

(** LmCausal.cpp 801-824: iterGetLm and iterGetLmType *)
Definition node_elem (P : problem) (i : nat) : elem :=
  if Nat.leb (p_nfacts P) i && Nat.ltb i (p_nfacts P + length (p_prim P)) then ET (i - p_nfacts P) else if Nat.ltb i (p_nfacts P) then EF i else EM (i - (p_nfacts P + length (p_prim P))).
(** LmCausal.cpp 786-831: the iterator of a node *)
Definition lm_iter (P : problem) (nodes : list lmnode) (e : elem) : option (list elem) :=
  n <- get nodes (code P e) ;;
  if n_full n then Some [] else omap (fun i => z <- get (n_lms n) i ;; Some (node_elem P (Z.to_nat z))) (seq 0 (n_num n)).

(** hhDOfree.cpp 428-979 with cAndOrLmsFull; [K]: the tables of the components with cTdgFull *)
Definition imp_model (P : problem) (V : list (nat * nat)) (o : dof_opts) (K : option (sccs * list (list nat))) (r : pg_result) (s : list bool) (T : ctable) (cuts : option (list (nat * list Z))) (lms : list elem)
  (I : elem -> option (list elem)) : option outcome :=
  out <- match K with None => dof_model P V o r s T cuts lms | Some (C, Pr) => tdg_model P V o C Pr r s T cuts lms end ;;
  match out with Solve J => J' <- imp_ilp r s I J ;; Some (Solve J') | _ => Some out end.
