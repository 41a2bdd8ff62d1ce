(** Model of the parts of the totally ordered SAT encoding that use invariants: pruning with Rintanen's algorithm (src/sat/sat_planner.cpp 222-295, option
    pruning = h2), the mutex clauses (src/sat/state_formula.cpp 127-222, option satmutexes) and createFormulaForDepth (297-500) with all options.
    Simplifications as in Pdt_model.v, Sf_model.v and Inv_model.v. *)
From Coq Require Import ZArith.
From Verif Require Import Base Htn_problem Sat_model Sf_model Pdt_model Inv_model.
Local Open Scope Z_scope.

(** sat_pruning (sat_planner.h): SAT_NONE, SAT_FF, SAT_H2 *)
Inductive pmode := PNone | PFF | PH2.

(** The options: the order in which an unordered_set is iterated, the parsed mutex groups, pruning mode, block compression, satmutexes *)
Record mconf := { m_order : list Z -> list Z; m_input : parsed; m_mode : pmode; m_bc : bool; m_mutex : bool }.

(** ** Pruning *)
Section Prune.
Variable P : problem.
Notation n := (p_nfacts P).

(** sat_planner.cpp 222-227 *)
Definition insert_leaf (bi al : list (list Z)) (a b : Z) : option (list (list Z)) :=
  s <- at_lit n bi a ;; if count s b then Some al else insert_invariant n al a b.

(** sat_planner.cpp 250-275: the primitives of one leaf; the pruned ones, and the applicable ones with their inferred literals *)
Definition rl_prims (R : rint) (q : list nat) (F : flags) (prims : list nat) : option (list item * list (nat * (list bool * list bool))) :=
  rs <- omap (fun '(i, p) => if marked F (IP q i) then Some ([], []) else
                o <- rint_applicable P p R ;; match o with Some x => Some ([], [(p, x)]) | None => Some ([IP q i], []) end) (enum prims) ;;
  Some (concat (map fst rs), concat (map snd rs)).

(** Invariants.cpp 338-394 for a model without addVectors and delVectors (Model.cpp 87-88; they are only created if satmutexes is set, SearchEngine.cpp 232,
    Model.cpp 2092): both macros (350-351) read one of them whenever they are evaluated, that is for the first invariant that is not yet deleted. *)
Definition rint_effect_null (a : nat) (R : rint) : option rint :=
  add <- get (p_add P) a ;;
  del <- get (p_del P) a ;;
  let scan tab effs := ofold (fun (_ : unit) c => js <- get tab c ;; ofold (fun (_ : unit) j => d <- get (r_del R) j ;; if d : bool then Some tt else None) js tt) effs tt in
  _ <- scan (r_pos R) del ;; _ <- scan (r_neg R) add ;; Some R.

(** sat_planner.cpp 278-284: the effects of the applicable primitives *)
Definition rl_effects (vectors : bool) (exe : list (nat * (list bool * list bool))) (R : rint) : option rint :=
  ofold (fun R '(p, (pp, np)) => if vectors then '(R', _) <- rint_effect P p pp np R ;; Some R' else rint_effect_null p R) exe R.

(** sat_planner.cpp 245-287 *)
Fixpoint rl_leafs (vectors : bool) (R : rint) (F : flags) (ls : list (list nat * pnode)) : option (list item * rint) :=
  match ls with
  | [] => Some ([], R)
  | (q, d) :: r =>
      '(its, exe) <- rl_prims R q F (pn_prims d) ;;
      R1 <- rl_effects vectors exe R ;;
      R2 <- rint_reduce P R1 ;;
      '(rest, R3) <- rl_leafs vectors R2 F r ;;
      Some (its ++ rest, R3)
  end.
(** sat_planner.cpp 230-295; [bi] is binary_invariants, [al] is after_leaf_invariants *)
Definition filter_leafs_rint (vectors : bool) (bi : list (list Z)) (ls : list (list nat * pnode)) (F : flags) (al : list (list Z)) : option (flags * list (list Z) * bool) :=
  R0 <- rint_initial P ;;
  '(its, R) <- rl_leafs vectors R0 F ls ;;
  al' <- ofold (fun al '(a, b) => insert_leaf bi al a b) (r_v R) al ;;
  Some (mark F its, al', match its with [] => false | _ => true end).
(** sat_planner.cpp 365-368 *)
Fixpoint rint_loop (vectors : bool) (bi : list (list Z)) (fuel : nat) (ls : list (list nat * pnode)) (F : flags) (al : list (list Z)) : option (flags * list (list Z)) :=
  match fuel with
  | O => None
  | S fuel' => '(F', al', more) <- filter_leafs_rint vectors bi ls F al ;; if more : bool then rint_loop vectors bi fuel' ls F' al' else Some (F', al')
  end.

(** sat_planner.cpp 342-371: phase 1 until nothing is pruned, then phase 2 if the mode is h2 *)
Definition prune_full (mode : pmode) (vectors : bool) (bi : list (list Z)) (T : pdt) : option (flags * list (list Z)) :=
  let ls := leafs T [] in
  let fuel := S (length (flat_map (fun '(_, d) => pn_prims d) ls)) in
  F1 <- propagate_all P T (mark [] (flat_map (fun '(q, d) => map (IA q) (seq 0 (length (pn_abs d)))) ls)) ;;
  F2 <- (match mode with PNone => Some F1 | _ => ff_loop P fuel ls F1 end) ;;
  '(F3, al) <- (match mode with PH2 => rint_loop vectors bi fuel ls F2 (repeat [] (2 * n)%nat) | _ => Some (F2, repeat [] (2 * n)%nat) end) ;;
  F <- propagate_all P T F3 ;;
  Some (F, al).
End Prune.

(** ** Mutex clauses *)

(** state_formula.cpp 185-191, 205-208, 216-219: the variable of a literal at the time with the first variable [base] *)
Definition mx_lit (base l : Z) : Z := if l <? 0 then - (base + (- l - 1)) else base + l.
Definition mx_vars (base : Z) (l : list nat) : list Z := map (fun f => base + Z.of_nat f) l.

Definition mx_amo (bits : nat -> nat) (base : Z) (l : list nat) (nv : Z) : list clause * Z := atMostOne bits nv (mx_vars base l).
Definition mx_alo (base : Z) (l : list nat) (nv : Z) : list clause * Z := (atLeastOne (mx_vars base l), nv).
(** state_formula.cpp 152-161 *)
Definition mx_sas (bits : nat -> nat) (base : Z) (x : nat * nat) : list (Z -> list clause * Z) :=
  if Nat.eqb (fst x) (snd x) then [] else [mx_amo bits base (sas_facts x); mx_alo base (sas_facts x)].
(** state_formula.cpp 163-171 *)
Definition mx_strict (bits : nat -> nat) (base : Z) (l : list nat) : list (Z -> list clause * Z) :=
  if Nat.eqb (length l) 2 then [] else [mx_amo bits base l; mx_alo base l].
(** state_formula.cpp 173-180 *)
Definition mx_mutex (bits : nat -> nat) (base : Z) (l : list nat) : list (Z -> list clause * Z) :=
  if Nat.eqb (length l) 2 then [] else [mx_amo bits base l].
(** state_formula.cpp 183-195 *)
Definition mx_inv (base : Z) (l : list Z) : list (Z -> list clause * Z) :=
  if Nat.eqb (length l) 2 then [] else [fun nv => (atLeastOne (map (mx_lit base) l), nv)].
(** state_formula.cpp 200-220: the set of literal number [i] in binary_invariants or after_leaf_invariants *)
Definition mx_binary (order : list Z -> list Z) (n : nat) (base : Z) (x : nat * list Z) : list (Z -> list clause * Z) :=
  let a := Z.of_nat (fst x) - Z.of_nat n in
  flat_map (fun b => if Nat.ltb (lfact b) (lfact a) then [] else [fun nv => (atLeastOne [mx_lit base a; mx_lit base b], nv)]) (order (snd x)).
(** state_formula.cpp 148-221: one time *)
Definition mx_time (bits : nat -> nat) (order : list Z -> list Z) (n : nat) (X : parsed) (bi al : list (list Z)) (base : Z) : list (Z -> list clause * Z) :=
  flat_map (mx_sas bits base) (x_sas X) ++ flat_map (mx_strict bits base) (x_strict X) ++ flat_map (mx_mutex bits base) (x_mutex X) ++ flat_map (mx_inv base) (x_inv X) ++
  flat_map (fun '(b, a) => mx_binary order n base b ++ mx_binary order n base a) (combine (enum_from 0 bi) (enum_from 0 al)).
(** state_formula.cpp 127-222; [nv0] is the number of variables before the state formula, so sf_base P nv0 t is block_base_variables[t] *)
Definition mutex_formula (P : problem) (bits : nat -> nat) (order : list Z -> list Z) (X : parsed) (bi al : list (list Z)) (nv0 : Z) (times : nat) (nv : Z) : list clause * Z :=
  emit_all (flat_map (fun t => mx_time bits order (p_nfacts P) X bi al (sf_base P nv0 t)) (seq 0 times)) nv.

(** ** One depth *)
Section Conf.
Variables (P : problem) (C : sconf) (M : mconf).

(** sat_planner.cpp 297-480 for totally ordered problems *)
Definition create_full (bi : list (list Z)) (depth : nat) (st : pdt * Z) : option (pdt * Z * option (list clause)) :=
  let '(t0, nv) := st in
  T <- expand_to P C depth t0 ;;
  '(F, al) <- prune_full P (m_mode M) (m_mutex M) bi T ;;
  if marked F (IA [] 0) then Some (T, nv, None)
  else
    let '(T', nv1) := assign P F T [] nv in
    '(c1, nv2) <- decomposition C F T' [] nv1 ;;
    r <- get (pn_avar (dat T')) 0 ;;
    let ls := leafs T' [] in
    let atoms := map (fun x => leaf_atoms (snd x)) ls in
    blocks <- (if m_bc M then block_compression P (map (leaf_unpruned F) ls) else Some (unit_blocks atoms)) ;;
    '(c3, nv3) <- state_formula P nv2 atoms blocks ;;
    let '(c4, nv4) := if m_mutex M then mutex_formula P (s_bits C) (m_order M) (m_input M) bi al nv2 (length blocks) nv3 else ([], nv3) in
    Some (T', nv4, Some (c1 ++ assertYes (vlit r) ++ pruned_clauses F T' [] ++ c3 ++ c4)).

(** sat_planner.cpp 782-836, as sat_state, sat_formula and sat_search in Pdt_model.v *)
Fixpoint full_state (bi : list (list Z)) (d : nat) : option (pdt * Z) :=
  match d with
  | O => Some (pdt_root P, 0)
  | S d' => st <- full_state bi d' ;; '(t, nv, _) <- create_full bi d st ;; Some (t, nv)
  end.
(** SearchEngine.cpp 464-468: the invariants, then the formula for depth d + 1 *)
Definition full_formula (d : nat) : option (pdt * Z * option (list clause)) :=
  bi <- all_invariants (m_order M) P (m_input M) (m_mutex M) ;; st <- full_state bi d ;; create_full bi (S d) st.
Fixpoint full_search (solver : list clause -> option (Z -> bool)) (bi : list (list Z)) (rounds : nat) (depth : nat) (st : pdt * Z) : option (option (list nat)) :=
  match rounds with
  | O => Some None
  | S rounds' =>
      '(T, nv, o) <- create_full bi depth st ;;
      match (match o with Some cl => solver cl | None => None end) with
      | Some val => Some (Some (sat_plan val T))
      | None => full_search solver bi rounds' (S depth) (T, nv)
      end
  end.
Definition solve_full (solver : list clause -> option (Z -> bool)) (rounds : nat) : option (option (list nat)) :=
  bi <- all_invariants (m_order M) P (m_input M) (m_mutex M) ;; full_search solver bi rounds 1 (pdt_root P, 0).
End Conf.
