(** Model of src/sat/partial_order.cpp (generate_matching_formula), src/sat/state_formula.cpp 258-346 (get_partial_state_atoms) and
    src/sat/sat_planner.cpp 93-115 (the plan printed for partially ordered problems).
    Simplifications as in Sat_model.v and Sf_model.v. A leaf is the list of its possiblePrimitives together with primitiveVariable ([None] is -1). *)
From Coq Require Import ZArith.
From Verif Require Import Base Htn_problem Sat_model Sf_model.

Local Open Scope Z_scope.

Notation pleaf := (list (option Z * nat)) (only parsing).

(** state_formula.cpp 266, partial_order.cpp 77, 128: numAdds or numDels is positive *)
Definition has_effect (P : problem) (a : nat) : option bool :=
  ad <- get (p_add P) a ;;
  de <- get (p_del P) a ;;
  Some (match ad, de with [], [] => false | _, _ => true end).

(** state_formula.cpp 263-272: does a leaf contain an action with (without) effects *)
Definition leaf_effect (P : problem) (l : pleaf) : option (bool * bool) :=
  bs <- omap (fun x => has_effect P (snd x)) l ;;
  Some (existsb (fun b => b) bs, existsb negb bs).

(** state_formula.cpp 258-346. [uord] lists the elements of an unordered_set in the order in which they are iterated, given the sequence of insertions.
    The possible positions of a leaf are all positions (313-317; the numbers of successors and predecessors computed in 300-310 are only printed), so
    all positions have the same set of actions. [sep] is effectLessActionsInSeparateLeafs; [None] also stands for exit(0) in line 274. The result is
    leafContainsEffectAction, the action variables of every position, and the new number of variables. *)
Definition partial_atoms (P : problem) (uord : list nat -> list nat) (sep : bool) (nv : Z) (leafs : list pleaf) : option (list bool * list leaf * Z) :=
  es <- omap (leaf_effect P) leafs ;;
  if sep && existsb (fun e => fst e && snd e) es then None
  else
    let effs := map fst es in
    let steps := Nat.max 1 (length (filter (fun b => b) effs)) in
    let acts := uord (flat_map (map snd) leafs) in
    let k := length acts in
    Some (effs,
          map (fun t => map (fun x : nat * nat => (nv + 1 + Z.of_nat (t * k + fst x), snd x)) (combine (seq 0 k) acts)) (seq 0 steps),
          nv + Z.of_nat (steps * k)).

(** An array filled by writing value after value: the last value written at [a] (partial_order.cpp 92-95, 120-124). *)
Fixpoint last_of {A} (l : list (A * nat)) (a : nat) : option A :=
  match l with
  | [] => None
  | (x, b) :: r => match last_of r a with Some y => Some y | None => if Nat.eqb a b then Some x else None end
  end.

Definition somes_fst (l : pleaf) : list Z := flat_map (fun x => match fst x with Some y => [y] | None => [] end) l.

Section Matching.
Variables (P : problem) (bits : nat -> nat).
Variables (leafs : list pleaf) (effs : list bool) (adj : list (list nat)) (vars : list leaf).
Let n := length leafs.
Let m := length vars.

(** partial_order.cpp 13-25, 144-151: a variable for every leaf and position *)
Definition grid_var (nv : Z) (l p : nat) : Z := nv + 1 + Z.of_nat (l * m + p).
(** partial_order.cpp 6, 17 *)
Definition match_leaf (nv : Z) (l : nat) : list Z := map (grid_var nv l) (seq 0 m).
(** partial_order.cpp 8, 19-21: only leafs that contain an action with effects *)
Definition match_pos (nv : Z) (p : nat) : list Z := map (fun l => grid_var nv l p) (filter (fun l => nth l effs false) (seq 0 n)).

(** partial_order.cpp 45-51 *)
Definition m_amo (nv : Z) (nv' : Z) : list clause * Z :=
  emit_all (map (fun l v => atMostOne bits v (match_leaf nv l)) (seq 0 n) ++ map (fun p v => atMostOne bits v (match_pos nv p)) (seq 0 m)) nv'.

(** partial_order.cpp 55-71; the variable leafActive[l] is [la + l] *)
Definition m_active (nv la : Z) : list clause :=
  flat_map (fun x : nat * pleaf => let a := la + Z.of_nat (fst x) in impliesOr a (somes_fst (snd x)) ++ notImpliesAllNot a (somes_fst (snd x))) (combine (seq 0 n) leafs) ++
  flat_map (fun l => impliesOr (la + Z.of_nat l) (match_leaf nv l)) (seq 0 n).

(** partial_order.cpp 75-78 *)
Definition effect_vars (acts : leaf) : option (list Z) :=
  cs <- omap (fun x : Z * nat => e <- has_effect P (snd x) ;; Some (if (e : bool) then [fst x] else [])) acts ;;
  Some (concat cs).
(** partial_order.cpp 74-86; positionActive[p] is [pa + p] *)
Definition m_caused (nv pa : Z) : option (list clause) :=
  cs <- omap (fun x : nat * leaf => vs <- effect_vars (snd x) ;; let a := pa + Z.of_nat (fst x) in Some (impliesOr a vs ++ notImpliesAllNot a vs)) (combine (seq 0 m) vars) ;;
  Some (concat cs ++ flat_map (fun p => impliesOr (pa + Z.of_nat p) (match_pos nv p)) (seq 0 m)).

(** partial_order.cpp 106-113; an action without a variable at the position would give the literal 0, which ends the clause (undefined here) *)
Definition m_up_leaf (mv : Z) (acts : leaf) (l : pleaf) : option (list clause) :=
  cs <- omap (fun x : option Z * nat => match fst x with None => Some [] | Some y => z <- last_of acts (snd x) ;; Some (impliesAnd mv y z) end) l ;;
  Some (concat cs).
(** partial_order.cpp 90-115; the bounds firstPossible and lastPossible never exclude a position (see [partial_atoms]) *)
Definition m_up (nv : Z) : option (list clause) :=
  cs <- omap (fun x : nat * leaf =>
          ds <- omap (fun y : nat * pleaf => m_up_leaf (grid_var nv (fst y) (fst x)) (snd x) (snd y)) (combine (seq 0 n) leafs) ;; Some (concat ds)) (combine (seq 0 m) vars) ;;
  Some (concat cs).

(** partial_order.cpp 127-137; leafPrimitives[prim] is 0 without entry *)
Definition m_down_pos (mv : Z) (acts : leaf) (l : pleaf) : option (list clause) :=
  cs <- omap (fun x : Z * nat =>
          e <- has_effect P (snd x) ;;
          Some (if (e : bool) then
                  match last_of l (snd x) with
                  | Some (Some y) => if 0 <? y then impliesAnd mv (fst x) y else impliesNot mv (fst x)
                  | _ => impliesNot mv (fst x)
                  end
                else [])) acts ;;
  Some (concat cs).
(** partial_order.cpp 117-138 *)
Definition m_down (nv : Z) : option (list clause) :=
  cs <- omap (fun y : nat * pleaf =>
          if nth (fst y) effs false then
            ds <- omap (fun x : nat * leaf => m_down_pos (grid_var nv (fst y) (fst x)) (snd x) (snd y)) (combine (seq 0 m) vars) ;; Some (concat ds)
          else Some []) (combine (seq 0 n) leafs) ;;
  Some (concat cs).

(** partial_order.cpp 155-185; [fv] is the base of the forbidden variables. A successor that is not a vertex is read outside the vector. *)
Definition m_order (nv fv : Z) : option (list clause) :=
  es <- omap (fun l => ss <- get adj l ;; if forallb (fun s => Nat.ltb s n) ss then Some (map (fun s => (l, s)) ss) else None) (seq 0 n) ;;
  let edges := concat es in
  Some (flat_map (fun e : nat * nat => flat_map (fun p => implies (grid_var nv (fst e) p) (grid_var fv (snd e) (p - 1))) (seq 1 (m - 1))) edges ++
        flat_map (fun e : nat * nat => flat_map (fun p => implies (grid_var fv (fst e) p) (grid_var fv (snd e) p)) (seq 0 m)) edges ++
        flat_map (fun l => flat_map (fun p => implies (grid_var fv l p) (grid_var fv l (p - 1))) (seq 1 (m - 1))) (seq 0 n) ++
        flat_map (fun l => flat_map (fun p => impliesNot (grid_var fv l p) (grid_var nv l p)) (seq 0 m)) (seq 0 n)).

(** partial_order.cpp 4-188 *)
Definition matching_formula (nv : Z) : option (list clause * Z) :=
  let nv1 := nv + Z.of_nat (n * m) in
  let nv2 := nv1 + Z.of_nat n in
  let nv3 := nv2 + Z.of_nat m in
  let '(amo, nv4) := m_amo nv nv3 in
  ca <- m_caused nv (nv2 + 1) ;;
  up <- m_up nv ;;
  dn <- m_down nv ;;
  od <- m_order nv nv4 ;;
  Some (amo ++ m_active nv (nv1 + 1) ++ ca ++ up ++ dn ++ od, nv4 + Z.of_nat (n * m)).

(** pdt.cpp 624-635: outputTask of a leaf (the last primitive whose variable is true; the leafs have no true abstract task, state_formula.cpp 224-231) *)
Definition output_task (val : Z -> bool) (l : pleaf) : option nat :=
  fold_left (fun o x => match fst x with Some y => if val y then Some (snd x) else o | None => o end) l None.

(** sat_planner.cpp 93-115: the leafs in the order in which they are printed *)
Definition printed (nv : Z) (val : Z -> bool) : list nat :=
  flat_map (fun x : nat * leaf =>
    flat_map (fun y : Z * nat =>
      if val (fst y) then
        map fst (filter (fun z : nat * pleaf => val (grid_var nv (fst z) (fst x)) && match output_task val (snd z) with Some a => Nat.eqb a (snd y) | None => false end) (combine (seq 0 n) leafs))
      else []) (snd x)) (combine (seq 0 m) vars).
End Matching.

(** sat_planner.cpp 391-480 for a partially ordered problem without mutexes and costs, after the decomposition clauses: the action variables, the state
    formula with one step per position, and the matching formula. [None] if one of them is undefined. *)
Definition po_formula (P : problem) (bits : nat -> nat) (uord : list nat -> list nat) (sep : bool) (nv : Z) (leafs : list pleaf) (adj : list (list nat)) :
  option (list leaf * Z * list clause * Z) :=
  pa <- partial_atoms P uord sep nv leafs ;;
  let '(effs, vars, nv1) := pa in
  sf <- state_formula P nv1 vars (unit_blocks vars) ;;
  let '(F, nv2) := sf in
  mf <- matching_formula P bits leafs effs adj vars nv2 ;;
  let '(G, nv3) := mf in
  Some (vars, nv2, F ++ G, nv3).
