(** Model of src/sat/state_formula.cpp 8-125, 234-248 and src/sat/disabling_graph.cpp 353-449: the state-transition clauses and block compression.
    Simplifications as in Sat_model.v. A leaf is the list of its pairs (variable, action) (get_linear_state_atoms, 234-248: the primitives with a
    variable). Sets are lists. *)
From Coq Require Import ZArith.
From Verif Require Import Base Htn_problem Sat_model.

Local Open Scope Z_scope.

Definition leaf := list (Z * nat).

(** state_formula.cpp 29-51: first variable of the state at a time; one variable is created even without facts *)
Definition sf_base (P : problem) (nv : Z) (time : nat) : Z := nv + 1 + Z.of_nat time * Z.of_nat (Nat.max 1 (p_nfacts P)).

(** state_formula.cpp 74-92: the clauses of one action *)
Definition sf_action (P : problem) (this next : Z) (x : Z * nat) : option (list clause) :=
  let '(var, a) := x in
  pr <- get (p_prec P) a ;;
  ad <- get (p_add P) a ;;
  de <- get (p_del P) a ;;
  Some (flat_map (fun f => implies var (this + Z.of_nat f)) pr ++
        flat_map (fun f => implies var (next + Z.of_nat f)) ad ++
        flat_map (fun f => impliesNot var (next + Z.of_nat f)) de).

(** state_formula.cpp 81-91: causingPositive[f], causingNegative[f]; [eff] is addLists or delLists *)
Definition sf_causing (eff : list (list nat)) (acts : leaf) (f : nat) : option (list Z) :=
  cs <- omap (fun x : Z * nat => e <- get eff (snd x) ;; Some (map (fun _ => fst x) (filter (Nat.eqb f) e))) acts ;;
  Some (concat cs).

(** state_formula.cpp 98-101: frame axioms of one fact *)
Definition sf_frame (P : problem) (this next : Z) (acts : leaf) (f : nat) : option (list clause) :=
  pos <- sf_causing (p_add P) acts f ;;
  neg <- sf_causing (p_del P) acts f ;;
  Some (impliesPosAndNegImpliesOr (next + Z.of_nat f) (this + Z.of_nat f) pos ++
        impliesPosAndNegImpliesOr (this + Z.of_nat f) (next + Z.of_nat f) neg).

(** state_formula.cpp 54-110: one time step *)
Definition sf_step (P : problem) (this next : Z) (acts : leaf) : option (list clause) :=
  cs <- omap (sf_action P this next) acts ;;
  fr <- omap (sf_frame P this next acts) (seq 0 (p_nfacts P)) ;;
  Some (concat cs ++ concat fr).

(** The actions of the leaves of a block (state_formula.cpp 69-71) *)
Definition block_acts (leafs : list leaf) (block : list nat) : option leaf :=
  ls <- omap (get leafs) block ;; Some (concat ls).

(** state_formula.cpp 54-57: the time steps *)
Fixpoint sf_steps (P : problem) (nv : Z) (leafs : list leaf) (time : nat) (blocks : list (list nat)) : option (list clause) :=
  match blocks with
  | [] => Some []
  | b :: r =>
      acts <- block_acts leafs b ;;
      c <- sf_step P (sf_base P nv time) (sf_base P nv (S time)) acts ;;
      cs <- sf_steps P nv leafs (S time) r ;;
      Some (c ++ cs)
  end.

(** state_formula.cpp 21-125. Without time steps block_base_variables[0] is read outside the vector (undefined). *)
Definition state_formula (P : problem) (nv : Z) (leafs : list leaf) (blocks : list (list nat)) : option (list clause * Z) :=
  match blocks with
  | [] => None
  | _ =>
    let n := length blocks in
    cs <- sf_steps P nv leafs 0 blocks ;;
    Some (cs ++
      flat_map (fun f => if memb f (p_s0 P) then assertYes (sf_base P nv 0 + Z.of_nat f) else assertNot (sf_base P nv 0 + Z.of_nat f)) (seq 0 (p_nfacts P)) ++
      flat_map (fun f => assertYes (sf_base P nv n + Z.of_nat f)) (p_goal P),
      sf_base P nv (S n) - 1)
  end.

(** state_formula.cpp 8-19: every leaf is a block *)
Definition unit_blocks (leafs : list leaf) : list (list nat) := map (fun t => [t]) (seq 0 (length leafs)).

(** disabling_graph.cpp 353-404 *)
Definition actions_interfere (P : problem) (previous next : list nat) : option bool :=
  prs <- omap (get (p_prec P)) next ;;
  ads <- omap (get (p_add P)) next ;;
  des <- omap (get (p_del P)) next ;;
  pas <- omap (get (p_add P)) previous ;;
  pds <- omap (get (p_del P)) previous ;;
  Some (existsb (fun f => memb f (concat prs) || memb f (concat des)) (concat pas) ||
        existsb (fun f => memb f (concat prs) || memb f (concat ads)) (concat pds)).

(** disabling_graph.cpp 408-449; [prims] are the unpruned primitives of the leaves from number [l] on *)
Fixpoint compress (P : problem) (prims : list (list nat)) (l : nat) (block : list nat) (cur : list nat) : option (list (list nat)) :=
  match prims with
  | [] => Some [block]
  | p :: r =>
      i <- actions_interfere P cur p ;;
      if (i : bool) then bs <- compress P r (S l) [l] p ;; Some (block :: bs)
      else compress P r (S l) (block ++ [l]) (cur ++ p)
  end.
Definition block_compression (P : problem) (prims : list (list nat)) : option (list (list nat)) := compress P prims 0 [] [].
