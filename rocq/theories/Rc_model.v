(** Model of the relaxed-composition heuristic: src/heuristics/rcHeuristics/RCModelFactory.cpp (the STRIPS model) and
    src/heuristics/rcHeuristics/hhRC2.h (the state, the goal and the value of a search node).
    Simplifications: names, variables, initial state and goal of the STRIPS model (RCModelFactory.cpp 81-131, 165-183), which are not
    used by the heuristics, and its delete effects (relaxed away) are left out; values are natural numbers without overflow. *)
From Verif Require Import Base IntUtil_model Htn_model Tab_model Scc_model Heap_model Relax_model.

(** numActions, numTasks *)
Definition n_acts (P : problem) : nat := length (p_cost P).
Definition n_tasks (P : problem) : nat := length (p_prim P).

(** RCModelFactory.cpp 273-279 *)
Definition t2tdr (P : problem) (t : nat) : nat := p_nfacts P + t.
Definition t2bur (P : problem) (t : nat) : nat := p_nfacts P + n_acts P + t.

(** RCModelFactory.cpp 67-76: the subtasks of a method are read from sortedDistinctSubtasks. *)
Definition rc_method_prec (P : problem) (m : method) : option (list nat) :=
  D <- distinct_table (m_subs m) ;; Some (map (fun e => t2bur P (Z.to_nat (fst e))) D).

(** RCModelFactory.cpp 24-241: [cma] = costsMethodActions, [cra] = costRegularActions. *)
Definition rc_strips (P : problem) (cma cra : nat) : option strips :=
  ap <- omap (fun i => l <- get (p_prec P) i ;; Some (l ++ [t2tdr P i])) (seq 0 (n_acts P)) ;;
  aa <- omap (fun i => l <- get (p_add P) i ;; Some (l ++ [t2bur P i])) (seq 0 (n_acts P)) ;;
  mp <- omap (rc_method_prec P) (p_methods P) ;;
  let ma := map (fun m => [t2bur P (m_task m)]) (p_methods P) in
  let nf := p_nfacts P + n_acts P + n_tasks P in
  Some {| st_nf := nf;
          st_pre := ap ++ mp;
          st_add := aa ++ ma;
          st_cost := map (fun c => if Nat.eqb cra 0 then c else cra) (p_cost P) ++ map (fun _ => cma) (p_methods P);
          st_p2a := inverse_mapping nf (ap ++ mp);
          st_precless := precless (ap ++ mp) |}.

(** hhRC2.h 131-156: the state. [M] holds the arrays reachableT of the plan steps. s0set is a bucketSet, which enumerates its members
    in ascending order (see Bucket_thm). *)
Definition rc_s0 (P : problem) (M : list (option (list nat))) (n : node) : option (list nat) :=
  let facts := filter (fun f => nth f (n_state n) false) (seq 0 (length (n_state n))) in
  ofold (fun s i => o <- get M i ;; r <- o ;;
           Some (fold_left (fun s t => if Nat.ltb t (n_acts P) then Scc_model.ins (t2tdr P t) s else s) r s))
        (n_abs n ++ n_prim n) facts.

(** hhRC2.h 158-167: the goal; gset is a noDelIntSet, which enumerates its members in the order of insertion (see NoDel_thm). *)
Definition rc_goal (P : problem) (T : ctable) : list nat :=
  fold_left set_insert (p_goal P ++ map (fun e => t2bur P (Z.to_nat (fst e))) T) [].

(** The choices of hhRC2.h 34-36, 79-100 and 227-244: no correction (also estMIXED), the admissible one, or one with the given table
    (minImpliedDistance or minEstimatedCosts). *)
Inductive correction := CNone | CAdm | CTable (mi : list nat).

(** hhRC2.h 227-246 *)
Definition rc_correct (P : problem) (k : correction) (T : ctable) (h : nat) : option nat :=
  match k with
  | CNone => Some h
  | CAdm => ofold (fun h '(z, c) =>
              if Z.ltb 1 c then
                if Nat.ltb (Z.to_nat z) (n_acts P) then
                  x <- get (p_cost P) (Z.to_nat z) ;; Some (h + x * Z.to_nat (c - 1))
                else Some h
              else Some h) T h
  | CTable mi => ofold (fun h '(z, c) =>
              if Z.ltb 1 c then x <- get mi (Z.to_nat z) ;; Some (h + x * Z.to_nat (c - 1)) else Some h) T h
  end.

(** The inner heuristic, from state and goal to a value ([Some None] = UNREACHABLE) and its cuts. *)
Definition inner := strips -> list nat -> list nat -> option (option (nat * list (list nat))).
Definition in_aff (al : nat -> list Z) (k : aff_kind) (q0 : heap) (rb0 : list (option nat)) : inner :=
  fun m s g => h <- aff_value al m k q0 rb0 s g ;; Some (option_map (fun v => (v, [])) h).
Definition in_filter (al : nat -> list Z) (k : aff_kind) (q0 : heap) (rb0 : list (option nat)) : inner :=
  fun m s g => h <- filter_value al m k q0 rb0 s g ;; Some (option_map (fun v => (v, [])) h).
Definition in_lmcut (al : nat -> list Z) (q0 : heap) : inner := fun m s g => lmcut_value al m q0 s g.

(** hhRC2.h 186-198: the binary search for the border between actions and methods. *)
Fixpoint border (fuel : nat) (na : nat) (a : list Z) (ra lm : nat) : option nat :=
  match fuel with
  | O => None
  | S f =>
      if Nat.eqb (S ra) lm then Some lm
      else let mid := Nat.div (ra + lm) 2 in
           x <- get a mid ;;
           if Z.ltb x (Z.of_nat na) then border f na a mid lm else border f na a ra mid
  end.

(** hhRC2.h 173-208: sorting the landmark, splitting it and renumbering its methods; the result is firstMethod and lm. *)
Definition split_cut (na : nat) (cut : list nat) : option (nat * list Z) :=
  a <- sort (map Z.of_nat cut) 0 (length cut) ;;
  x0 <- get a 0 ;;
  fm <- (if Z.leb (Z.of_nat na) x0 then Some 0
         else xl <- get a (length a - 1) ;;
              if Z.ltb xl (Z.of_nat na) then Some (length a) else border (length a) na a 0 (length a - 1)) ;;
  Some (fm, firstn fm a ++ map (fun z => (z - Z.of_nat na)%Z) (skipn fm a)).

(** hhRC2.h 128-248: the value ([Some None] = UNREACHABLE, which makes the node a dead end, 113-125) and the stored landmarks. *)
Definition rc_value (P : problem) (m : strips) (H : inner) (k : correction) (M : list (option (list nat))) (n : node) :
  option (option (nat * list (nat * list Z))) :=
  s <- rc_s0 P M n ;;
  T <- contained P n ;;
  r <- H m s (rc_goal P T) ;;
  match r with
  | None => Some None
  | Some (h, cuts) =>
      cs <- omap (split_cut (n_acts P)) cuts ;;
      v <- rc_correct P k T h ;;
      Some (Some (v, cs))
  end.
