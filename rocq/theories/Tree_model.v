(** Model of the printed solution: src/ProgressionNetwork.cpp 160-207 (extractSolutionFromSearchNode).
    Task and method names are printed as their numbers; the text is a structure of lines. *)
From Verif Require Import Base Htn_model Tree_spec.

(** The whole output: action lines, root, decomposition lines. *)
Record printed := { pr_acts : list (nat * nat); pr_root : option nat; pr_rows : list row }.

(** std::sort on pairs (198); the order on pairs is total, so the result does not depend on the algorithm. *)
Fixpoint pair_insert (x : nat * nat) (l : list (nat * nat)) : list (nat * nat) :=
  match l with
  | [] => [x]
  | y :: r => if Nat.ltb (fst y) (fst x) || (Nat.eqb (fst y) (fst x) && Nat.ltb (snd y) (snd x))
              then y :: pair_insert x r else x :: l
  end.
Definition pair_sort (l : list (nat * nat)) : list (nat * nat) := fold_left (fun acc x => pair_insert x acc) l [].

(** ProgressionNetwork.cpp 184-188: children[i], entries (position, instance). *)
Definition children (l : list solstep) (i : nat) : list (nat * nat) :=
  map (fun s => (ss_pos s, ss_inst s))
      (filter (fun s => negb (Nat.eqb (ss_inst s) 0) && Nat.eqb (ss_parent s) i) l).

(** ProgressionNetwork.cpp 173-178, 196-202: one line per decomposition. *)
Definition rows_of (l : list solstep) : list row :=
  flat_map (fun s => match ss_method s with
                     | Some mi => [{| rw_id := ss_inst s; rw_task := ss_task s; rw_meth := mi;
                                      rw_kids := map snd (pair_sort (children l (ss_inst s))) |}]
                     | None => [] end) l.

(** ProgressionNetwork.cpp 160-207; root stays -1 ([None]) when nothing is assigned. *)
Definition extract (P : problem) (n : node) : printed :=
  let l := n_sol n in
  match l with
  | [] | [_] => {| pr_acts := []; pr_root := None; pr_rows := [] |}
  | _ =>
    {| pr_acts := rev (map (fun s => (ss_inst s, ss_task s)) (filter (fun s => match ss_method s with None => true | _ => false end) l));
       pr_root := fold_left (fun r s => if (match ss_method s with None => false | _ => true end) && Nat.eqb (ss_task s) (p_init P) then Some (ss_inst s) else r) l None;
       pr_rows := rows_of l |}
  end.
