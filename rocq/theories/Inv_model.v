(** Model of src/Invariants.cpp: two-literal invariants from the parsed mutex groups (20-190) and by Rintanen's algorithm (193-520).
    A literal is an int: a non-negative number f is the fact f, a negative number l the negation of the fact -l-1. An invariant is the disjunction of two literals.
    Simplifications: output, statistics and clocks are left out; htn->addVectors[a][f] is "f is in the add list of a" (Model.cpp 2056-2081). *)
From Coq Require Import ZArith.
From Verif Require Import Base Htn_problem.
Local Open Scope Z_scope.

(** The fact of a literal ("if (a < 0) a = -a-1") *)
Definition lfact (l : Z) : nat := if l <? 0 then Z.to_nat (- l - 1) else Z.to_nat l.
(** Line 215, 216 *)
Definition mklit (f : nat) (neg : bool) : Z := if neg then - Z.of_nat f - 1 else Z.of_nat f.

(** * Rintanen's algorithm *)

(** v0, toDelete, posInvarsPerPredicate, negInvarsPerPredicate *)
Record rint := { r_v : list (Z * Z); r_del : list bool; r_pos : list (list nat); r_neg : list (list nat) }.

Fixpoint enum_from {A} (i : nat) (l : list A) : list (nat * A) := match l with [] => [] | x :: r => (i, x) :: enum_from (S i) r end.

(** 220-228 and 262-270: the number of an invariant is entered in the list of a literal *)
Definition enter (i : nat) (l : Z) (st : list (list nat) * list (list nat)) : option (list (list nat) * list (list nat)) :=
  let '(pos, neg) := st in
  if l <? 0 then x <- get neg (lfact l) ;; neg' <- set neg (lfact l) (x ++ [i]) ;; Some (pos, neg')
  else x <- get pos (lfact l) ;; pos' <- set pos (lfact l) (x ++ [i]) ;; Some (pos', neg).
Definition tables (n : nat) (v : list (Z * Z)) : option (list (list nat) * list (list nat)) :=
  ofold (fun st '(i, (a, b)) => st1 <- enter i a st ;; enter i b st1) (enum_from 0 v) (repeat [] n, repeat [] n).
Definition make_rint (n : nat) (v : list (Z * Z)) : option rint :=
  '(pos, neg) <- tables n v ;; Some {| r_v := v; r_del := repeat false (length v); r_pos := pos; r_neg := neg |}.

(** 193-238: all two-literal clauses over different facts that are true in the initial state *)
Definition initial_candidates (P : problem) : list (Z * Z) :=
  flat_map (fun p1 => flat_map (fun p2 => flat_map (fun b1 => flat_map (fun b2 =>
    if Bool.eqb b1 (memb p1 (p_s0 P)) && Bool.eqb b2 (memb p2 (p_s0 P)) then [] else [(mklit p1 b1, mklit p2 b2)])
    [false; true]) [false; true]) (seq (S p1) (p_nfacts P - S p1))) (seq 0 (p_nfacts P)).
Definition rint_initial (P : problem) : option rint := make_rint (p_nfacts P) (initial_candidates P).

(** 240-284 *)
Definition keep (R : rint) : list (Z * Z) := flat_map (fun '(x, d) => if d : bool then [] else [x]) (combine (r_v R) (r_del R)).
Definition rint_reduce (P : problem) (R : rint) : option rint := make_rint (p_nfacts P) (keep R).

(** 314-320 and 323-329: a literal is inferred; the flag tells that its negation was inferred as well *)
Definition infer (pp np : list bool) (l : Z) : option (list bool * list bool * bool) :=
  if l <? 0 then np' <- set np (lfact l) true ;; b <- get pp (lfact l) ;; Some (pp, np', b)
  else pp' <- set pp (lfact l) true ;; b <- get np (lfact l) ;; Some (pp', np, b).
(** 309-331: the invariants that contain the negation of the precondition [pre] *)
Fixpoint infer_all (R : rint) (pre : nat) (js : list nat) (pp np : list bool) : option (list bool * list bool * bool) :=
  match js with
  | [] => Some (pp, np, false)
  | j :: r =>
      d <- get (r_del R) j ;;
      if d : bool then infer_all R pre r pp np
      else
        '(a, b) <- get (r_v R) j ;;
        '(pp1, np1, stop1) <- (if (a <? 0) && (Z.of_nat pre =? - a - 1) then infer pp np b else Some (pp, np, false)) ;;
        if stop1 : bool then Some (pp1, np1, true)
        else
          '(pp2, np2, stop2) <- (if (b <? 0) && (Z.of_nat pre =? - b - 1) then infer pp1 np1 a else Some (pp1, np1, false)) ;;
          if stop2 : bool then Some (pp2, np2, true) else infer_all R pre r pp2 np2
  end.
(** 304-332 *)
Fixpoint infer_precs (R : rint) (pres : list nat) (pp np : list bool) : option (list bool * list bool * bool) :=
  match pres with
  | [] => Some (pp, np, false)
  | pre :: r =>
      pp1 <- set pp pre true ;;
      js <- get (r_neg R) pre ;;
      '(pp2, np2, stop) <- infer_all R pre js pp1 np ;;
      if stop : bool then Some (pp2, np2, true) else infer_precs R r pp2 np2
  end.
(** 287-334 (compute_Rintanten_action_applicable): None as second component if the action is inapplicable, else the inferred literals *)
Definition rint_applicable (P : problem) (a : nat) (R : rint) : option (option (list bool * list bool)) :=
  pres <- get (p_prec P) a ;;
  '(pp, np, stop) <- infer_precs R pres (repeat false (p_nfacts P)) (repeat false (p_nfacts P)) ;;
  Some (if stop : bool then None else Some (pp, np)).

(** 350, 351 (macros ensuresNegP and ensuresPosP) *)
Definition ensures (add del : list nat) (pp np : list bool) (l : Z) : option bool :=
  let f := lfact l in
  p <- get pp f ;; n <- get np f ;;
  Some (if l <? 0 then (n && negb (memb f add)) || memb f del else (p && negb (memb f del)) || memb f add).
(** 360-389: the invariants [js] that contain a literal of fact [c] violated by the effect *)
Fixpoint violate (add del : list nat) (pp np : list bool) (v : list (Z * Z)) (c : nat) (js : list nat) (dl : list bool) (removed : bool) : option (list bool * bool) :=
  match js with
  | [] => Some (dl, removed)
  | j :: r =>
      d <- get dl j ;;
      if d : bool then violate add del pp np v c r dl removed
      else
        '(a, b) <- get v j ;;
        e <- (if Nat.eqb (lfact a) c then ensures add del pp np b else ensures add del pp np a) ;;
        if e : bool then violate add del pp np v c r dl removed
        else dl' <- set dl j true ;; violate add del pp np v c r dl' true
  end.
Definition violate_effects (add del : list nat) (pp np : list bool) (v : list (Z * Z)) (tab : list (list nat)) (effs : list nat) (st : list bool * bool) : option (list bool * bool) :=
  ofold (fun '(dl, removed) c => js <- get tab c ;; violate add del pp np v c js dl removed) effs st.
(** 338-394 (compute_Rintanten_action_effect): deletes first (type 0), then adds. The number of removed invariants is returned as a bool. *)
Definition rint_effect (P : problem) (a : nat) (pp np : list bool) (R : rint) : option (rint * bool) :=
  add <- get (p_add P) a ;;
  del <- get (p_del P) a ;;
  st1 <- violate_effects add del pp np (r_v R) (r_pos R) del (r_del R, false) ;;
  '(dl, removed) <- violate_effects add del pp np (r_v R) (r_neg R) add st1 ;;
  Some ({| r_v := r_v R; r_del := dl; r_pos := r_pos R; r_neg := r_neg R |}, removed).

(** 424-441: one round over the actions. [nc] tells whether nc > 0; [last] is lastChangeAtAction, None for -1: the comparison with the unsigned tIndex converts -1 to
    the largest number, so the loop is not left (426). *)
Fixpoint rint_actions (P : problem) (acts : list nat) (R : rint) (nc : bool) (last : option nat) : option (rint * bool * option nat) :=
  match acts with
  | [] => Some (R, nc, last)
  | t :: r =>
      if negb nc && match last with Some l => Nat.ltb l t | None => false end then Some (R, nc, last)
      else
        o <- rint_applicable P t R ;;
        match o with
        | None => rint_actions P r R nc last
        | Some (pp, np) =>
            '(R', removed) <- rint_effect P t pp np R ;;
            if removed : bool then rint_actions P r R' true (Some t) else rint_actions P r R' nc last
        end
  end.
(** 412-442: the do-while loop; [first] is "round == 1" *)
Fixpoint rint_rounds (P : problem) (fuel : nat) (first : bool) (R : rint) (last : option nat) : option (list (Z * Z)) :=
  match fuel with
  | O => None
  | S fuel' =>
      R1 <- (if first then Some R else rint_reduce P R) ;;
      '(R2, nc, last') <- rint_actions P (seq 0 (length (p_prec P))) R1 false last ;;
      if nc : bool then rint_rounds P fuel' false R2 last' else Some (r_v R2)
  end.
(** 397-442: the invariants found by compute_Rintanen_Invariants *)
Definition rintanen (P : problem) : option (list (Z * Z)) :=
  R <- rint_initial P ;; rint_rounds P (S (length (initial_candidates P))) true R None.

(** * binary_invariants *)

(** The sets binary_invariants[l + numStateBits], as lists in the order of insertion *)
Definition count (s : list Z) (x : Z) : bool := existsb (Z.eqb x) s.
Definition sadd (x : Z) (s : list Z) : list Z := if count s x then s else s ++ [x].
Definition at_lit {A} (n : nat) (bi : list A) (l : Z) : option A := if l + Z.of_nat n <? 0 then None else get bi (Z.to_nat (l + Z.of_nat n)).
Definition set_lit {A} (n : nat) (bi : list A) (l : Z) (x : A) : option (list A) := if l + Z.of_nat n <? 0 then None else set bi (Z.to_nat (l + Z.of_nat n)) x.

(** 23-30 *)
Definition co_occur (n : nat) (bi : list (list Z)) (a b : Z) : option bool :=
  if a =? - b - 1 then Some false else s <- at_lit n bi (- a - 1) ;; Some (negb (count s (- b - 1))).
(** 32-36 *)
Definition insert_invariant (n : nat) (bi : list (list Z)) (a b : Z) : option (list (list Z)) :=
  s <- at_lit n bi a ;; bi1 <- set_lit n bi a (sadd b s) ;;
  t <- at_lit n bi1 b ;; set_lit n bi1 b (sadd a t).

(** What is known about the facts from the input: SAS+ variables (firstIndex, lastIndex), strict mutex groups, mutex groups, invariants (Model.cpp 1560-1602) *)
Record parsed := { x_sas : list (nat * nat); x_strict : list (list nat); x_mutex : list (list nat); x_inv : list (list Z) }.

(** 59-61, 72-74, 79-81: all pairs of different positions *)
Fixpoint pairs {A} (l : list A) : list (A * A) := match l with [] => [] | x :: r => map (pair x) r ++ pairs r end.
Definition neg_pair (x : nat * nat) : Z * Z := (mklit (fst x) true, mklit (snd x) true).
Definition pos_pair (l : list nat) : list (Z * Z) := match l with [a; b] => [(mklit a false, mklit b false)] | _ => [] end.
Definition sas_facts (x : nat * nat) : list nat := seq (fst x) (S (snd x) - fst x).
(** 51-86: the invariants in the order of insertion *)
Definition parsed_clauses (X : parsed) : list (Z * Z) :=
  flat_map (fun l => match l with [a; b] => [(a, b)] | _ => [] end) (x_inv X) ++
  flat_map (fun l => map neg_pair (pairs l) ++ pos_pair l) (x_strict X) ++
  flat_map (fun l => map neg_pair (pairs l)) (x_mutex X) ++
  flat_map (fun x => map neg_pair (pairs (sas_facts x)) ++ pos_pair (sas_facts x)) (x_sas X).
Definition insert_all (n : nat) (bi : list (list Z)) (l : list (Z * Z)) : option (list (list Z)) := ofold (fun bi '(a, b) => insert_invariant n bi a b) l bi.

Section Iter.
(** The order in which an unordered_set is iterated *)
Variable order : list Z -> list Z.

(** 98-111: the queue of the resolution *)
Definition initial_queue (n : nat) (bi : list (list Z)) : list (Z * Z) :=
  flat_map (fun '(i, s) => let l := Z.of_nat i - Z.of_nat n in flat_map (fun j => if Nat.ltb (lfact l) (lfact j) then [(l, j)] else []) (order s)) (enum_from 0 bi).

(** 122-130, 133-141: resolution of the clause (x, y) with the clauses (-x-1, j). If the set that is iterated is changed (j = -x-1) the iterators may become invalid. *)
Definition resolve_with (n : nat) (x y : Z) (st : list (list Z) * list (Z * Z)) (j : Z) : option (list (list Z) * list (Z * Z)) :=
  let '(bi, q) := st in
  if - j - 1 =? y then Some st
  else
    s <- at_lit n bi y ;;
    if count s j then Some st
    else if j =? - x - 1 then None
    else bi' <- insert_invariant n bi y j ;; Some (bi', q ++ [(y, j)]).
Definition resolve (n : nat) (x y : Z) (st : list (list Z) * list (Z * Z)) : option (list (list Z) * list (Z * Z)) :=
  s <- at_lit n (fst st) (- x - 1) ;;
  ofold (resolve_with n x y) (order s) st.
(** 115-147 *)
Fixpoint resolution (n : nat) (fuel : nat) (bi : list (list Z)) (q : list (Z * Z)) : option (list (list Z)) :=
  match fuel with
  | O => None
  | S fuel' =>
      match q with
      | [] => Some bi
      | (a, b) :: r =>
          st1 <- resolve n a b (bi, r) ;;
          '(bi2, q2) <- resolve n b a st1 ;;
          resolution n fuel' bi2 q2
      end
  end.

(** 153-180: inference from the SAS+ variable [x] for the literal of set [i] *)
Definition sas_infer (n : nat) (st : list (list Z) * list (Z * Z)) (y : nat * (nat * nat)) : option (list (list Z) * list (Z * Z)) :=
  let '(bi, q) := st in
  let '(i, (first, last)) := y in
  let l := Z.of_nat i - Z.of_nat n in
  if Nat.eqb first last then Some st
  else if Nat.leb first (lfact l) && Nat.leb (lfact l) last then Some st
  else
    s <- get bi i ;;
    match filter (fun f => negb (count s (mklit f true))) (sas_facts (first, last)) with
    | [f] => if count s (mklit f false) then Some st
             else bi' <- insert_invariant n bi (mklit f false) l ;; Some (bi', q ++ [(mklit f false, l)])
    | _ => Some st
    end.
Definition sas_inference (n : nat) (X : parsed) (bi : list (list Z)) : option (list (list Z) * list (Z * Z)) :=
  ofold (sas_infer n) (flat_map (fun i => map (fun x => (i, x)) (x_sas X)) (seq 0 (2 * n))) (bi, []).
(** 115-183 *)
Fixpoint close_invariants (n : nat) (X : parsed) (inner fuel : nat) (bi : list (list Z)) (q : list (Z * Z)) : option (list (list Z)) :=
  match fuel with
  | O => None
  | S fuel' =>
      match q with
      | [] => Some bi
      | _ =>
          bi1 <- resolution n inner bi q ;;
          '(bi2, q2) <- sas_inference n X bi1 ;;
          close_invariants n X inner fuel' bi2 q2
      end
  end.
(** Every step of the loops takes an invariant out of the queue; every invariant enters it at most once. *)
Definition inv_fuel (n : nat) : nat := S (4 * (2 * n * (2 * n))).
(** 45-190 *)
Definition extract_invariants (n : nat) (X : parsed) : option (list (list Z)) :=
  bi <- insert_all n (repeat [] (2 * n)) (parsed_clauses X) ;;
  close_invariants n X (inv_fuel n) (inv_fuel n) bi (initial_queue n bi).
End Iter.

(** 516-518, SearchEngine.cpp 465-466: the invariants before SAT planning starts *)
Definition all_invariants (order : list Z -> list Z) (P : problem) (X : parsed) (mutexes : bool) : option (list (list Z)) :=
  bi <- extract_invariants order (p_nfacts P) X ;;
  if mutexes then v <- rintanen P ;; insert_all (p_nfacts P) bi v else Some bi.
