(** Symbolic variables and transition relations of the symbolic planner (src/symbolic_search/sym_variables.cpp,
    transition_relation.cpp).

    The BDD package (CUDD) is not modelled: a BDD is the boolean function that it represents, the operations of the package are
    the corresponding operations on boolean functions. Memory limits and the division by the number of BDD variables
    (sym_variables.cpp 84, 87, undefined for a problem without variables) are not modelled. The variable order is the identity
    (var_ordering is the constant false, sym_variables.cpp 22, 26-31). *)
From Verif Require Import Base Htn_problem.

(** ** Operations of the package *)

(** A boolean function of the BDD variables. *)
Definition bdd := (nat -> bool) -> bool.
(** bddOne, bddZero, bddVar, operator*, operator+, operator!, Xnor *)
Definition one : bdd := fun _ => true.
Definition zero : bdd := fun _ => false.
Definition bvar (v : nat) : bdd := fun r => r v.
Definition conj (f g : bdd) : bdd := fun r => f r && g r.
Definition disj (f g : bdd) : bdd := fun r => f r || g r.
Definition neg (f : bdd) : bdd := fun r => negb (f r).
Definition xnor (f g : bdd) : bdd := fun r => eqb (f r) (g r).
(** The valuation with the value of one variable changed. *)
Definition put (r : nat -> bool) (v : nat) (b : bool) : nat -> bool := fun u => if u =? v then b else r u.
(** AndAbstract(g, cube): the conjunction, with the variables of the cube existentially quantified. *)
Fixpoint exq (vs : list nat) (f : bdd) : bdd :=
  match vs with
  | [] => f
  | v :: l => fun r => exq l f (put r v true) || exq l f (put r v false)
  end.
Definition and_abstract (f g : bdd) (vs : list nat) : bdd := exq vs (conj f g).
(** SwapVariables(x, y): x[i] and y[i] are exchanged. *)
Fixpoint sw (xs ys : list nat) (v : nat) : nat :=
  match xs, ys with
  | x :: xs', y :: ys' => if v =? x then y else if v =? y then x else sw xs' ys' v
  | _, _ => v
  end.
Definition swap (xs ys : list nat) (f : bdd) : bdd := fun r => f (fun v => r (sw xs ys v)).

(** ** Variables (sym_variables.cpp) *)

(** A variable of the input: firstIndex and lastIndex. *)
Notation var := (nat * nat)%type.
(** isStripsVariable (287-289) *)
Definition is_strips (v : var) : bool := fst v =? snd v.
(** getDomainSize (275-285) *)
Definition dom_size (v : var) : nat := if is_strips v then 2 else S (snd v) - fst v.
(** var_len (64): ceil(log2(size)); the logarithm of a double is taken to be exact. *)
Definition var_len (v : var) : nat := Nat.log2_up (dom_size v).

(** bdd_index_pre (56-79); bdd_index_eff and bdd_index_aux are the next two numbers (68, 71). *)
Fixpoint indices (n : nat) (V : list var) : list (list nat) :=
  match V with
  | [] => []
  | v :: r => map (fun j => n + 3 * j) (seq 0 (var_len v)) :: indices (n + 3 * var_len v) r
  end.
Definition pre_index (V : list var) (i : nat) : list nat := nth i (indices 0 V) [].
Definition eff_index (V : list var) (i : nat) : list nat := map (fun x => x + 1) (pre_index V i).
Definition aux_index (V : list var) (i : nat) : list nat := map (fun x => x + 2) (pre_index V i).

(** generateBDDVar (241-253) *)
Fixpoint gen_bdd (idx : list nat) (value : nat) : bdd :=
  match idx with
  | [] => one
  | v :: r => conj (if Nat.odd value then bvar v else neg (bvar v)) (gen_bdd r (value / 2))
  end.
(** createPreconditionBDD, createEffectBDD (sym_variables.h 204-210); preBDD, effBDD read the tables filled with them (108-116); a value
    outside the domain is a read outside the table. *)
Definition pre_bdd (V : list var) (i d : nat) : option bdd :=
  v <- get V i ;; if d <? dom_size v then Some (gen_bdd (pre_index V i) d) else None.
Definition eff_bdd (V : list var) (i d : nat) : option bdd :=
  v <- get V i ;; if d <? dom_size v then Some (gen_bdd (eff_index V i) d) else None.
(** createBiimplicationBDD (255-262) *)
Fixpoint biimp_bdd (xs ys : list nat) : bdd :=
  match xs, ys with
  | x :: xs', y :: ys' => conj (xnor (bvar x) (bvar y)) (biimp_bdd xs' ys')
  | _, _ => one
  end.

(** varOfStateBit (Model.cpp 1576-1577: the variables are visited in their order, so the last one that contains the fact counts) and the value of the fact. *)
Fixpoint var_of (i : nat) (V : list var) (b : nat) : option (nat * nat) :=
  match V with
  | [] => None
  | v :: r =>
      match var_of (S i) r b with
      | Some x => Some x
      | None => if (fst v <=? b) && (b <=? snd v) then Some (i, b - fst v) else None
      end
  end.

(** getPartialStateBDD (209-219) *)
Definition partial_bdd (V : list var) (bits : list nat) : option bdd :=
  ofold (fun res b => x <- var_of 0 V b ;; f <- pre_bdd V (fst x) (snd x) ;; Some (conj res f)) bits one.
(** getStateBDD (165-183): variables without a fact in the list get the value 1. *)
Definition state_bdd (V : list var) (bits : list nat) : option bdd :=
  res <- partial_bdd V bits ;;
  xs <- omap (fun b => x <- var_of 0 V b ;; Some (fst x)) bits ;;
  ofold (fun res i => if memb i xs then Some res else f <- pre_bdd V i 1 ;; Some (conj res f)) (seq 0 (length V)) res.

(** ** Transition relations (transition_relation.cpp) *)

(** std::map: the entries are sorted by their key. *)
Fixpoint mput {A} (m : list (nat * A)) (k : nat) (x : A) : list (nat * A) :=
  match m with
  | [] => [(k, x)]
  | (k', x') :: r => if k <? k' then (k, x) :: m else if k =? k' then (k, x) :: r else (k', x') :: mput r k x
  end.

(** tBDD, swapVarsS (the variables of existsVars), swapVarsSp (the variables of existsBwVars) *)
Record trel := { t_bdd : bdd; t_s : list nat; t_sp : list nat }.

(** init (19-91): preconditions (22-26), add effects (32-41), delete effects (44-55), the conjunction (57-70), the variables (76-90). The
    vector effVars is the sorted list of the keys of the map effects. The conditions of the effects are the constant false, so the
    branch 65-67 is not taken. *)
Definition tr_init (V : list var) (prec add del : list nat) : option trel :=
  t0 <- partial_bdd V prec ;;
  e1 <- ofold (fun e b => x <- var_of 0 V b ;; f <- eff_bdd V (fst x) (snd x) ;; Some (mput e (fst x) f)) add [] ;;
  e2 <- ofold (fun e b => x <- var_of 0 V b ;; v <- get V (fst x) ;;
                 if is_strips v then f <- eff_bdd V (fst x) (snd x) ;; Some (mput e (fst x) (neg f)) else Some e) del e1 ;;
  Some {| t_bdd := fold_left (fun t kf => conj t (snd kf)) (rev e2) t0;
          t_s := flat_map (pre_index V) (map fst e2);
          t_sp := flat_map (eff_index V) (map fst e2) |}.

(** image (93-98) *)
Definition image (t : trel) (from : bdd) : bdd := swap (t_s t) (t_sp t) (and_abstract (t_bdd t) from (t_s t)).
(** preimage (107-111) *)
Definition preimage (t : trel) (from : bdd) : bdd := and_abstract (t_bdd t) (swap (t_s t) (t_sp t) from) (t_sp t).

(** The transition relation of an action (automaton.cpp 1156-1161). *)
Definition trel_of (P : problem) (V : list var) (a : nat) : option trel :=
  prec <- get (p_prec P) a ;; add <- get (p_add P) a ;; del <- get (p_del P) a ;; tr_init V prec add del.
