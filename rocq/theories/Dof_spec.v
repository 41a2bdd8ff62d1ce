(** Linear (integer) programs, their optima, and solutions of a node counted as a linear program does. Independent of the model of the heuristic. *)
From Coq Require Import List ZArith QArith Qround.
Import ListNotations.
From Verif Require Import Htn_problem Htn_spec Lm_spec.
Local Open Scope Z_scope.

(** The variables of the program: a fact is used (UF), how often a task (UA) or method (MV) is used, the [i]-th add effect of an action is the first achiever
    of its fact (EV), times of facts (TP) and actions (TA), a task of a cyclic component is reached within [k] steps (RV), by a step from another task (IV). *)
Inductive var := UF (f : nat) | UA (t : nat) | MV (m : nat) | EV (a i : nat) | TP (f : nat) | TA (a : nat) | RV (k t : nat) | IV (k t t' : nat).
Inductive rel := LE | GE | EQ.
(** sum of the terms (coefficient, variable) [l_rel] [l_rhs] *)
Record lin := { l_terms : list (Z * var); l_rel : rel; l_rhs : Z }.
(** [i_vars]: variables with lower and upper bound; [i_obj]: the sum to be minimised *)
Record ilp := { i_vars : list (var * (Z * Z)); i_obj : list (Z * var); i_cons : list lin }.

Definition value (x : var -> Q) (ts : list (Z * var)) : Q := fold_right (fun '(c, v) q => Qplus (Qmult (inject_Z c) (x v)) q) 0%Q ts.
Definition sat (x : var -> Q) (c : lin) : Prop :=
  match l_rel c with
  | LE => Qle (value x (l_terms c)) (inject_Z (l_rhs c))
  | GE => Qle (inject_Z (l_rhs c)) (value x (l_terms c))
  | EQ => Qeq (value x (l_terms c)) (inject_Z (l_rhs c))
  end.
Definition integral (x : var -> Q) : Prop := forall v, exists z, Qeq (x v) (inject_Z z).
(** [ip]: all variables have to be integers, otherwise all are real (here: rational; a linear program with integer data has rational optima) *)
Definition feasible (ip : bool) (I : ilp) (x : var -> Q) : Prop :=
  (if ip then integral x else True) /\
  (forall v lo hi, In (v, (lo, hi)) (i_vars I) -> Qle (inject_Z lo) (x v) /\ Qle (x v) (inject_Z hi)) /\
  (forall c, In c (i_cons I) -> sat x c).

(** round: half away from zero *)
Definition round (q : Q) : Z := if Qle_bool 0 q then Qfloor (q + (1 # 2)) else - Qfloor (- q + (1 # 2)).

(** What a correct solver returns: [None] if there is no feasible assignment, else the rounded minimum. *)
Inductive solver_result (ip : bool) (I : ilp) : option Z -> Prop :=
| sr_none : (forall x, ~ feasible ip I x) -> solver_result ip I None
| sr_some : forall x, feasible ip I x -> (forall y, feasible ip I y -> Qle (value x (i_obj I)) (value y (i_obj I))) -> solver_result ip I (Some (round (value x (i_obj I)))).

(** A cut (number of the first method, elements) is hit by the actions [plan] and the applied methods [ms]. *)
Definition hit (ms plan : list nat) (cut : nat * list Z) : Prop :=
  exists i x, nth_error (snd cut) i = Some (Z.of_nat x) /\ (((i < fst cut)%nat /\ In x plan) \/ ((fst cut <= i)%nat /\ In x ms)).
(** A landmark of a node is met by a solution: the fact holds at some time, the task is in the network or introduced by a method, the method is applied. *)
Definition met (P : problem) (s : state) (tn : tnet) (ms plan : list nat) (e : elem) : Prop :=
  match e with
  | EF f => (f < p_nfacts P)%nat /\ exists k, after P s (firstn k plan) f
  | ET t => (exists x, t_in tn x /\ t_lab tn x = t) \/ exists m md, In m ms /\ nth_error (p_methods P) m = Some md /\ In t (m_subs md)
  | EM m => In m ms
  end.
