(** Semantics of the written planning task, and the inputs for which it is correct. *)
From Coq Require Import List Arith.
Import ListNotations.
From Verif Require Import Htn_problem Htn_spec To_spec Sas_model.

(** ** Planning tasks in finite domain representation *)

Definition holds (s : list nat) (p : nat * nat) : Prop := nth_error s (fst p) = Some (snd p).

Fixpoint assign (s : list nat) (v d : nat) : list nat :=
  match s, v with
  | [], _ => []
  | _ :: r, 0 => d :: r
  | x :: r, S v' => x :: assign r v' d
  end.

Definition fd_applicable (s : list nat) (o : fd_op) : Prop :=
  (forall p, In p (f_prev o) -> holds s p) /\ (forall v c d, In (v, Some c, d) (f_eff o) -> holds s (v, c)).
(** The effects are assignments, carried out in their order (the order matters only if a variable is assigned twice). *)
Definition fd_result (s : list nat) (o : fd_op) : list nat :=
  fold_left (fun s e => assign s (fst (fst e)) (snd e)) (f_eff o) s.

Inductive fd_run (T : fd_task) : list nat -> list (oname * fd_op) -> list nat -> Prop :=
| run_nil : forall s, fd_run T s [] s
| run_cons : forall s n o r s', In (n, o) (fd_ops T) -> fd_applicable s o -> fd_run T (fd_result s o) r s' ->
    fd_run T s ((n, o) :: r) s'.

(** A plan: a sequence of operators (with their names) from the initial state to a goal state. *)
Definition fd_plan (T : fd_task) (pl : list (oname * fd_op)) : Prop :=
  exists s, fd_run T (fd_init T) pl s /\ forall p, In p (fd_goal T) -> holds s p.
Definition fd_plan_cost (pl : list (oname * fd_op)) : nat := list_sum (map (fun o => f_cost (snd o)) pl).

(** Well-formed tasks: values lie in the domains. *)
Definition in_dom (T : fd_task) (p : nat * nat) : Prop := exists n, nth_error (fd_dom T) (fst p) = Some n /\ snd p < n.
Record fd_wf (T : fd_task) : Prop := {
  fw_init : length (fd_init T) = length (fd_dom T) /\ forall v d, nth_error (fd_init T) v = Some d -> in_dom T (v, d);
  fw_goal : forall p, In p (fd_goal T) -> in_dom T p;
  fw_prev : forall n o p, In (n, o) (fd_ops T) -> In p (f_prev o) -> in_dom T p;
  fw_eff : forall n o v c d, In (n, o) (fd_ops T) -> In (v, c, d) (f_eff o) -> in_dom T (v, d) /\ forall e, c = Some e -> in_dom T (v, e) }.

(** ** Variables of the input *)

(** The intervals of the variables are consecutive and cover all facts. *)
Fixpoint intervals (b : nat) (V : list (nat * nat)) (n : nat) : Prop :=
  match V with
  | [] => b = n
  | v :: r => fst v = b /\ b <= snd v /\ intervals (S (snd v)) r n
  end.

(** Fact [b] is the [d]-th fact of variable [i]. *)
Definition fact_of (V : list (nat * nat)) (i d b : nat) : Prop :=
  exists f l, nth_error V i = Some (f, l) /\ f + d = b /\ b <= l.
Definition of_var (V : list (nat * nat)) (i b : nat) : Prop := exists d, fact_of V i d b.
(** The variable has just one fact. *)
Definition single (V : list (nat * nat)) (i : nat) : Prop := exists f, nth_error V i = Some (f, f).

(** Exactly one fact of each variable with several facts is true. *)
Definition one_value (V : list (nat * nat)) (s : state) : Prop :=
  forall i, i < length V -> ~ single V i -> exists b, of_var V i b /\ forall c, of_var V i c -> (s c <-> c = b).
(** ... in every state reachable by executing actions. *)
Definition one_value_reach (P : problem) (V : list (nat * nat)) : Prop :=
  forall plan, executable P (initial_state P) plan -> one_value V (after P (initial_state P) plan).

(** ** Guards *)

(** No action has two different preconditions on the same variable. *)
Definition prec_functional (P : problem) (V : list (nat * nat)) : Prop :=
  forall a i b c, precs P a b -> precs P a c -> of_var V i b -> of_var V i c -> b = c.
(** No action adds and deletes the fact of a variable with one fact. *)
Definition single_effects (P : problem) (V : list (nat * nat)) : Prop :=
  forall a i b, single V i -> of_var V i b -> adds P a b -> dels P a b -> False.
(** The fact of the initial state is found by the loop that ends at s0Size (and if no variable is converted: the list has one fact for each variable, in their order). *)
Definition s0_found (P : problem) (V : list (nat * nat)) : Prop :=
  length (p_s0 P) <= length V /\
  (forall i b, In b (p_s0 P) -> of_var V i b -> i < length (p_s0 P)) /\
  ((forall i, ~ single V i) -> length (p_s0 P) = length V /\ forall i b, nth_error (p_s0 P) i = Some b -> of_var V i b).
(** The subtasks of each method are listed in the order in which they have to be executed. *)
Definition listed_in_order (P : problem) : Prop :=
  forall m, In m (p_methods P) -> total_seq m (seq 0 (length (m_subs m))).
(** The primitive tasks are the actions. *)
Definition actions_first (P : problem) : Prop := forall t, t < length (p_cost P) -> primitive P t.

(** The leading primitive subtasks of a method. *)
Definition leading (P : problem) (m : method) (l : list nat) : Prop :=
  exists r, m_subs m = l ++ r /\ (forall t, In t l -> primitive P t) /\ (forall t r', r = t :: r' -> ~ primitive P t).
(** Preconditions on the same variable that follow each other without an effect on it in between ask for the same value. *)
Definition precs_agree (P : problem) (V : list (nat * nat)) (l : list nat) : Prop :=
  forall l1 a l2 c l3 i x y, l = l1 ++ a :: l2 ++ c :: l3 -> of_var V i x -> of_var V i y -> precs P a x -> precs P c y ->
    (forall d z, In d (l1 ++ a :: l2) -> of_var V i z -> ~ adds P d z /\ ~ (single V i /\ dels P d z)) -> x = y.
Definition leading_agree (P : problem) (V : list (nat * nat)) : Prop :=
  forall m l, In m (p_methods P) -> leading P m l -> precs_agree P V l.

(** Operators whose leading primitive tasks were found not to be applicable in their order are written without conditions and effects. *)
Definition noop (o : fd_op) : bool := match f_prev o, f_eff o with [], [] => true | _, _ => false end.
(** The plan without these operators. *)
Definition effective (pl : list (oname * fd_op)) : list (oname * fd_op) := filter (fun o => negb (noop (snd o))) pl.

(** The inputs as they are written by the grounder. *)
Record to_base (P : problem) (V : list (nat * nat)) : Prop := {
  tb_wf : wf_problem P;
  tb_vars : intervals 0 V (p_nfacts P) /\ V <> [];
  tb_one : one_value_reach P V;
  tb_prec : prec_functional P V;
  tb_act : actions_first P }.
