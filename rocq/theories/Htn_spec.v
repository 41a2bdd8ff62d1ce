(** Textbook semantics of (grounded, partially ordered) HTN planning, independent of the search model.
    Only the input data ([problem], [method]) is shared with the model. *)
From Coq Require Import List Arith Relations.
Import ListNotations.
From Verif Require Import Htn_problem.

(** ** States and actions (delete-then-add STRIPS semantics) *)

Definition state := nat -> Prop.

Definition precs (P : problem) (a f : nat) : Prop := exists l, nth_error (p_prec P) a = Some l /\ In f l.
Definition adds (P : problem) (a f : nat) : Prop := exists l, nth_error (p_add P) a = Some l /\ In f l.
Definition dels (P : problem) (a f : nat) : Prop := exists l, nth_error (p_del P) a = Some l /\ In f l.

Definition applicable (P : problem) (s : state) (a : nat) : Prop := forall f, precs P a f -> s f.
Definition result (P : problem) (s : state) (a : nat) : state :=
  fun f => adds P a f \/ (s f /\ ~ dels P a f).

(** Executing a sequence of actions. *)
Fixpoint executable (P : problem) (s : state) (plan : list nat) : Prop :=
  match plan with
  | [] => True
  | a :: r => applicable P s a /\ executable P (result P s a) r
  end.
Fixpoint after (P : problem) (s : state) (plan : list nat) : state :=
  match plan with
  | [] => s
  | a :: r => after P (result P s a) r
  end.

Definition initial_state (P : problem) : state := fun f => In f (p_s0 P).
Definition goal_state (P : problem) (s : state) : Prop := forall f, In f (p_goal P) -> s f.

Definition primitive (P : problem) (t : nat) : Prop := nth_error (p_prim P) t = Some true.

(** The cost of a plan. *)
Definition cost_of (P : problem) (a : nat) : nat := nth a (p_cost P) 0.
Definition plan_cost (P : problem) (plan : list nat) : nat := list_sum (map (cost_of P) plan).

(** ** Task networks *)

(** A task is identified by its address in the decomposition tree: the [j]-th subtask of the task [x] is
    [x ++ [j]]. *)
Definition tid := list nat.

Record tnet := {
  t_in : tid -> Prop;              (* the tasks of the network *)
  t_lab : tid -> nat;              (* their names *)
  t_ord : tid -> tid -> Prop }.    (* t_ord x y: x has to be executed before y *)

Definition m_before (m : method) (j k : nat) : Prop := In (j, k) (m_ord m).
(** Order of the subtasks of a method: the transitive closure of the given orderings. *)
Definition m_lt (m : method) : nat -> nat -> Prop := clos_trans nat (m_before m).

(** [tn'] results from [tn] by decomposing the task [x] with method [m]. *)
Record decomposes (P : problem) (tn : tnet) (x : tid) (m : method) (tn' : tnet) : Prop := {
  d_method : In m (p_methods P);
  d_in : t_in tn x;
  d_lab : t_lab tn x = m_task m;
  d_in' : forall y, t_in tn' y <->
            (t_in tn y /\ y <> x) \/ (exists j, j < length (m_subs m) /\ y = x ++ [j]);
  d_lab_old : forall y, t_in tn y -> y <> x -> t_lab tn' y = t_lab tn y;
  d_lab_new : forall j t, nth_error (m_subs m) j = Some t -> t_lab tn' (x ++ [j]) = t;
  d_ord : forall y z, t_ord tn' y z <->
       (* untouched orderings *)
       (t_in tn y /\ t_in tn z /\ y <> x /\ z <> x /\ t_ord tn y z)
       (* orderings of the method *)
    \/ (exists j k, j < length (m_subs m) /\ k < length (m_subs m) /\
                    y = x ++ [j] /\ z = x ++ [k] /\ m_lt m j k)
       (* what was after x is after all subtasks, what was before x is before all subtasks *)
    \/ (exists j, j < length (m_subs m) /\ y = x ++ [j] /\ t_in tn z /\ z <> x /\ t_ord tn x z)
    \/ (exists k, k < length (m_subs m) /\ z = x ++ [k] /\ t_in tn y /\ y <> x /\ t_ord tn y x) }.

Inductive refines (P : problem) : tnet -> tnet -> Prop :=
| ref_refl : forall tn, refines P tn tn
| ref_step : forall tn x m tn' tn'',
    decomposes P tn x m tn' -> refines P tn' tn'' -> refines P tn tn''.

(** The initial network: just the initial task. *)
Definition initial_network (P : problem) : tnet :=
  {| t_in := fun x => x = []; t_lab := fun _ => p_init P; t_ord := fun _ _ => False |}.

(** [L] lists every task of [tn] exactly once and respects the order. *)
Definition linearisation (tn : tnet) (L : list tid) : Prop :=
  NoDup L /\ (forall x, In x L <-> t_in tn x) /\
  (forall i j x y, nth_error L i = Some x -> nth_error L j = Some y -> t_ord tn x y -> i < j).

(** A plan solves [tn] in state [s]: some refinement of [tn] consists of primitive tasks only and has a linearisation
    whose task names are the plan; the plan is executable in [s] and reaches the goal. *)
Definition solves (P : problem) (s : state) (tn : tnet) (plan : list nat) : Prop :=
  exists tn' L,
    refines P tn tn' /\
    (forall x, t_in tn' x -> primitive P (t_lab tn' x)) /\
    linearisation tn' L /\
    plan = map (t_lab tn') L /\
    executable P s plan /\
    goal_state P (after P s plan).

Definition solution (P : problem) (plan : list nat) : Prop :=
  solves P (initial_state P) (initial_network P) plan.

(** ** Well-formed inputs *)

(** What the reader of the planner guarantees or silently relies on: all indices are in range, every
    method has at least one subtask (Model.cpp 1877-1884 exits otherwise), the orderings of each method are acyclic, primitive
    tasks are exactly the actions and are not decomposed, and the initial task is abstract. *)
Record wf_method (P : problem) (m : method) : Prop := {
  wfm_task : nth_error (p_prim P) (m_task m) = Some false;
  wfm_subs : forall t, In t (m_subs m) -> t < length (p_prim P);
  wfm_nonempty : m_subs m <> [];
  wfm_ord : forall j k, In (j, k) (m_ord m) -> j < length (m_subs m) /\ k < length (m_subs m);
  wfm_acyclic : forall j, ~ m_lt m j j }.

Record wf_problem (P : problem) : Prop := {
  wf_prec : length (p_prec P) = length (p_cost P);
  wf_add : length (p_add P) = length (p_cost P);
  wf_del : length (p_del P) = length (p_cost P);
  wf_prim : forall t, nth_error (p_prim P) t = Some true -> t < length (p_cost P);
  wf_facts : forall l f, In l (p_prec P) \/ In l (p_add P) \/ In l (p_del P) -> In f l -> f < p_nfacts P;
  wf_s0 : forall f, In f (p_s0 P) -> f < p_nfacts P;
  wf_goal : forall f, In f (p_goal P) -> f < p_nfacts P;
  wf_init : nth_error (p_prim P) (p_init P) = Some false;
  wf_methods : forall m, In m (p_methods P) -> wf_method P m }.
