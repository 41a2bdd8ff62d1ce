(** Model of the delete- and ordering-free ILP heuristic, src/heuristics/dofHeuristics/hhDOfree.cpp. The model is the program given to the solver. A variable is
    named by what its index array stands for: [UF f] is v[iUF[f]], [UA t] is v[iUA[t]], [MV m] is v[iM[m]], [EV a i] is v[iE[EStartI[a] + i]], [TP f] is
    v[iTP[f]], [TA a] is v[iTA[a]]; a variable that occurs without being declared is a stale index of an earlier call. Expressions are sums with the variables
    on the left hand side and the constants on the right hand side. An access outside an array is [None].
    Modelled options: all of IntType, BoolType, csSetting, csPg, csLmcLms, csNetChange, cAndOrLmsNone, cAndOrLmsOnlyTnI, cTdgAllowUC. Not modelled:
    cTdgFull (lines 102-256 and 657-776, see Tdg_model), the implications of cAndOrLmsFull (842-927, see Imp_model), external landmarks (compiled with TRACKLMSFULL only). *)
From Verif Require Import Base Htn_problem IntUtil_model Tab_model Pg_model Lm_spec Dof_spec.
Local Open Scope Z_scope.

(** hhDOfree.h 33-53 *)
Inductive setting := Satisficing | Optimal.
Inductive pg_kind := PgFull | PgTimeRelaxed | PgNone.
Record dof_opts := { o_setting : setting; o_pg : pg_kind; o_net : bool }.

(** A loop that appends a list per element. *)
Definition oflat {A B} (f : A -> option (list B)) (l : list A) : option (list B) := ls <- omap f l ;; Some (concat ls).
(** Elements with their indices. *)
Definition enum {A} (l : list A) : list (nat * A) := combine (seq 0 (length l)) l.
(** The forms of the constraints. *)
Definition ge0 (ts : list (Z * var)) : lin := {| l_terms := ts; l_rel := GE; l_rhs := 0 |}.
Definition ge1 (ts : list (Z * var)) : lin := {| l_terms := ts; l_rel := GE; l_rhs := 1 |}.
Definition eqc (ts : list (Z * var)) (c : Z) : lin := {| l_terms := ts; l_rel := EQ; l_rhs := c |}.

(** The elements before the first one that fails. *)
Fixpoint take_while {A} (p : A -> bool) (l : list A) : list A :=
  match l with [] => [] | x :: r => if p x then x :: take_while p r else [] end.
(** The loops over the reachable actions, hhDOfree.cpp 496-497, 520-521, 534-535, 559-561, 592-594, 606-608: they end with the first task that is not an action. *)
Definition acts (P : problem) (r : pg_result) : list nat := take_while (fun t => Nat.ltb t (length (p_cost P))) (r_tasks r).
(** noDelIntSet::get *)
Definition useful (r : pg_result) (f : nat) : bool := memb f (r_useful r).

(** hhDOfree.cpp 63-93: the actions and positions of an add effect; the lists are reversed when they are copied *)
Definition inv_adds (P : problem) (f : nat) : list (nat * nat) :=
  rev (flat_map (fun '(a, l) => flat_map (fun '(i, g) => if Nat.eqb g f then [(a, i)] else []) (enum l)) (enum (p_add P))).

(** hhDOfree.cpp 498-507: the useful add effects of an action *)
Definition e_list (P : problem) (r : pg_result) (a : nat) : option (list (nat * nat)) :=
  l <- get (p_add P) a ;; Some (filter (fun '(_, f) => useful r f) (enum l)).
(** hhDOfree.cpp 563-565: the useful preconditions of an action *)
Definition p_list (P : problem) (r : pg_result) (a : nat) : option (list nat) :=
  l <- get (p_prec P) a ;; Some (filter (useful r) l).

(** hhDOfree.cpp 463-529 *)
Definition dof_vars (P : problem) (o : dof_opts) (r : pg_result) : option (list (var * (Z * Z))) :=
  let n := Z.of_nat (length (p_cost P)) in
  es <- oflat (fun a => l <- e_list P r a ;; Some (map (fun '(i, _) => (EV a i, (0, 1))) l)) (acts P r) ;;
  Some (map (fun f => (UF f, (0, 1))) (r_useful r) ++ map (fun t => (UA t, (0, INT_MAX))) (r_tasks r) ++ map (fun m => (MV m, (0, INT_MAX))) (r_meths r) ++ es ++
        match o_pg o with
        | PgNone => []
        | _ => map (fun f => (TP f, (0, n))) (r_useful r) ++ map (fun a => (TA a, (0, n))) (acts P r)
        end).

(** hhDOfree.cpp 531-550 *)
Definition dof_obj (P : problem) (o : dof_opts) (r : pg_result) : option (list (Z * var)) :=
  match o_setting o with
  | Optimal => omap (fun a => c <- get (p_cost P) a ;; Some (Z.of_nat c, UA a)) (acts P r)
  | Satisficing => Some (map (fun a => (1, UA a)) (acts P r) ++ map (fun m => (1, MV m)) (r_meths r))
  end.

(** hhDOfree.cpp 553-557 *)
Definition c1 (P : problem) (r : pg_result) : list lin := map (fun f => eqc [(1, UF f)] 1) (filter (useful r) (p_goal P)).
(** hhDOfree.cpp 562-573 *)
Definition c23 (P : problem) (r : pg_result) (a : nat) : option (list lin) :=
  ps <- p_list P r a ;;
  es <- e_list P r a ;;
  Some (map (fun p => ge0 [(100, UF p); (-1, UA a)]) ps ++ map (fun '(i, _) => ge0 [(1, UA a); (-1, EV a i)]) es).
(** hhDOfree.cpp 576-588 *)
Definition c4 (P : problem) (r : pg_result) (f : nat) : lin :=
  eqc (map (fun '(a, i) => (1, EV a i)) (filter (fun '(a, _) => taskReachable r a) (inv_adds P f)) ++ [(-1, UF f)]) 0.
(** hhDOfree.cpp 591-603 *)
Definition c5 (P : problem) (r : pg_result) (a : nat) : option (list lin) :=
  ps <- p_list P r a ;; Some (map (fun p => ge0 [(1, TA a); (-1, TP p)]) ps).
(** hhDOfree.cpp 605-621 *)
Definition c6 (P : problem) (r : pg_result) (a : nat) : option (list lin) :=
  let n := Z.of_nat (length (p_cost P)) in
  es <- e_list P r a ;; Some (map (fun '(i, f) => {| l_terms := [(1, TA a); (-1, TP f); (n + 1, EV a i)]; l_rel := LE; l_rhs := n |}) es).
(** hhDOfree.cpp 552-623 *)
Definition pg_cons (P : problem) (o : dof_opts) (r : pg_result) : option (list lin) :=
  match o_pg o with
  | PgNone => Some []
  | k =>
      l23 <- oflat (c23 P r) (acts P r) ;;
      l56 <- match k with
             | PgFull => l5 <- oflat (c5 P r) (acts P r) ;; l6 <- oflat (c6 P r) (acts P r) ;; Some (l5 ++ l6)
             | _ => Some []
             end ;;
      Some (c1 P r ++ l23 ++ map (c4 P r) (r_useful r) ++ l56)
  end.

(** hhDOfree.cpp 625-634: tup *)
Definition tup (P : problem) (r : pg_result) (t : nat) : option (list (Z * var)) :=
  oflat (fun m => md <- get (p_methods P) m ;; Some (map (fun _ => (1, MV m)) (filter (Nat.eqb t) (m_subs md)))) (r_meths r).
(** hhDOfree.cpp 638-643 *)
Definition tn_count (T : ctable) (t : nat) : option Z :=
  i <- ct_index T 0 (Z.of_nat t) ;;
  if Z.leb 0 i then '(_, c) <- get T (Z.to_nat i) ;; Some c else Some 0.
(** Model.h: taskToMethods (C18) *)
Definition methods_of (P : problem) (t : nat) : list nat := map fst (filter (fun '(_, md) => Nat.eqb (m_task md) t) (enum (p_methods P))).
(** hhDOfree.cpp 636-655 *)
Definition htn_cons (P : problem) (r : pg_result) (T : ctable) (t : nat) : option (list lin) :=
  u <- tup P r t ;;
  c <- tn_count T t ;;
  Some (eqc (u ++ [(-1, UA t)]) (- c) ::
        if Nat.leb (length (p_cost P)) t then [eqc (map (fun m => (1, MV m)) (filter (methodReachable r) (methods_of P t)) ++ [(-1, UA t)]) 0] else []).

(** hhDOfree.cpp 795-814: a cut is firstMethod and the elements *)
Definition cut_cons (r : pg_result) (cut : nat * list Z) : lin :=
  ge1 (flat_map (fun '(i, z) => let k := Z.to_nat z in
         if Nat.ltb i (fst cut) then if taskReachable r k then [(1, UA k)] else [] else if methodReachable r k then [(1, MV k)] else []) (enum (snd cut))).
(** hhDOfree.cpp 816-841 *)
Definition lm_cons (r : pg_result) (s : list bool) (e : elem) : option (list lin) :=
  match e with
  | EF f => b <- get s f ;; Some (if negb b && useful r f then [ge1 [(1, UF f)]] else [])
  | EM m => Some (if methodReachable r m then [ge1 [(1, MV m)]] else [])
  | ET t => Some (if taskReachable r t then [ge1 [(1, UA t)]] else [])
  end.

(** ** Net change. [V]: firstIndex and lastIndex of the variables *)
(** hhDOfree.cpp 260-265: the last variable whose interval contains the fact; [None] is an uninitialised cell. *)
Definition var_of (V : list (nat * nat)) (f : nat) : option (nat * nat) := find (fun '(a, b) => Nat.leb a f && Nat.leb f b) (rev V).
(** hhDOfree.cpp 277-283: the first value of the variable that is a precondition *)
Fixpoint prec_in (pre : list nat) (fs : list nat) : option (option nat) :=
  match fs with
  | [] => Some None
  | i :: fs' => b <- containsInt (map Z.of_nat pre) 0 (length pre) (Z.of_nat i) ;; if b : bool then Some (Some i) else prec_in pre fs'
  end.
(** hhDOfree.cpp 267-295. The entries (fact, action) of tAP, tSP, tAC *)
Record nc_tab := { n_ap : list (nat * nat); n_sp : list (nat * nat); n_ac : list (nat * nat) }.
Definition nc_eff (P : problem) (V : list (nat * nat)) (a : nat) (x : nc_tab) (eff : nat) : option nc_tab :=
  '(fi, la) <- var_of V eff ;;
  pre <- get (p_prec P) a ;;
  p <- prec_in pre (seq fi (S la - fi)) ;;
  match p with
  | Some prec => if Nat.eqb prec eff then Some x else Some {| n_ap := (eff, a) :: n_ap x; n_sp := n_sp x; n_ac := (prec, a) :: n_ac x |}
  | None => Some {| n_ap := n_ap x; n_sp := (eff, a) :: n_sp x; n_ac := n_ac x |}
  end.
Definition nc_act (P : problem) (V : list (nat * nat)) (x : nc_tab) (a : nat) : option nc_tab :=
  adds <- get (p_add P) a ;; ofold (nc_eff P V a) adds x.
Definition nc_tables (P : problem) (V : list (nat * nat)) : option nc_tab :=
  if forallb (fun '(_, b) => Nat.ltb b (p_nfacts P)) V then ofold (nc_act P V) (seq 0 (length (p_cost P))) {| n_ap := []; n_sp := []; n_ac := [] |} else None.
(** hhDOfree.cpp 297-318: the set of the actions of a fact, ascending *)
Definition row (na : nat) (l : list (nat * nat)) (f : nat) : list nat := filter (fun a => existsb (fun '(g, b) => Nat.eqb g f && Nat.eqb b a) l) (seq 0 na).
(** hhDOfree.cpp 929-979; the test for other values of the variable in the goal (936-946) has no influence but reads vOfL[f] *)
Definition net_con (P : problem) (V : list (nat * nat)) (r : pg_result) (s : list bool) (x : nc_tab) (f : nat) : option (list lin) :=
  if negb (useful r f) then Some [] else
  let g := map Z.of_nat (p_goal P) in
  inG <- containsInt g 0 (length g) (Z.of_nat f) ;;
  _ <- (if (inG : bool) then Some (0%nat, 0%nat) else var_of V f) ;;
  b <- get s f ;;
  let l := if (b : bool) then if (inG : bool) then 0 else -1 else if (inG : bool) then 1 else 0 in
  let on := fun c rw => map (fun a => (c, UA a)) (filter (taskReachable r) rw) in
  let n := length (p_cost P) in
  Some [ {| l_terms := on 1 (row n (n_ap x) f) ++ on 1 (row n (n_sp x) f) ++ on (-1) (row n (n_ac x) f); l_rel := GE; l_rhs := l |} ].
(** hhDOfree.cpp 929-979 *)
Definition net_cons (P : problem) (V : list (nat * nat)) (o : dof_opts) (r : pg_result) (s : list bool) : option (list lin) :=
  if o_net o then x <- nc_tables P V ;; oflat (net_con P V r s x) (seq 0 (p_nfacts P)) else Some [].

(** ** The whole program *)
(** hhDOfree.cpp 459-979 *)
Definition dof_ilp (P : problem) (V : list (nat * nat)) (o : dof_opts) (r : pg_result) (s : list bool) (T : ctable) (cuts : list (nat * list Z)) (lms : list elem) : option ilp :=
  vs <- dof_vars P o r ;;
  ob <- dof_obj P o r ;;
  pc <- pg_cons P o r ;;
  hc <- oflat (htn_cons P r T) (r_tasks r) ;;
  lc <- oflat (lm_cons r s) lms ;;
  nc <- net_cons P V o r s ;;
  Some {| i_vars := vs; i_obj := ob; i_cons := pc ++ hc ++ map (cut_cons r) cuts ++ lc ++ nc |}.

Inductive outcome := Dead | Zero | Solve (J : ilp).
(** hhDOfree.cpp 428-461. [cuts]: the cuts of LM-cut, [None] if it returns UNREACHABLE (without cLmcLmsFull: [Some []]); [lms]: the AND/OR landmarks of the node
    (without cAndOrLmsOnlyTnI: []); [T]: containedTasks and containedTaskCount *)
Definition dof_model (P : problem) (V : list (nat * nat)) (o : dof_opts) (r : pg_result) (s : list bool) (T : ctable) (cuts : option (list (nat * list Z))) (lms : list elem) : option outcome :=
  match cuts with
  | None => Some Dead
  | Some cs =>
      gs <- omap (factReachable r) (p_goal P) ;;
      if negb (forallb (fun b => b) gs) then Some Dead
      else if negb (forallb (fun '(t, _) => taskReachable r (Z.to_nat t)) T) then Some Dead
      else match T with
      | [] => Some Zero
      | _ => J <- dof_ilp P V o r s T cs lms ;; Some (Solve J)
      end
  end.

(** hhDOfree.cpp 981-1032, 392-409: the value of the heuristic, [None] is UNREACHABLE *)
Definition dof_value (ip : bool) (c : outcome) (h : option Z) : Prop :=
  match c with Dead => h = None | Zero => h = Some 0 | Solve J => solver_result ip J h end.
