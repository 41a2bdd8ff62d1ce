(** The bound with which the search of the translation starts (src/translation/htnToSAS.cpp 420-539), and the search itself
    (translationController.cpp 187-265).

    Addition of ints that exceeds INT_MAX is undefined ([PUndef]). Queue elements, their queues and the minimum over methods are those of
    calcMinimalImpliedX (Mix_model), from which the code was copied. The output of the running time is left out. *)
From Coq Require Import ZArith.
From Verif Require Import Base Htn_problem Htn_model Tab_model Mix_model Sas_model.

Local Open Scope Z_scope.

Section Loop.
  (** [st] is stToMethod; [rs] holds subTasksInOrder[m] and the number [off] of leading tasks left out (476-479) *)
  Variables (P : problem) (st : list (list Z)) (rs : list (list nat * nat)).

  (** htnToSAS.cpp 485-498: one subtask [x] at place [i]; [a] is minAdditionalDistance *)
  Definition sub_val (T : list Z) (t n off : nat) (a : Z) (ix : nat * nat) : option Z :=
    let k := Z.of_nat n - 1 - Z.of_nat (fst ix) - Z.of_nat off in
    let a' := if Nat.eqb (snd ix) t then (if a <? k then k else a) else a in
    v <- get T (snd ix) ;;
    let add := v - Z.of_nat n + Z.of_nat (fst ix) + Z.of_nat off in
    Some (if a' <? add then add else a').
  (** htnToSAS.cpp 475-499 *)
  Definition meth_val (T : list Z) (t : nat) (s : list nat) (off : nat) : option Z :=
    let r := (length s - off)%nat in
    a <- ofold (sub_val T t (length s) off) (combine (seq 0 r) (firstn r s)) 0 ;;
    iadd (if Z.of_nat r <? 1 then 1 else Z.of_nat r) a.

  (** htnToSAS.cpp 471-527: one iteration; [T] is minImpliedPGB, [M] is minImpliedPGBM *)
  Definition pgb_step (T M : list Z) (n : mnode) : option (list Z * list Z * list mnode) :=
    match n with
    | NM m =>
        md <- get (p_methods P) m ;;
        '(s, off) <- get rs m ;;
        c <- get M m ;;
        v <- meth_val T (m_task md) s off ;;
        M' <- set M m v ;;
        Some (T, M', if v =? c then [] else [NT (m_task md)])
    | NT t =>
        c <- get T t ;;
        v <- imin M (task_to_methods P t) ;;
        T' <- set T t v ;;
        q <- (if v =? c then Some [] else queue_methods st t) ;;
        Some (T', M, q)
    end.

  Inductive poutcome := PDone (T : list Z) | PUndef | PMore (T M : list Z) (q : list mnode).

  (** htnToSAS.cpp 470-528: [fuel] iterations of the loop *)
  Fixpoint pgb_loop (fuel : nat) (T M : list Z) (q : list mnode) : poutcome :=
    match q with
    | [] => PDone T
    | n :: r =>
        match fuel with
        | O => PMore T M q
        | S f => match pgb_step T M n with Some (T', M', a) => pgb_loop f T' M' (r ++ a) | None => PUndef end
        end
    end.
End Loop.

(** htnToSAS.cpp 440-529; the actions are the first tasks. [to]: the problem is totally ordered (476). *)
Definition order_methods (P : problem) (to : bool) : option (list (list nat * nat)) :=
  omap (fun m => '(s, f) <- reorder (p_prim P) m ;; Some (s, if to then f else O)) (p_methods P).
Definition pgb_init (P : problem) : list Z := repeat 1 (length (p_cost P)) ++ repeat 0 (length (p_prim P) - length (p_cost P)).
Definition minimal_bound (P : problem) (to : bool) (fuel : nat) : poutcome :=
  match order_methods P to, st_table P with
  | Some rs, Some (st, _) => match mix_queue P st with Some q => pgb_loop P st rs fuel (pgb_init P) (repeat 0 (length (p_methods P))) q | None => PUndef end
  | _, _ => PUndef
  end.

(** minProgressionBound (htnToSAS.cpp 421-427) *)
Definition first_bound (P : problem) (T : list Z) : option Z := i <- get T (p_init P) ;; Some (if i <? 1 then 1 else i).

(** ** The search for a bound (translationController.cpp 215-265)

    [solve b] stands for performOneTranslation, printSASToFile and runFD with bound [b] (221-236): the planner writes a plan file, or ends with an error code;
    [None]: undefined behaviour. The bounds in pgbList are all equal (192-203, 243-245) and given as one number. *)
Inductive fdout (A : Type) := FdPlan (pl : A) | FdCode (c : Z).
Arguments FdPlan {A} _.
Arguments FdCode {A} _.
Inductive sresult (A : Type) := SFound (b : Z) (pl : A) | SStopped | SMax | SCode (c : Z) | SUndef | SMore (b : Z).
Arguments SFound {A} _ _.
Arguments SStopped {A}.
Arguments SMax {A}.
Arguments SCode {A} _.
Arguments SUndef {A}.
Arguments SMore {A} _.

(** The error codes for which the bound is increased (238) *)
Definition retry (c : Z) : bool := ((c =? 3072) || (c =? 2816) || (c =? 512) || (c =? 1280) || (10 <? c))%bool.
(** maxProgressionBound (htnToSAS.cpp 428-430) *)
Definition max_bound : Z := 5000000.

Section Search.
  Context {A : Type}.
  Variables (solve : nat -> option (fdout A)) (iterate : bool) (steps : Z).
  (** 219-260, without onlyGenerate; [fuel] iterations *)
  Fixpoint search (fuel : nat) (b : Z) : sresult A :=
    match fuel with
    | O => SMore b
    | S f =>
        match solve (Z.to_nat b) with
        | None => SUndef
        | Some (FdPlan pl) => SFound b pl
        | Some (FdCode c) =>
            if retry c then
              if iterate then
                match iadd b steps with
                | None => SUndef
                | Some b' => if max_bound <? b' then SMax else search f b'
                end
              else SStopped
            else SCode c
        end
    end.
End Search.
