(** Model of src/sat/sat_encoder.cpp: the clauses handed to the solver.
    Simplifications valid for the whole file: a clause is the list of its literals (ipasir_add with 0 ends a clause, so no literal may be 0); [int] is [Z]
    without overflow; the number of clauses and the debug names of variables are not modelled; a function that creates variables maps
    number_of_variables before the call to the clauses and number_of_variables after the call. *)
From Coq Require Import ZArith.
From Verif Require Import Base.

Local Open Scope Z_scope.

Definition clause := list Z.

(** sat_encoder.cpp 74-78, 80-84 *)
Definition assertYes (i : Z) : list clause := [[i]].
Definition assertNot (i : Z) : list clause := [[- i]].

(** sat_encoder.cpp 86-92 *)
Definition implies (i j : Z) : list clause := [[- i; j]].
(** sat_encoder.cpp 94-101 *)
Definition impliesAnd (i j k : Z) : list clause := [[- i; - j; k]].
(** sat_encoder.cpp 103-109 *)
Definition impliesNot (i j : Z) : list clause := [[- i; - j]].
(** sat_encoder.cpp 111-117 *)
Definition impliesOr (i : Z) (j : list Z) : list clause := [- i :: j].
(** sat_encoder.cpp 119-126 *)
Definition impliesPosAndNegImpliesOr (i j : Z) (k : list Z) : list clause := [- i :: j :: k].
(** sat_encoder.cpp 128-135 *)
Definition impliesAllNot (i : Z) (j : list Z) : list clause := map (fun x => [- i; - x]) j.
(** sat_encoder.cpp 137-144 *)
Definition notImpliesAllNot (i : Z) (j : list Z) : list clause := map (fun x => [i; - x]) j.
(** sat_encoder.cpp 263-268 *)
Definition atLeastOne (is : list Z) : list clause := [is].

(** sat_encoder.cpp 171-178 *)
Fixpoint atMostOneBinomial (is : list Z) : list clause :=
  match is with
  | [] => []
  | x :: r => flat_map (fun y => impliesNot x y) r ++ atMostOneBinomial r
  end.

(** sat_encoder.cpp 204-216: the clauses of the variable at position [i]; the auxiliary variables are base, base + 1, ... *)
Definition amo_bits (bits : nat) (base : Z) (i : nat) (v : Z) : list clause :=
  map (fun b => [- v; if Nat.testbit i b then - (base + Z.of_nat b) else base + Z.of_nat b]) (seq 0 bits).

(** sat_encoder.cpp 181-218. [bits n] is (int) ceil(log(n) / log(2)), computed with floating-point numbers; [1 << b] is defined for fewer
    than 2^31 elements. At least one auxiliary variable is created. *)
Definition atMostOne (bits : nat -> nat) (nv : Z) (is : list Z) : list clause * Z :=
  if Nat.leb (length is) 1 then ([], nv)
  else if Nat.ltb (length is) 256 then (atMostOneBinomial is, nv)
  else
    let k := bits (length is) in
    (flat_map (fun p => amo_bits k (nv + 1) (fst p) (snd p)) (combine (seq 0 (length is)) is), nv + 1 + Z.of_nat (k - 1)).

(** sat_encoder.cpp 221-260: blocks of 1 + max(0, K + 1) auxiliary variables, the i-th block begins with vars[i]. *)
Definition amk_base (K nv : Z) (i : nat) : Z := nv + 1 + Z.of_nat i * (1 + Z.max 0 (K + 1)).
Definition amk_step (K nv : Z) (i : nat) (v : Z) : list clause :=
  let a := amk_base K nv i in
  let b := amk_base K nv (S i) in
  flat_map (fun j => [[- v; - (a + Z.of_nat j); b + Z.of_nat j + 1]; [- (a + Z.of_nat j); b + Z.of_nat j]]) (seq 0 (Z.to_nat (K + 1)))
  ++ [[- (b + K + 1)]].
Definition atMostK (K nv : Z) (is : list Z) : list clause * Z :=
  (flat_map (fun p => amk_step K nv (fst p) (snd p)) (combine (seq 0 (length is)) is) ++ [[amk_base K nv 0]],
   amk_base K nv (S (length is)) - 1).

(** Emitting several groups of clauses one after the other. *)
Fixpoint emit_all (fs : list (Z -> list clause * Z)) (nv : Z) : list clause * Z :=
  match fs with
  | [] => ([], nv)
  | f :: r => let '(c, nv1) := f nv in let '(d, nv2) := emit_all r nv1 in (c ++ d, nv2)
  end.
