(** Model of src/intDataStructures/IntPairHeap.h with T = int: a binary min-heap in two parallel arrays, cell 0 being a
    sentinel. Simplifications: [int] values are [Z] without overflow; indices are [nat]; the contents of freshly
    allocated memory is given by a function [al] from sizes to arrays (theorems quantify over it); the old
    arrays are dropped when growing. A [None] result stands for an access outside the arrays. *)
From Verif Require Import Base.
Local Open Scope Z_scope.

(** IntPairHeap.h 20-24. arraySize is the length of [hk]. *)
Record heap := { hk : list Z; hv : list Z; hnext : nat }.

(** std::numeric_limits<int>::min(). *)
Definition int_min : Z := -2147483648.

(** IntPairHeap.h 26-33 *)
Definition heap_new (al : nat -> list Z) (size : nat) : option heap :=
  ks <- set (al size) 0 int_min ;;
  vs <- set (al size) 0 int_min ;;
  Some {| hk := ks; hv := vs; hnext := 1 |}.

(** IntPairHeap.h 40-42 *)
Definition heap_isEmpty (h : heap) : bool := Nat.eqb (hnext h) 1.

(** IntPairHeap.h 44-46 *)
Definition heap_size (h : heap) : nat := (hnext h - 1)%nat.

(** IntPairHeap.h 48-50 *)
Definition heap_clear (h : heap) : heap := {| hk := hk h; hv := hv h; hnext := 1 |}.

(** IntPairHeap.h 54-62: doubling an array, copying the old cells. *)
Definition grow (al : nat -> list Z) (a : list Z) : list Z := a ++ skipn (length a) (al (length a * 2)%nat).

(** The exchanges of IntPairHeap.h 70-75 and 97-102. *)
Definition swap_cells (a : list Z) (i j : nat) : option (list Z) :=
  x <- get a i ;;
  y <- get a j ;;
  a1 <- set a i y ;;
  set a1 j x.

(** IntPairHeap.h 68-77. At [current] = 0 the comparison is of a cell with itself; fuel [S current] is enough. *)
Fixpoint sift_up (fuel : nat) (ks vs : list Z) (current : nat) : option (list Z * list Z) :=
  match fuel with
  | O => None
  | S f =>
      kc <- get ks current ;;
      kp <- get ks (Nat.div2 current) ;;
      if Z.ltb kc kp then
        ks' <- swap_cells ks current (Nat.div2 current) ;;
        vs' <- swap_cells vs current (Nat.div2 current) ;;
        sift_up f ks' vs' (Nat.div2 current)
      else Some (ks, vs)
  end.

(** IntPairHeap.h 52-79 *)
Definition heap_add (al : nat -> list Z) (h : heap) (key val : Z) : option heap :=
  let '(ks, vs) := if Nat.eqb (hnext h) (length (hk h)) then (grow al (hk h), grow al (hv h)) else (hk h, hv h) in
  ks1 <- set ks (hnext h) key ;;
  vs1 <- set vs (hnext h) val ;;
  '(ks2, vs2) <- sift_up (S (hnext h)) ks1 vs1 (hnext h) ;;
  Some {| hk := ks2; hv := vs2; hnext := S (hnext h) |}.

(** IntPairHeap.h 86-107, [n] = nextIndex (already decremented). Each round goes to a child, fuel [S n] is enough. *)
Fixpoint sift_down (fuel : nat) (ks vs : list Z) (n current : nat) : option (list Z * list Z) :=
  match fuel with
  | O => None
  | S f =>
      let left := (current * 2)%nat in
      if Nat.leb n left then Some (ks, vs)
      else
        kl <- get ks left ;;
        child <- (if Nat.ltb (left + 1) n then
                    kr <- get ks (left + 1) ;;
                    Some (if Z.ltb kr kl then (left + 1)%nat else left)
                  else Some left) ;;
        kch <- get ks child ;;
        kc <- get ks current ;;
        if Z.ltb kch kc then
          ks' <- swap_cells ks current child ;;
          vs' <- swap_cells vs current child ;;
          sift_down f ks' vs' n child
        else Some (ks, vs)
  end.

(** IntPairHeap.h 81-108. nextIndex = 0 would read cell -1. *)
Definition heap_pop (h : heap) : option heap :=
  match hnext h with
  | O => None
  | S m =>
      k <- get (hk h) m ;;
      ks <- set (hk h) 1 k ;;
      v <- get (hv h) m ;;
      vs <- set (hv h) 1 v ;;
      '(ks2, vs2) <- sift_down (S m) ks vs m 1 ;;
      Some {| hk := ks2; hv := vs2; hnext := m |}
  end.

(** IntPairHeap.h 110-112 *)
Definition heap_topVal (h : heap) : option Z := get (hv h) 1.
(** IntPairHeap.h 114-116 *)
Definition heap_topKey (h : heap) : option Z := get (hk h) 1.

(** An operation of a client, and a run of several. *)
Inductive heap_op := HAdd (k v : Z) | HPop | HClear.

Definition heap_step (al : nat -> list Z) (h : heap) (o : heap_op) : option heap :=
  match o with
  | HAdd k v => heap_add al h k v
  | HPop => heap_pop h
  | HClear => Some (heap_clear h)
  end.

Definition heap_run (al : nat -> list Z) (h : heap) (l : list heap_op) : option heap := ofold (heap_step al) l h.
