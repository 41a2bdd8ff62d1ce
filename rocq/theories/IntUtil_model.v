(** Model of src/intDataStructures/IntUtil.cpp. Array cells are [Z] (an [int] without overflow). Upper array indices
    are given exclusively: [hi] here is [maxIndex + 1] there, so that the empty section needs no negative index.
    [None] is an access outside the array (or exhausted fuel, excluded by the theorems). *)
From Verif Require Import Base.
Local Open Scope Z_scope.

(** IntUtil.cpp 33-35 (bIntSet.cpp 113-115): [i] is already incremented once. *)
Fixpoint scan_up (fuel : nat) (a : list Z) (pivot : Z) (i : nat) : option nat :=
  match fuel with
  | O => None
  | S f => x <- get a i ;; if Z.ltb x pivot then scan_up f a pivot (S i) else Some i
  end.

(** IntUtil.cpp 37-39 (bIntSet.cpp 117-119): the first cell inspected is [j - 1]; below cell 0 is undefined. *)
Fixpoint scan_down (a : list Z) (pivot : Z) (j : nat) : option nat :=
  match j with
  | O => None
  | S j' => x <- get a j' ;; if Z.ltb pivot x then scan_down a pivot j' else Some j'
  end.

(** IntUtil.cpp 32-48 (bIntSet.cpp 112-128): [i] is the next cell to inspect upwards, [j - 1] downwards. *)
Fixpoint part_loop (fuel : nat) (a : list Z) (pivot : Z) (i j : nat) : option (nat * list Z) :=
  match fuel with
  | O => None
  | S f =>
      i' <- scan_up (S (length a)) a pivot i ;;
      j' <- scan_down a pivot j ;;
      if Nat.leb j' i' then Some (j', a)
      else
        x <- get a i' ;;
        y <- get a j' ;;
        a1 <- set a i' y ;;
        a2 <- set a1 j' x ;;
        part_loop f a2 pivot (S i') j'
  end.

(** IntUtil.cpp 27-31 (bIntSet.cpp 107-111) *)
Definition partition (a : list Z) (lo hi : nat) : option (nat * list Z) :=
  pivot <- get a ((lo + (hi - 1)) / 2) ;;
  part_loop (S hi) a pivot lo hi.

(** IntUtil.cpp 19-25 (bIntSet.cpp 99-105) *)
Fixpoint isort (fuel : nat) (a : list Z) (lo hi : nat) : option (list Z) :=
  match fuel with
  | O => None
  | S f =>
      if Nat.ltb (S lo) hi then
        '(p, a1) <- partition a lo hi ;;
        a2 <- isort f a1 lo (S p) ;;
        isort f a2 (S p) hi
      else Some a
  end.

Definition sort (a : list Z) (lo hi : nat) : option (list Z) := isort (S (hi - lo)) a lo hi.

(** IntUtil.cpp 51-63 (the same search is in bIntSet.cpp 131-145 and lookUpTab.cpp 33-46) *)
Fixpoint index_loop (fuel : nat) (a : list Z) (lo hi : nat) (value : Z) : option Z :=
  match fuel with
  | O => None
  | S f =>
      if Nat.ltb lo hi then
        let mid := (lo + (hi - 1 - lo) / 2)%nat in
        x <- get a mid ;;
        if Z.eqb x value then Some (Z.of_nat mid)
        else if Z.ltb value x then index_loop f a lo mid value
        else index_loop f a (S mid) hi value
      else Some (-1)
  end.
Definition indexOf (a : list Z) (lo hi : nat) (value : Z) : option Z := index_loop (S (hi - lo)) a lo hi value.

(** IntUtil.cpp 65-67 *)
Definition containsInt (a : list Z) (lo hi : nat) (value : Z) : option bool :=
  i <- indexOf a lo hi value ;; Some (Z.leb 0 i).

(** IntUtil.cpp 69-78; [size] is the length of the input, [out] the freshly allocated array of [size - 1] cells (a size of
    0 is a request for -1 cells). *)
Fixpoint copy_loop (l : list Z) (exclude : Z) (out : list Z) (o : nat) : option (list Z) :=
  match l with
  | [] => Some out
  | x :: r =>
      if Z.eqb x exclude then copy_loop r exclude out o
      else out' <- set out o x ;; copy_loop r exclude out' (S o)
  end.
Definition copyExcluding (al : nat -> list Z) (l : list Z) (exclude : Z) : option (list Z) :=
  match length l with
  | O => None
  | S n => copy_loop l exclude (al n) 0
  end.

(** IntUtil.cpp 80-88 *)
Fixpoint isSorted (l : list Z) : bool :=
  match l with
  | x :: (y :: _) as r => if Z.ltb y x then false else isSorted r
  | _ => true
  end.

(** IntUtil.cpp 96-101: is there a pair of equal neighbours? *)
Fixpoint hasEqualNeighbours (l : list Z) : bool :=
  match l with
  | x :: (y :: _) as r => if Z.eqb x y then true else hasEqualNeighbours r
  | _ => false
  end.

(** std::set<int>::insert, the set given as the list its iterator runs through. *)
Fixpoint stdset_insert (x : Z) (s : list Z) : list Z :=
  match s with
  | [] => [x]
  | y :: r => if Z.ltb x y then x :: s else if Z.eqb x y then s else y :: stdset_insert x r
  end.

(** IntUtil.cpp 90-120 on an array of exactly [size] cells; yields the new contents and the returned number. *)
Definition makeSet (a : list Z) : option (list Z * nat) :=
  if Nat.leb (length a) 1 then Some (a, length a)
  else
    s <- sort a 0 (length a) ;;
    if hasEqualNeighbours s then
      let temp := fold_left (fun t x => stdset_insert x t) s [] in
      Some (temp ++ repeat (-1) (length a - length temp), length temp)
    else Some (s, length a).
