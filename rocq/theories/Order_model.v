(** Model of the preprocessing of method orderings, src/Model.cpp 2973-3106. Subtasks of a method are the positions
    [0 .. n-1]. The boolean matrices ([vector<vector<bool>>] of size n x n) are functions updated pointwise; loop indices are
    below n, so only the entries of the given ordering can be outside: that is [None]. *)
From Verif Require Import Base.

Definition matrix := nat -> nat -> bool.
Definition mset (t : matrix) (x y : nat) (v : bool) : matrix :=
  fun a b => if Nat.eqb a x && Nat.eqb b y then v else t a b.

(** A flat ordering array read in steps of two, Model.cpp 3017 (an odd length reads one cell too much). *)
Fixpoint pairs_of (l : list nat) : option (list (nat * nat)) :=
  match l with
  | [] => Some []
  | [_] => None
  | a :: b :: r => p <- pairs_of r ;; Some ((a, b) :: p)
  end.

(** Model.cpp 3011-3018 *)
Definition fill (n : nat) (ps : list (nat * nat)) : option matrix :=
  ofold (fun t p => if Nat.ltb (fst p) n && Nat.ltb (snd p) n then Some (mset t (fst p) (snd p) true) else None) ps
        (fun _ _ => false).

(** All index pairs in the order of two nested loops. *)
Definition grid (n : nat) : list (nat * nat) := list_prod (seq 0 n) (seq 0 n).

(** Model.cpp 3020-3023 *)
Definition warshall (n : nat) (t : matrix) : matrix :=
  fold_left (fun t k => fold_left (fun t p => if t (fst p) k && t k (snd p) then mset t (fst p) (snd p) true else t) (grid n) t)
            (seq 0 n) t.

(** Model.cpp 3026-3036: transRed starts as a copy, [t] is only read. *)
Definition reduce (n : nat) (t : matrix) : matrix :=
  fold_left (fun r k => fold_left (fun r p => if t (fst p) k && t k (snd p) then mset r (fst p) (snd p) false else r) (grid n) r)
            (seq 0 n) t.

(** The flags isTotallyOrdered, isUniquePaths, isParallelSequences. *)
Record flags := { fTO : bool; fUP : bool; fPS : bool }.
(** Model.cpp 1860-1862 *)
Definition flags0 : flags := {| fTO := true; fUP := true; fPS := true |}.

Definition count {A} (f : A -> bool) (l : list A) : nat := length (filter f l).

(** Model.cpp 3046-3054, 3059-3067: numSucc, numPrec and the derived counters. *)
Definition numSucc (n : nat) (t : matrix) (x : nat) : nat := count (fun y => t x y) (seq 0 n).
Definition numPrec (n : nat) (t : matrix) (y : nat) : nat := count (fun x => t x y) (seq 0 n).
Definition notOne (num : nat -> nat) (n : nat) : nat := count (fun x => negb (Nat.eqb (num x) 1)) (seq 0 n).
Definition moreThanOne (num : nat -> nat) (n : nat) : bool := existsb (fun x => Nat.ltb 1 (num x)) (seq 0 n).

(** Model.cpp 3046-3054: the pairs pushed to [ord]. *)
Definition ord_pairs (n : nat) (t : matrix) : list (nat * nat) := filter (fun p => t (fst p) (snd p)) (grid n).
Fixpoint flatten (l : list (nat * nat)) : list nat :=
  match l with [] => [] | (a, b) :: r => a :: b :: flatten r end.

(** Model.cpp 3056-3077; [isInit] is [decomposedTask[i] == initialTask]. *)
Definition update_flags (n : nat) (t : matrix) (isInit : bool) (f : flags) : flags :=
  if Nat.ltb 1 (notOne (numSucc n t) n) || Nat.ltb 1 (notOne (numPrec n t) n) then
    let up := moreThanOne (numSucc n t) n || negb isInit in
    {| fTO := false;
       fUP := if up then false else fUP f;
       fPS := if up && (moreThanOne (numPrec n t) n || negb isInit) then false else fPS f |}
  else f.

(** Model.cpp 3009-3082 *)
Definition transChange (closure : bool) (n : nat) (isInit : bool) (ordering : list nat) (f : flags) : option (list nat * flags) :=
  ps <- pairs_of ordering ;;
  t0 <- fill n ps ;;
  let t1 := warshall n t0 in
  let t := if closure then t1 else reduce n t1 in
  Some (flatten (ord_pairs n t), if closure then f else update_flags n t isInit f).

(** Reading all methods, Model.cpp 1863-1894 reduced to the orderings: method = (number of subtasks, decomposes the
    initial task?, ordering). *)
Fixpoint readOrderings (ms : list (nat * bool * list nat)) (f : flags) : option (list (list nat) * flags) :=
  match ms with
  | [] => Some ([], f)
  | (n, isInit, o) :: r =>
      '(o', f1) <- transChange false n isInit o f ;;
      '(os, f2) <- readOrderings r f1 ;;
      Some (o' :: os, f2)
  end.

(** ** Model.cpp 2973-2983: depth first search. [adj] gives the successor lists in the iteration order of the
    unordered_set. [order[curpos--] = cur] fills the array from the end: [acc] is the filled part. Colours: 0 unseen, 1 open,
    2 done; as in the release build an open node is not entered again. *)
Record dfs_state := { col : nat -> nat; acc : list nat }.
Fixpoint topDFS (fuel : nat) (adj : nat -> list nat) (cur : nat) (s : dfs_state) : option dfs_state :=
  match fuel with
  | O => None
  | S f =>
      if negb (Nat.eqb (col s cur) 0) then Some s
      else
        s1 <- ofold (fun s nei => topDFS f adj nei s) (adj cur)
                    {| col := fun x => if Nat.eqb x cur then 1 else col s x; acc := acc s |} ;;
        Some {| col := fun x => if Nat.eqb x cur then 2 else col s1 x; acc := cur :: acc s1 |}
  end.

(** Model.cpp 2992-2996: the outer loop. *)
Definition topSort (n : nat) (adj : nat -> list nat) : option (list nat) :=
  s <- ofold (fun s i => topDFS (S n) adj i s) (seq 0 n) {| col := fun _ => 0; acc := [] |} ;;
  Some (acc s).

(** Model.cpp 2998-3003 *)
Fixpoint consecutive (adj : nat -> list nat) (l : list nat) : bool :=
  match l with
  | a :: (b :: _) as r => if memb b (adj a) then consecutive adj r else false
  | _ => true
  end.

(** Model.cpp 2985-3006: the computed order and the verdict. *)
Definition isMethodTotallyOrdered (n : nat) (adj : nat -> list nat) : option (list nat * bool) :=
  o <- topSort n adj ;; Some (o, consecutive adj o).
