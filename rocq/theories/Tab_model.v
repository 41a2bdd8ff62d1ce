(** Model of the tables derived from the methods (src/Model.cpp 1452-1540 generateMethodRepresentation, 1949-2054 end of
    readHierarchical) and of the tables of contained tasks of search nodes (237-267 updateTaskCounterA, 388-497
    updateTaskCounterM, 2655-2660 in prepareTNi).
    Table cells are [Z], as in IntUtil_model. Debug-only assertions are omitted. *)
From Verif Require Import Base IntUtil_model Htn_model.

(** ** taskToMethods *)

(** Model.cpp 1455-1459: [tTaskToMethods[decomposedTask[i]].push_back(i)] for all methods. *)
Definition ttm_table (P : problem) : option (list (list nat)) :=
  ofold (fun T i => m <- get (p_methods P) i ;; row <- get T (m_task m) ;; set T (m_task m) (row ++ [i]))
        (seq 0 (length (p_methods P))) (repeat [] (length (p_prim P))).

(** ** methodsFirstTasks, methodsLastTasks *)

(** Model.cpp 1498-1509: the flags [firsts] and [lasts]. *)
Definition fl_flags (m : method) : option (list bool * list bool) :=
  let k := length (m_subs m) in
  ofold (fun '(fs, ls) '(p, s) => fs' <- set fs s false ;; ls' <- set ls p false ;; Some (fs', ls'))
        (m_ord m) (repeat true k, repeat true k).

(** Model.cpp 1526-1535: collecting the indices of the set flags. *)
Fixpoint collect (j : nat) (l : list bool) : list nat :=
  match l with
  | [] => []
  | b :: r => if b then j :: collect (S j) r else collect (S j) r
  end.
Definition fl_table (m : method) : option (list nat * list nat) :=
  '(fs, ls) <- fl_flags m ;; Some (collect 0 fs, collect 0 ls).

(** ** stToMethod *)

(** Model.cpp 1950-1958: the numbers of occurrences of the tasks as subtasks. *)
Definition st_num (P : problem) : option (list nat) :=
  ofold (fun K m => ofold (fun K st => c <- get K st ;; set K st (S c)) (m_subs m) K)
        (p_methods P) (repeat 0 (length (p_prim P))).

(** Model.cpp 1967-1976: one subtask [st] of method [m]. The row of [st] is the filled part of the array stToMethod[st] (so
    [k[st]] is its length); the array has been allocated with [cap[st]] cells. *)
Definition st_insert (cap : list nat) (m : nat) (T : list (list Z) * list nat) (st : nat) : option (list (list Z) * list nat) :=
  let '(rows, num) := T in
  row <- get rows st ;;
  c <- get cap st ;;
  i <- indexOf row 0 (length row) (Z.of_nat m) ;;
  if Z.ltb i 0 then
    if Nat.ltb (length row) c then rows' <- set rows st (row ++ [Z.of_nat m]) ;; Some (rows', num) else None
  else
    x <- get num st ;; num' <- set num st (x - 1) ;; Some (rows, num').

(** Model.cpp 1949-1977: yields stToMethod and stToMethodNum. *)
Definition st_table (P : problem) : option (list (list Z) * list nat) :=
  cap <- st_num P ;;
  ofold (fun T m => md <- get (p_methods P) m ;; ofold (st_insert cap m) (m_subs md) T)
        (seq 0 (length (p_methods P))) (repeat [] (length (p_prim P)), cap).

(** ** sortedDistinctSubtasks *)

(** Model.cpp 2031-2034: the number of cells behind cell [i] with the same content. *)
Fixpoint run_len (fuel : nat) (a : list Z) (n i j : nat) : option nat :=
  match fuel with
  | O => None
  | S f =>
      if Nat.ltb (i + j + 1) n then
        x <- get a i ;; y <- get a (i + j + 1) ;;
        if Z.eqb x y then run_len f a n i (S j) else Some j
      else Some j
  end.

(** Model.cpp 2037-2041: moving the cells from [i + j] on to the front. *)
Fixpoint shift_left (fuel : nat) (a : list Z) (n i j k : nat) : option (list Z) :=
  match fuel with
  | O => None
  | S f =>
      if Nat.ltb (i + k + j) n then
        v <- get a (i + k + j) ;; a' <- set a (i + k) v ;; shift_left f a' n i j (S k)
      else Some a
  end.

(** Model.cpp 2030-2044 *)
Fixpoint distinct_loop (fuel : nat) (a cnt : list Z) (n i : nat) : option (nat * list Z * list Z) :=
  match fuel with
  | O => None
  | S f =>
      if Nat.ltb (S i) n then
        j <- run_len (S n) a n i 0 ;;
        if Nat.ltb 0 j then
          c <- get cnt i ;; cnt' <- set cnt i (c + Z.of_nat j)%Z ;;
          a' <- shift_left (S n) a n i j 0 ;;
          distinct_loop f a' cnt' (n - j) (S i)
        else distinct_loop f a cnt n (S i)
      else Some (n, a, cnt)
  end.

(** Model.cpp 2015-2048 for one method: numDistinctSTs, sortedDistinctSubtasks, sortedDistinctSubtaskCount. *)
Definition distinct (subs : list nat) : option (nat * list Z * list Z) :=
  let n := length subs in
  a <- sort (map Z.of_nat subs) 0 n ;;
  distinct_loop (S n) a (repeat 1%Z n) n 0.

(** The filled part of both arrays as a list of pairs. *)
Definition distinct_table (subs : list nat) : option (list (Z * Z)) :=
  '(n, a, cnt) <- distinct subs ;; Some (combine (firstn n a) (firstn n cnt)).

(** ** Contained tasks *)

(** The pair of arrays containedTasks, containedTaskCount as a list of pairs. *)
Definition ctable := list (Z * Z).
Definition ct_index (T : ctable) (lo : nat) (v : Z) : option Z := indexOf (map fst T) lo (length T) v.

(** Model.cpp 2655-2660 *)
Definition ct_init (P : problem) : ctable := [(Z.of_nat (p_init P), 1%Z)].

(** Model.cpp 237-267. An index of -1 (excluded by an assertion in debug builds only) is an access outside the arrays. The
    three copying loops (247-265) fill the new arrays completely. *)
Definition ct_apply (T : ctable) (action : Z) : option ctable :=
  ai <- ct_index T 0 action ;;
  if Z.ltb ai 0 then None else
  let i := Z.to_nat ai in
  '(t, c) <- get T i ;;
  Some (firstn i T ++ (if Z.eqb c 1 then [] else [(t, (c - 1)%Z)]) ++ skipn (S i) T).

(** Model.cpp 404-414: the number of subtasks that are not contained yet; the search starts behind the last hit. *)
Fixpoint count_new (T : ctable) (low new : nat) (D : ctable) : option nat :=
  match D with
  | [] => Some new
  | (st, _) :: r =>
      i <- ct_index T low st ;;
      if Z.leb 0 i then count_new T (S (Z.to_nat i)) new r else count_new T low (S new) r
  end.

(** Model.cpp 436-488: the merge. [T] and [D] are the parts behind [itn] and [im]; the result is what is written from position
    [ir] on. *)
Fixpoint ct_merge (fuel : nat) (rem : bool) (mAbs : Z) (T D : ctable) : option ctable :=
  match fuel with
  | O => None
  | S f =>
      match T, D with
      | (t, ct) :: T', (d, cd) :: D' =>
          if (rem && Z.eqb t mAbs)%bool then ct_merge f rem mAbs T' D
          else if (rem && Z.eqb d mAbs)%bool then ct_merge f rem mAbs T D'
          else if Z.ltb t d then r <- ct_merge f rem mAbs T' D ;; Some ((t, ct) :: r)
          else if Z.ltb d t then r <- ct_merge f rem mAbs T D' ;; Some ((d, cd) :: r)
          else r <- ct_merge f rem mAbs T' D' ;; Some ((d, (cd + ct)%Z) :: r)
      | (t, ct) :: T', [] =>
          if (rem && Z.eqb t mAbs)%bool then ct_merge f rem mAbs T' D
          else r <- ct_merge f rem mAbs T' D ;; Some ((t, ct) :: r)
      | [], (d, cd) :: D' =>
          if (rem && Z.eqb d mAbs)%bool then ct_merge f rem mAbs T D'
          else r <- ct_merge f rem mAbs T D' ;; Some ((d, cd) :: r)
      | [], [] => Some []
      end
  end.

(** Model.cpp 388-493. The result arrays have been allocated with [size] cells (421-431): writing more is outside the array,
    writing fewer leaves cells undefined; both are [None]. *)
Definition ct_decompose (D : ctable) (mAbs : Z) (T : ctable) : option ctable :=
  new <- count_new T 0 0 D ;;
  i <- ct_index T 0 mAbs ;;
  if Z.ltb i 0 then None else
  '(_, c) <- get T (Z.to_nat i) ;;
  k <- ct_index D 0 mAbs ;;
  let rem := (Z.eqb c 1 && Z.ltb k 0)%bool in
  let size := length T + new - (if rem then 1 else 0) in
  R <- ct_merge (S (length T + length D)) rem mAbs T D ;;
  if Nat.eqb (length R) size then
    if rem then Some R
    else
      i' <- ct_index R 0 mAbs ;;
      if Z.ltb i' 0 then None else
      '(t, c') <- get R (Z.to_nat i') ;;
      set R (Z.to_nat i') (t, (c' - 1)%Z)
  else None.

(** The table of a node: it is created with the node by one of the two updates (Model.cpp 730-732, 1173-1175), starting at the
    root; the sequence of node creations is the chain of solution steps. *)
Definition ct_step (P : problem) (T : ctable) (st : solstep) : option ctable :=
  match ss_method st with
  | None => ct_apply T (Z.of_nat (ss_task st))
  | Some mi => m <- get (p_methods P) mi ;; D <- distinct_table (m_subs m) ;; ct_decompose D (Z.of_nat (m_task m)) T
  end.
Definition contained (P : problem) (n : node) : option ctable :=
  ofold (ct_step P) (rev (n_sol n)) (ct_init P).
