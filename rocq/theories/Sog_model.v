(** Model of src/sat/sog.cpp 175-232 and 294-330: placing the subtasks of totally ordered methods on the children of a decomposition-tree node.
    Simplifications: [begin] is 0 and [end] the number of vertices, as in the only call in use (314; runTOSOGOptimiserRecursive is commented out, 562);
    the edges adj/bdj are not modelled, since the vertices of a totally ordered SOG are a sequence; labels are sets, here lists of task numbers;
    vertex numbers do not overflow uint16_t. *)
From Coq Require Import ZArith.
From Verif Require Import Base Htn_problem.

(** sog.cpp 190, 201: "impossible" *)
Definition impossible : Z := (1000 * 1000)%Z.

(** sog.cpp 200-215: the cells y, y+1, ... of row [x]; [prev] is row x-1 from column y-1 on, [left] the cell to the left. A cell is
    (minAdditionalLabels, optimalPutHere). *)
Fixpoint dp_cells (x task : nat) (labels : list (list nat)) (prev : list (Z * bool)) (left : Z) (y : nat) : list (Z * bool) :=
  match labels, prev with
  | ls :: lr, p :: pr =>
      let put := ((if memb task ls then 0 else 1) + fst p)%Z in
      let cell := if Nat.ltb y x then (impossible, false) else if (left <? put)%Z then (left, false) else (put, true) in
      cell :: dp_cells x task lr pr (fst cell) (S y)
  | _, _ => []
  end.
(** sog.cpp 197-217: row [x] *)
Definition dp_row (x task : nat) (labels : list (list nat)) (prev : list (Z * bool)) : list (Z * bool) :=
  (impossible, false) :: dp_cells x task labels prev impossible 1.
Fixpoint dp_rows (x : nat) (sq : list nat) (labels : list (list nat)) (prev : list (Z * bool)) : list (list (Z * bool)) :=
  prev :: match sq with
          | [] => []
          | t :: r => dp_rows (S x) r labels (dp_row (S x) t labels prev)
          end.
(** sog.cpp 180-217: the whole table. Line 192 writes row 0 up to column |sequence|: outside of the row if the sequence is longer than the target. *)
Definition dp_table (sq : list nat) (labels : list (list nat)) : option (list (list (Z * bool))) :=
  if Nat.ltb (length labels) (length sq) then None
  else Some (dp_rows 0 sq labels (repeat (0%Z, false) (S (length labels)))).

(** sog.cpp 220-235: reading the positions off the table. The assertion x == 0 (236) is switched off in release builds. *)
Fixpoint dp_back (tab : list (list (Z * bool))) (sq match_pos : list nat) (y x : nat) (labels : list (list nat)) (asg : list nat) : option (list (list nat) * list nat) :=
  match y, x with
  | S y', S x' =>
      row <- get tab x ;;
      c <- get row y ;;
      if snd c : bool then
        task <- get sq x' ;;
        mp <- get match_pos x' ;;
        ls <- get labels y' ;;
        labels' <- set labels y' (if memb task ls then ls else task :: ls) ;;
        asg' <- set asg mp y' ;;
        dp_back tab sq match_pos y' x' labels' asg'
      else dp_back tab sq match_pos y' x labels asg
  | _, _ => Some (labels, asg)
  end.

(** sog.cpp 175-237; [asg] is methodSubTasksToVertices[sequenceID] *)
Definition addSequenceToSOG (labels : list (list nat)) (sq match_pos asg : list nat) : option (list (list nat) * list nat) :=
  tab <- dp_table sq labels ;;
  dp_back tab sq match_pos (length labels) (length sq) labels asg.

(** sog.cpp 302-316: one method; [mto] is htn->methodTotalOrder *)
Definition to_place (P : problem) (mto : list (list nat)) (labels : list (list nat)) (m : nat) : option (list (list nat) * list nat) :=
  me <- get (p_methods P) m ;;
  o <- get mto m ;;
  idx <- omap (get o) (seq 0 (length (m_subs me))) ;;
  sq <- omap (get (m_subs me)) idx ;;
  addSequenceToSOG labels sq idx (repeat 0 (length (m_subs me))).
Fixpoint to_places (P : problem) (mto : list (list nat)) (labels : list (list nat)) (ms : list nat) : option (list (list nat)) :=
  match ms with
  | [] => Some []
  | m :: r => '(labels', asg) <- to_place P mto labels m ;; rest <- to_places P mto labels' r ;; Some (asg :: rest)
  end.

(** sog.cpp 294-330, 549-552: number of vertices and methodSubTasksToVertices for the methods [ms], sorted by decreasing number of subtasks. *)
Definition to_sog (P : problem) (mto : list (list nat)) (ms : list nat) : option (nat * list (list nat)) :=
  match ms with
  | [] => Some (0, [])
  | m :: _ =>
      me <- get (p_methods P) m ;;
      asgs <- to_places P mto (repeat [] (length (m_subs me))) ms ;;
      Some (length (m_subs me), asgs)
  end.
