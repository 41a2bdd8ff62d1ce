(** Model of the fringes: src/search/UnsortedFringe.cpp, UnsrtFringeContainer.cpp/.h, QueueFringe.cpp, StackFringe.cpp and
    src/search/fringes/OneQueueWAStarFringe.cpp/.h.
    Simplifications valid for the whole file: [int] is [Z] without overflow; a pointer to a container is its index in the list of all
    containers created so far, a deleted container is [None] and accessing it is undefined; fresh array cells are [None] and reading
    them is undefined; containerID is omitted (it is only used in an assert); asserts are inactive (release build, CMakeLists.txt 17-19). *)
From Coq Require Import ZArith.
From Verif Require Import Base.

Local Open Scope Z_scope.

Section Unsorted.
  Context {A : Type}.

  (** UnsrtFringeContainer.h 15-31; containerSize is the parameter [sz] of the functions below. *)
  Record cont := { k_content : list (option A); k_hasNext : bool; k_hasPrev : bool; k_next : nat; k_prev : nat; k_right : Z; k_left : Z }.

  (** UnsortedFringe.h 27-33 and the memory of the containers. *)
  Record ufringe := { u_mem : list (option cont); u_first : nat; u_last : nat; u_size : Z }.

  Definition set_left (k : cont) (v : Z) : cont := {| k_content := k_content k; k_hasNext := k_hasNext k; k_hasPrev := k_hasPrev k; k_next := k_next k; k_prev := k_prev k; k_right := k_right k; k_left := v |}.
  Definition set_right (k : cont) (v : Z) : cont := {| k_content := k_content k; k_hasNext := k_hasNext k; k_hasPrev := k_hasPrev k; k_next := k_next k; k_prev := k_prev k; k_right := v; k_left := k_left k |}.
  Definition set_content (k : cont) (v : list (option A)) : cont := {| k_content := v; k_hasNext := k_hasNext k; k_hasPrev := k_hasPrev k; k_next := k_next k; k_prev := k_prev k; k_right := k_right k; k_left := k_left k |}.
  Definition set_hasNext (k : cont) (v : bool) : cont := {| k_content := k_content k; k_hasNext := v; k_hasPrev := k_hasPrev k; k_next := k_next k; k_prev := k_prev k; k_right := k_right k; k_left := k_left k |}.
  Definition set_hasPrev (k : cont) (v : bool) : cont := {| k_content := k_content k; k_hasNext := k_hasNext k; k_hasPrev := v; k_next := k_next k; k_prev := k_prev k; k_right := k_right k; k_left := k_left k |}.
  Definition set_next (k : cont) (v : nat) : cont := {| k_content := k_content k; k_hasNext := k_hasNext k; k_hasPrev := k_hasPrev k; k_next := v; k_prev := k_prev k; k_right := k_right k; k_left := k_left k |}.
  Definition set_prev (k : cont) (v : nat) : cont := {| k_content := k_content k; k_hasNext := k_hasNext k; k_hasPrev := k_hasPrev k; k_next := k_next k; k_prev := v; k_right := k_right k; k_left := k_left k |}.

  (** Dereferencing and assigning through a pointer, array access with an int index. *)
  Definition load (m : list (option cont)) (p : nat) : option cont := k <- get m p ;; k.
  Definition store (m : list (option cont)) (p : nat) (k : cont) : option (list (option cont)) := _ <- load m p ;; set m p (Some k).
  Definition zget (l : list (option A)) (i : Z) : option A := if i <? 0 then None else x <- get l (Z.to_nat i) ;; x.
  Definition zset (l : list (option A)) (i : Z) (v : A) : option (list (option A)) := if i <? 0 then None else set l (Z.to_nat i) (Some v).

  (** UnsrtFringeContainer.cpp 12-16 and the initial values of UnsrtFringeContainer.h 21-31; the null pointers are 0, they are never followed. *)
  Definition new_cont (sz : nat) : cont :=
    {| k_content := repeat None sz; k_hasNext := false; k_hasPrev := false; k_next := 0; k_prev := 0; k_right := -1; k_left := -1 |}.

  (** UnsortedFringe.cpp 13-18 *)
  Definition uf_new (sz : nat) : ufringe :=
    let l := Z.of_nat sz / 2 in
    {| u_mem := [Some (set_right (set_left (new_cont sz) l) (l + 1))]; u_first := 0; u_last := 0; u_size := 0 |}.

  (** UnsortedFringe.cpp 30-45 *)
  Definition addFirst (sz : nat) (u : ufringe) (n : A) : option ufringe :=
    k <- load (u_mem u) (u_first u) ;;
    c <- zset (k_content k) (k_left k) n ;;
    let k1 := set_left (set_content k c) (k_left k - 1) in
    m1 <- store (u_mem u) (u_first u) k1 ;;
    if k_left k1 =? -1 then
      let temp := length m1 in
      m2 <- store m1 (u_first u) (set_hasPrev (set_prev k1 temp) true) ;;
      let t := set_right (set_left (set_hasNext (set_next (new_cont sz) (u_first u)) true) (Z.of_nat sz - 1)) (Z.of_nat sz) in
      Some {| u_mem := m2 ++ [Some t]; u_first := temp; u_last := u_last u; u_size := u_size u + 1 |}
    else Some {| u_mem := m1; u_first := u_first u; u_last := u_last u; u_size := u_size u + 1 |}.

  (** UnsortedFringe.cpp 47-61 *)
  Definition addLast (sz : nat) (u : ufringe) (n : A) : option ufringe :=
    k <- load (u_mem u) (u_last u) ;;
    c <- zset (k_content k) (k_right k) n ;;
    let k1 := set_right (set_content k c) (k_right k + 1) in
    m1 <- store (u_mem u) (u_last u) k1 ;;
    if k_right k1 =? Z.of_nat sz then
      let temp := length m1 in
      m2 <- store m1 (u_last u) (set_hasNext (set_next k1 temp) true) ;;
      let t := set_right (set_left (set_hasPrev (set_prev (new_cont sz) (u_last u)) true) (-1)) 0 in
      Some {| u_mem := m2 ++ [Some t]; u_first := u_first u; u_last := temp; u_size := u_size u + 1 |}
    else Some {| u_mem := m1; u_first := u_first u; u_last := u_last u; u_size := u_size u + 1 |}.

  (** UnsortedFringe.cpp 63-71 *)
  Definition uf_empty (u : ufringe) : bool := u_size u =? 0.
  (** The assert of UnsortedFringe.cpp 64-69 (only in debug builds); equal ids are equal pointers. *)
  Definition uf_empty_assert (u : ufringe) : option bool :=
    k <- load (u_mem u) (u_last u) ;;
    Some ((0 <? u_size u) || (Nat.eqb (u_first u) (u_last u) && (k_left k =? k_right k - 1)))%bool.

  (** UnsortedFringe.cpp 73-90; the result [None] inside is the null pointer. *)
  Definition removeFirst (sz : nat) (u : ufringe) : option (option A * ufringe) :=
    if uf_empty u then Some (None, u)
    else
      k <- load (u_mem u) (u_first u) ;;
      let k1 := set_left k (k_left k + 1) in
      m1 <- store (u_mem u) (u_first u) k1 ;;
      '(m2, f2) <- (if k_left k1 =? Z.of_nat sz then
                      let f := k_next k1 in
                      kf <- load m1 f ;;
                      m2 <- store m1 f (set_hasPrev (set_left kf (k_left kf + 1)) false) ;;
                      m3 <- set m2 (u_first u) None ;;
                      Some (m3, f)
                    else Some (m1, u_first u)) ;;
      k2 <- load m2 f2 ;;
      v <- zget (k_content k2) (k_left k2) ;;
      Some (Some v, {| u_mem := m2; u_first := f2; u_last := u_last u; u_size := u_size u - 1 |}).

  (** UnsortedFringe.cpp 92-109 *)
  Definition removeLast (sz : nat) (u : ufringe) : option (option A * ufringe) :=
    if uf_empty u then Some (None, u)
    else
      k <- load (u_mem u) (u_last u) ;;
      let k1 := set_right k (k_right k - 1) in
      m1 <- store (u_mem u) (u_last u) k1 ;;
      '(m2, f2) <- (if k_right k1 =? -1 then
                      let f := k_prev k1 in
                      kf <- load m1 f ;;
                      m2 <- store m1 f (set_right (set_hasNext kf false) (k_right kf - 1)) ;;
                      m3 <- set m2 (u_last u) None ;;
                      Some (m3, f)
                    else Some (m1, u_last u)) ;;
      k2 <- load m2 f2 ;;
      v <- zget (k_content k2) (k_right k2) ;;
      Some (Some v, {| u_mem := m2; u_first := u_first u; u_last := f2; u_size := u_size u - 1 |}).

  (** UnsortedFringe.cpp 111-113 *)
  Definition uf_length (u : ufringe) : Z := u_size u.

  (** QueueFringe.cpp 20-34 and StackFringe.cpp 20-34: top removes the element, pop does nothing. *)
  Definition q_push := addLast.
  Definition q_top := removeFirst.
  Definition st_push := addLast.
  Definition st_top := removeLast.
End Unsorted.
Arguments cont : clear implicits.
Arguments ufringe : clear implicits.

(** ** The priority queue of the search *)

(** The fields of a search node that the queue uses (ProgressionNetwork.h 82-86), and the node. *)
Record entry (N : Type) := { en_node : N; en_f : Z; en_h : list Z; en_rand : Z }.
Arguments en_node {N}. Arguments en_f {N}. Arguments en_h {N}. Arguments en_rand {N}.

(** OneQueueWAStarFringe.cpp 13-23: the comparator; true means that [b] has to be popped before [a]. The heuristic arrays of all nodes have
    numOfHeuristics entries. *)
Fixpoint tie_after (ha hb : list Z) (ra rb : Z) : bool :=
  match ha, hb with
  | x :: ha', y :: hb' => if x =? y then tie_after ha' hb' ra rb else y <? x
  | _, _ => rb <? ra
  end.
Definition pop_after {N} (a b : entry N) : bool :=
  if en_f a =? en_f b then tie_after (tl (en_h a)) (tl (en_h b)) (en_rand a) (en_rand b) else en_f b <? en_f a.

(** OneQueueWAStarFringe.h 14: what counts as distance from the root. *)
Inductive gval := GNone | GPath | GAction | GMixed.

(** OneQueueWAStarFringe.cpp 35-47: push, without the queue itself; the three depths are fields of the node. *)
Definition f_value (g : gval) (weight h0 : Z) (depth cost mixed : nat) : Z :=
  h0 * weight + match g with GNone => 0 | GPath => Z.of_nat depth | GAction => Z.of_nat cost | GMixed => Z.of_nat mixed end.
