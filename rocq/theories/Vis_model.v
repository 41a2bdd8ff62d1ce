(** Model of src/VisitedList.cpp and src/intDataStructures/HashTable.cpp.
    Simplifications valid for the whole file: time measurement, counters and printing are omitted; the identity of a plan step (id and
    pointer) is its heap index; [int] is [nat] without overflow (tasks are below 2^31), uint64_t are binary numbers modulo 2^64;
    asserts are inactive (release build, CMakeLists.txt 17-19). The iteration order of std::set<planStep*> and std::unordered_set is some
    permutation [vp_perm]. The prime table (primeNumbers.h), the contained-task tables of a node (Tab_model.v), the values n->fValue and the
    contents of fresh memory are parameters. *)
From Coq Require Import NArith ZArith.
From Verif Require Import Base Htn_model Heap_model Trie_model Scc_model.

(** VisitedList.h 43-60: the configuration. *)
Record vconf := {
  vc_off : bool;       (* noVisitedCheck *)
  vc_noReopen : bool;  (* noReopening *)
  vc_GI : bool;        (* GIcheck *)
  vc_TO : bool;        (* useTotalOrderMode *)
  vc_PS : bool;        (* useSequencesMode *)
  vc_taskHash : bool; vc_seqHash : bool; vc_topo : bool; vc_pairs : bool; vc_layers : bool;
  vc_tasks : nat;      (* htn->numTasks *)
  vc_bits : nat        (* bitsNeededPerTask *) }.

Record vpar := {
  vp_perm : list nat -> list nat;
  vp_prime : N -> N;                                  (* getPrime *)
  vp_contained : world -> node -> list (nat * nat);   (* containedTasks, containedTaskCount *)
  vp_f : world -> node -> nat;                        (* n->fValue at the time of the access *)
  vp_al : nat -> list Z }.

(** VisitedList.cpp 80-102: the constructor; [flagTO], [flagPS] are isTotallyOrdered and isParallelSequences of the model. For x > 0,
    32 - clz(x) is the number of binary digits of x; clz(0) is undefined. *)
Definition vis_conf (off noReopen taskHash seqHash topo pairs layers gi allowPS : bool) (flagTO flagPS : bool) (numTasks : nat) : option vconf :=
  let ps := allowPS && flagPS in
  let x := if ps then numTasks else numTasks - 1 in
  if Nat.eqb x 0 then None
  else Some {| vc_off := off; vc_noReopen := noReopen; vc_GI := gi; vc_TO := flagTO; vc_PS := ps; vc_taskHash := taskHash;
               vc_seqHash := seqHash; vc_topo := topo; vc_pairs := pairs; vc_layers := layers; vc_tasks := numTasks;
               vc_bits := S (Nat.log2 x) |}.

(** ** Hash values *)

(** VisitedList.cpp 63-76 *)
Definition hash_word (ret x : N) : N :=
  fst (fold_left (fun '(ret, cur) _ => (((ret * 65537 + cur mod 2 ^ 16) mod 2 ^ 64)%N, (cur / 2 ^ 16)%N)) (seq 0 4) (ret, x)).
Definition hash_state_sequence (v : list N) : N := fold_left hash_word v 0%N.

(** VisitedList.cpp 350-366; p_index is an unsigned int. *)
Definition taskCountHash (pr : N -> N) (numTasks : nat) (l : list (nat * nat)) : N :=
  fold_left (fun lh '(task, count) =>
    fold_left (fun lh j => ((lh * pr ((N.of_nat j * N.of_nat numTasks + N.of_nat task) mod 2 ^ 32)%N) mod 2 ^ 64 mod 104729)%N) (seq 0 count) lh) l 1%N.

(** VisitedList.cpp 368-376 *)
Definition taskSequenceHash (numTasks : nat) (l : list nat) : N :=
  fold_left (fun lh t => ((lh * N.of_nat (numTasks + 1)) mod 2147483647 + N.of_nat t)%N) l 0%N.

(** ** Sequences *)

(** VisitedList.cpp 150-155: to_dfs (the assert is inactive: with several successors the first one is followed). *)
Fixpoint to_dfs (fuel : nat) (h : list pstep) (x : nat) : option (list nat) :=
  match fuel with
  | 0 => None
  | S f =>
      ps <- get h x ;;
      match ps_succ ps with
      | [] => Some [ps_task ps]
      | y :: _ => r <- to_dfs f h y ;; Some (ps_task ps :: r)
      end
  end.

(** std::map with default values. *)
Definition upd {A} (m : nat -> A) (x : nat) (v : A) : nat -> A := fun y => if Nat.eqb y x then v else m y.

(** VisitedList.cpp 301-318: the loop over todo; the results are successors, predecessors and idToTask. *)
Fixpoint ts_collect (fuel : nat) (h : list pstep) (todo done : list nat) (sm pm : nat -> list nat) (tm : nat -> nat) :
  option ((nat -> list nat) * (nat -> list nat) * (nat -> nat)) :=
  match todo with
  | [] => Some (sm, pm, tm)
  | x :: r =>
      match fuel with
      | 0 => None
      | S f =>
          if memb x done then ts_collect f h r done sm pm tm
          else
            ps <- get h x ;;
            ts_collect f h (r ++ ps_succ ps) (x :: done)
              (upd sm x (fold_left (fun s y => ins y s) (ps_succ ps) (sm x)))
              (fold_left (fun pm y => upd pm y (ins x (pm y))) (ps_succ ps) pm)
              (upd tm x (ps_task ps))
      end
  end.

(** VisitedList.cpp 325-331: erasing [id] from the predecessors of its successors. *)
Definition ts_release (al : nat -> list Z) (tm : nat -> nat) (id : nat) (st : (nat -> list nat) * heap) (y : nat) : option ((nat -> list nat) * heap) :=
  let '(pm, hp) := st in
  let pm' := upd pm y (filter (fun z => negb (Nat.eqb z id)) (pm y)) in
  match pm' y with
  | [] => hp' <- heap_add al hp (Z.of_nat (tm y)) (Z.of_nat y) ;; Some (pm', hp')
  | _ => Some (pm', hp)
  end.

(** VisitedList.cpp 320-332 *)
Fixpoint ts_emit (fuel : nat) (al : nat -> list Z) (sm : nat -> list nat) (tm : nat -> nat) (pm : nat -> list nat) (hp : heap) : option (list nat) :=
  if heap_isEmpty hp then Some []
  else
    match fuel with
    | 0 => None
    | S f =>
        k <- heap_topKey hp ;;
        v <- heap_topVal hp ;;
        hp1 <- heap_pop hp ;;
        '(pm2, hp2) <- ofold (ts_release al tm (Z.to_nat v)) (sm (Z.to_nat v)) (pm, hp1) ;;
        r <- ts_emit f al sm tm pm2 hp2 ;;
        Some (Z.to_nat k :: r)
    end.

(** VisitedList.cpp 281-332: topSort. The first loop makes at most one round for every first task and for every successor entry. *)
Definition ts_fuel (h : list pstep) (n : node) : nat := length (n_prim n ++ n_abs n) + list_sum (map (fun ps => length (ps_succ ps)) h).
Definition topSort (al : nat -> list Z) (h : list pstep) (n : node) : option (list nat) :=
  let firsts := n_prim n ++ n_abs n in
  hp0 <- heap_new al 50 ;;
  hp <- ofold (fun hp x => tk <- task_of h x ;; heap_add al hp (Z.of_nat tk) (Z.of_nat x)) firsts hp0 ;;
  '(sm, pm, tm) <- ts_collect (ts_fuel h n) h firsts [] (fun _ => []) (fun _ => []) (fun _ => 0) ;;
  ts_emit (length h) al sm tm pm hp.

(** Lexicographic order of vectors of ints, and std::sort with it. *)
Fixpoint lex_le (a b : list nat) : bool :=
  match a, b with
  | [], _ => true
  | _, [] => false
  | x :: a', y :: b' => if Nat.ltb x y then true else if Nat.ltb y x then false else lex_le a' b'
  end.
Fixpoint lex_insert (a : list nat) (l : list (list nat)) : list (list nat) :=
  match l with
  | [] => [a]
  | b :: r => if lex_le a b then a :: l else b :: lex_insert a r
  end.
Definition lex_sort (l : list (list nat)) : list (list nat) := fold_right lex_insert [] l.

(** VisitedList.cpp 399-420: the sequences, separated by the number of tasks. *)
Fixpoint join_sep (sep : nat) (l : list (list nat)) : list nat :=
  match l with
  | [] => []
  | [a] => a
  | a :: r => a ++ sep :: join_sep sep r
  end.
Definition par_sequences (numTasks : nat) (h : list pstep) (n : node) : option (list nat) :=
  l <- omap (to_dfs (length h) h) (n_abs n ++ n_prim n) ;;
  Some (join_sep numTasks (lex_sort l)).

(** VisitedList.cpp 392-423: sequenceForHashing. There is no else between the two modes: in total order mode the sequence computed first
    is overwritten (the recursion of to_dfs is over the first task only). *)
Definition vis_sequence (c : vconf) (par : vpar) (h : list pstep) (n : node) : option (list nat) :=
  if vc_topo c || vc_seqHash c then
    _ <- (if vc_TO c then
            _ <- (match n_prim n with [] => Some [] | x :: _ => to_dfs (length h) h x end) ;;
            match n_abs n with [] => Some [] | x :: _ => to_dfs (length h) h x end
          else Some []) ;;
    if vc_PS c then par_sequences (vc_tasks c) h n else topSort (vp_al par) h n
  else Some [].

(** VisitedList.cpp 426-428 and similar: the lowest [k] bits. *)
Definition bits_of (k x : nat) : list bool := map (Nat.testbit x) (seq 0 k).

(** ** Partial orders: order pairs and layers *)

(** std::set<pair<int,int>>::insert on the ascending list. *)
Definition pair_lt (p q : nat * nat) : bool := Nat.ltb (fst p) (fst q) || (Nat.eqb (fst p) (fst q) && Nat.ltb (snd p) (snd q)).
Fixpoint pins (p : nat * nat) (l : list (nat * nat)) : list (nat * nat) :=
  match l with
  | [] => [p]
  | q :: r => if pair_lt p q then p :: l else if pair_lt q p then q :: pins p r else l
  end.

(** Insertion into the set at position [d], resizing the vector if necessary. *)
Fixpoint layer_add (d x : nat) (l : list (list nat)) : list (list nat) :=
  match d, l with
  | 0, [] => [[x]]
  | 0, a :: r => (a ++ [x]) :: r
  | S d', [] => [] :: layer_add d' x []
  | S d', a :: r => a :: layer_add d' x r
  end.

(** VisitedList.cpp 137-147: psp, orderpairs and layer are updated in place. *)
Fixpoint dfsdfs (fuel : nat) (h : list pstep) (s depth : nat) (st : list nat * list (nat * nat) * list (list nat)) :
  option (list nat * list (nat * nat) * list (list nat)) :=
  match fuel with
  | 0 => None
  | S f =>
      let '(psp, op, lay) := st in
      if memb s psp then Some st
      else
        ps <- get h s ;;
        ofold (fun '(psp, op, lay) y =>
                 ty <- task_of h y ;;
                 dfsdfs f h y (S depth) (psp, pins (ps_task ps, ty) op, lay))
              (ps_succ ps) (s :: psp, op, layer_add depth s lay)
  end.

(** Counting the tasks of one layer: std::map<int,int>, ascending. *)
Fixpoint count_add (t : nat) (m : list (nat * nat)) : list (nat * nat) :=
  match m with
  | [] => [(t, 1)]
  | (u, c) :: r => if Nat.ltb t u then (t, 1) :: m else if Nat.eqb t u then (u, S c) :: r else (u, c) :: count_add t r
  end.

(** VisitedList.cpp 484-501: one entry of a layer; at most 255 copies are told apart. *)
Definition entry_bits (c : vconf) (e : nat * nat) : list bool :=
  let number := Nat.min (snd e) 255 in
  let bits := Nat.log2 number in
  bits_of (vc_bits c) (fst e) ++ bits_of 3 bits ++ bits_of bits number.

(** VisitedList.cpp 432-505: the bits for partially ordered networks. A step is entered into one layer only, hence the second
    filtering (456-463) changes nothing. *)
Definition po_bits (c : vconf) (h : list pstep) (n : node) : option (list bool) :=
  if negb (vc_PS c || vc_TO c) && (vc_pairs c || vc_layers c) then
    '(_, op, lay) <- ofold (fun st x => dfsdfs (S (length h)) h x 0 st) (n_abs n ++ n_prim n) ([], [], []) ;;
    counts <- omap (fun l => ofold (fun m x => t <- task_of h x ;; Some (count_add t m)) l []) lay ;;
    let b1 := if vc_pairs c then flat_map (fun p => bits_of (vc_bits c) (fst p) ++ bits_of (vc_bits c) (snd p)) op ++ bits_of (vc_bits c) (vc_tasks c) else [] in
    let b2 := if vc_layers c then
                match counts with
                | [] => []
                | m :: r => flat_map (entry_bits c) m ++ flat_map (fun m => bits_of (vc_bits c) (vc_tasks c) ++ flat_map (entry_bits c) m) r
                end
              else [] in
    Some (b1 ++ b2)
  else Some [].

(** ** Matching of two partially ordered nodes *)

(** VisitedList.cpp 164-250. Mappings are association lists, passed by value. The maps from tasks to sets of steps are the sets of all
    steps, the entry of a task is the part with this task. [matchDFS] gets the successors of the two steps. *)
Definition lookup (m : list (nat * nat)) (x : nat) : option nat :=
  match find (fun p => Nat.eqb (fst p) x) m with Some p => Some (snd p) | None => None end.
Definition has_task (h : list pstep) (t x : nat) : bool :=
  match task_of h x with Some u => Nat.eqb u t | None => false end.
Definition minus1 (x : nat) (l : list nat) : list nat := filter (fun y => negb (Nat.eqb y x)) l.
(** mapping.count(psOne) && mapping[psOne] != psOther, or the same backwards. *)
Definition clash (m : list (nat * nat)) (x y : nat) : bool :=
  match lookup m x with Some z => negb (Nat.eqb z y) | None => false end.

Section Matching.
  Variables (perm : list nat -> list nat) (h : list pstep).

  Fixpoint matchGen (fuel : nat) (mp bk : list (nat * nat)) (one other tasks : list nat) : option bool :=
    match fuel with
    | 0 => None
    | S f =>
        match tasks with
        | [] => Some true
        | t :: ts =>
            match perm (filter (has_task h t) one) with
            | [] => matchGen f mp bk one other ts
            | p1 :: _ =>
                let one' := minus1 p1 one in
                (fix partners (l : list nat) : option bool :=
                   match l with
                   | [] => Some false
                   | p2 :: l' =>
                       if clash mp p1 p2 || clash bk p2 p1 then partners l'
                       else
                         let new := match lookup mp p1 with None => true | Some _ => false end in
                         let mp' := if new then (p1, p2) :: mp else mp in
                         let bk' := if new then (p2, p1) :: bk else bk in
                         sub <- (if new then
                                   s1 <- succ_of h p1 ;;
                                   s2 <- succ_of h p2 ;;
                                   matchDFS f mp' bk' s1 s2
                                 else Some true) ;;
                         if sub then
                           r <- matchGen f mp' bk' one' (minus1 p2 other) tasks ;;
                           if r then Some true else partners l'
                         else partners l'
                   end) (perm (filter (has_task h t) other))
            end
        end
    end
  with matchDFS (fuel : nat) (mp bk : list (nat * nat)) (s1 s2 : list nat) : option bool :=
    match fuel with
    | 0 => None
    | S f =>
        if negb (Nat.eqb (length s1) (length s2)) then Some false
        else
          match s1 with
          | [] => Some true
          | _ =>
              let one := fold_left set_insert s1 [] in
              let other := fold_left set_insert s2 [] in
              ts <- omap (task_of h) (s1 ++ s2) ;;
              let tasks := perm (fold_left set_insert ts []) in
              if forallb (fun t => Nat.eqb (length (filter (has_task h t) one)) (length (filter (has_task h t) other))) tasks
              then matchGen f mp bk one other tasks
              else Some false
          end
    end.

  (** VisitedList.cpp 253-279. The artificial steps on top are never successors, their entry in the mappings is never read. Each call
      of matchDFS is followed by at most 3|h|+2 calls of matchGen before the next one; the depth is bounded by the heap. *)
  Definition matching (one other : node) : option bool :=
    matchDFS (S (S (length h)) * (3 * length h + 5)) [] [] (n_abs one ++ n_prim one) (n_abs other ++ n_prim other).
End Matching.

(** ** The table *)

(** The payload of a trie leaf: a number, or the nodes with this key (void pointer, VisitedList.cpp 533-590). *)
Inductive payload := PCost (c : nat) | PNodes (l : list node).

(** The hash table: the buckets that are not null. *)
Definition vtable := list (N * trie payload).
Fixpoint tbl_get (v : vtable) (b : N) : trie payload :=
  match v with
  | [] => TNil
  | (b', t) :: r => if N.eqb b b' then t else tbl_get r b
  end.
Fixpoint tbl_set (v : vtable) (b : N) (t : trie payload) : vtable :=
  match v with
  | [] => [(b, t)]
  | (b', t') :: r => if N.eqb b b' then (b, t) :: r else (b', t') :: tbl_set r b t
  end.

(** VisitedList.cpp 533-556: answer and new payload, in total order mode, in sequences mode and without isomorphism check. *)
Definition cost_access (c : vconf) (f : nat) (old : option payload) : bool * payload :=
  match old with
  | None => (true, PCost (if vc_noReopen c then 1 else S f))
  | Some (PCost v) => if vc_noReopen c then (false, PCost 1) else if Nat.ltb (S f) v then (true, PCost (S f)) else (false, PCost v)
  | Some (PNodes l) => (false, PNodes l)
  end.

(** VisitedList.cpp 558-579: the loop over the stored nodes; [Some None] is the early return, [rm] is toRemove. *)
Fixpoint gi_scan (perm : list nat -> list nat) (h : list pstep) (fv : node -> nat) (n : node) (l : list node) (i : nat) (rm : option nat) : option (option (option nat)) :=
  match l with
  | [] => Some (Some rm)
  | o :: r =>
      b <- matching perm h n o ;;
      if b then if Nat.ltb (fv n) (fv o) then gi_scan perm h fv n r (S i) (Some i) else Some None
      else gi_scan perm h fv n r (S i) rm
  end.
(** VisitedList.cpp 557-596. Different positions of the vector hold different pointers. *)
Definition gi_access (perm : list nat -> list nat) (h : list pstep) (fv : node -> nat) (n : node) (old : option payload) : option (bool * payload) :=
  let l := match old with Some (PNodes l) => l | _ => [] end in
  r <- gi_scan perm h fv n l 0 None ;;
  match r with
  | None => Some (false, PNodes l)
  | Some None => Some (true, PNodes (l ++ [n]))
  | Some (Some i) => Some (true, PNodes (remove_at i l ++ [n]))
  end.

(** The bit string under which a node is stored (VisitedList.cpp 385-508). *)
Definition vis_key (c : vconf) (h : list pstep) (n : node) (sq : list nat) : option (list bool) :=
  po <- po_bits c h n ;;
  Some (n_state n ++ (if vc_topo c then flat_map (bits_of (vc_bits c)) sq else []) ++ po).

(** VisitedList.cpp 512-514 and the bucket of HashTable.cpp 12-14. *)
Definition vis_bucket (c : vconf) (par : vpar) (w : world) (n : node) (sq : list nat) : N :=
  let h1 := hash_state_sequence (fst (state2Int (n_state n))) in
  let h2 := if vc_taskHash c then N.lxor h1 (taskCountHash (vp_prime par) (vc_tasks c) (vp_contained par w n)) else h1 in
  let h3 := if vc_seqHash c then N.lxor h2 (taskSequenceHash (vc_tasks c) sq) else h2 in
  (h3 mod 16777213)%N.

(** VisitedList.cpp 380-597: insertVisi. *)
Definition insertVisi (c : vconf) (par : vpar) (w : world) (v : vtable) (n : node) : option (bool * vtable) :=
  if vc_off c then Some (true, v)
  else
    sq <- vis_sequence c par (w_heap w) n ;;
    key <- vis_key c (w_heap w) n sq ;;
    let b := vis_bucket c par w n sq in
    let '(words, pad) := state2Int key in
    let simple := vc_TO c || vc_PS c || negb (vc_GI c) in
    let act old := if simple then Some (cost_access c (vp_f par w n) old)
                   else gi_access (vp_perm par) (w_heap w) (vp_f par w) n old in
    let acc old := match act old with Some (_, p) => Some p | None => old end in
    '(t, old) <- (match tbl_get v b with
                  | TNil => Some (t_new acc words pad, None)
                  | t => t_insert acc t words pad
                  end) ;;
    '(ok, _) <- act old ;;
    Some (ok, tbl_set v b t).
