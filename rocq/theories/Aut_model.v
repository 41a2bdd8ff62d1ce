(** The symbolic planner for totally ordered problems (src/symbolic_search/automaton.cpp, build_automaton 1145-1777).

    The BDDs are modelled by the sets of states they stand for (Bdd_thm.v: the BDDs of initial state and goal and the image under a
    transition relation stand for exactly the states they should): a BDD over current and auxiliary variables (v and v'') is a list of pairs
    (current state, pushed state), a BDD over v' and v'' a list of pairs (state in v', state in v''), a BDD over v and v' likewise.
    The BDDs of edges to vertex 1 do not restrict v'' (1207); here v'' is then the state [].

    Not modelled: the extraction of the plan (extract and its helpers, 112-1122) and the fields of tracingInfo that are used only there; output; the overflow of int.
    emptyMethod is -1 for all tasks because the reader rejects methods without subtasks (Model.cpp 1877-1884), so the branch 1328 is
    taken for actions only. A method with more than two subtasks is excluded by an assertion (1494); here it is the outcome [None]. *)
From Verif Require Import Base Htn_problem.

(** ** Sets of states *)

(** A state: one bit for each fact. *)
Definition bst := list bool.
Fixpoint bst_eqb (s s' : bst) : bool :=
  match s, s' with
  | [], [] => true
  | a :: r, b :: r' => eqb a b && bst_eqb r r'
  | _, _ => false
  end.
Definition rel := list (bst * bst).
Definition pair_eqb (x y : bst * bst) : bool := bst_eqb (fst x) (fst y) && bst_eqb (snd x) (snd y).
Definition rmem (x : bst * bst) (R : rel) : bool := existsb (pair_eqb x) R.
Definition smem (x : bst) (l : list bst) : bool := existsb (bst_eqb x) l.
(** operator+; operator* with a negated BDD; IsZero; comparison of a disjunction with one of its parts *)
Definition union (R R' : rel) : rel := R ++ filter (fun x => negb (rmem x R)) R'.
Definition rminus (R R' : rel) : rel := filter (fun x => negb (rmem x R')) R.
Definition is_zero {A} (l : list A) : bool := match l with [] => true | _ => false end.
Definition covered (R' R : rel) : bool := forallb (fun x => rmem x R) R'.

(** Bits of a state, applicability and result of an action: the meaning of image (transition_relation.cpp 93-98). *)
Definition bit (s : bst) (f : nat) : bool := nth f s false.
Definition all_bits (s : bst) (l : list nat) : bool := forallb (bit s) l.
Definition next_bst (s : bst) (add del : list nat) : bst :=
  map (fun f => memb f add || (bit s f && negb (memb f del))) (seq 0 (length s)).

(** ** Search data *)

(** A key of the nested maps edges: from, task, to, cost, depth. *)
Definition ekey := (nat * nat * nat * nat * nat)%type.
Definition ekey_eqb (k k' : ekey) : bool :=
  let '(a, b, c, d, e) := k in let '(a', b', c', d', e') := k' in
  (a =? a') && (b =? b') && (c =? c') && (d =? d') && (e =? e').
(** A key of eps and eps_inserted: vertex, cost, depth. *)
Definition vkey := (nat * nat * nat)%type.
Definition vkey_eqb (k k' : vkey) : bool := let '(a, b, c) := k in let '(a', b', c') := k' in (a =? a') && (b =? b') && (c =? c').
(** A key of edgesExtraCost and of abst_q: from, task, to, extra cost / cost, depth, task, to. *)
Definition xkey := (nat * nat * nat * nat)%type.
Definition xkey_eqb (k k' : xkey) : bool :=
  let '(a, b, c, d) := k in let '(a', b', c', d') := k' in (a =? a') && (b =? b') && (c =? c') && (d =? d').

Fixpoint look {K A} (eqk : K -> K -> bool) (m : list (K * A)) (k : K) : option A :=
  match m with
  | [] => None
  | (k', x) :: r => if eqk k k' then Some x else look eqk r k
  end.
Fixpoint store {K A} (eqk : K -> K -> bool) (m : list (K * A)) (k : K) (x : A) : list (K * A) :=
  match m with
  | [] => [(k, x)]
  | (k', x') :: r => if eqk k k' then (k, x) :: r else (k', x') :: store eqk r k x
  end.

(** The fields 0, 5 and 7 of tracingInfo; a negative field 5 is [None]. *)
Record info := { i_cost : nat; i_ref : option nat; i_extra : nat }.
(** sourceCost (1284-1285) *)
Definition source (i : info) : nat :=
  match i_ref i with
  | Some r => if i_extra i =? r then i_cost i else i_cost i + i_extra i
  | None => i_cost i + i_extra i
  end.

(** edges, edgesExtraCost, eps, the keys of eps_inserted with entries, prim_q, abst_q *)
Record sst := {
  s_edges : list (ekey * rel);
  s_extra : list (xkey * rel);
  s_eps : list (vkey * rel);
  s_ins : list vkey;
  s_prim : list (vkey * list info);     (* cost, task, to *)
  s_abst : list (xkey * list info) }.   (* cost, depth, task, to *)
Definition with_edges s e := {| s_edges := e; s_extra := s_extra s; s_eps := s_eps s; s_ins := s_ins s; s_prim := s_prim s; s_abst := s_abst s |}.
Definition with_extra s x := {| s_edges := s_edges s; s_extra := x; s_eps := s_eps s; s_ins := s_ins s; s_prim := s_prim s; s_abst := s_abst s |}.
Definition with_eps s e := {| s_edges := s_edges s; s_extra := s_extra s; s_eps := e; s_ins := s_ins s; s_prim := s_prim s; s_abst := s_abst s |}.
Definition with_ins s i := {| s_edges := s_edges s; s_extra := s_extra s; s_eps := s_eps s; s_ins := i; s_prim := s_prim s; s_abst := s_abst s |}.
Definition with_prim s q := {| s_edges := s_edges s; s_extra := s_extra s; s_eps := s_eps s; s_ins := s_ins s; s_prim := q; s_abst := s_abst s |}.
Definition with_abst s q := {| s_edges := s_edges s; s_extra := s_extra s; s_eps := s_eps s; s_ins := s_ins s; s_prim := s_prim s; s_abst := q |}.

Definition edge (s : sst) (k : ekey) : option rel := look ekey_eqb (s_edges s) k.
(** ensureBDD (86-93) *)
Definition ensure (s : sst) (k : ekey) : sst := match edge s k with Some _ => s | None => with_edges s (store ekey_eqb (s_edges s) k []) end.
(** edges[..] = disjunction, for a key that is present *)
Definition add_edge (s : sst) (k : ekey) (R : rel) : option sst := R0 <- edge s k ;; Some (with_edges s (store ekey_eqb (s_edges s) k (union R0 R))).
(** The largest depth of the edge at a cost: rbegin (1309), lastOfCost (1526-1532). *)
Definition last_depth (s : sst) (from task to cost : nat) : option nat :=
  fold_left (fun o e => let '(a, b, c, d, e) := fst e in
                        if (a =? from) && (b =? task) && (c =? to) && (d =? cost) then Some (match o with Some m => Nat.max m e | None => e end) else o)
            (s_edges s) None.
(** The extra costs of an internal edge in increasing order (1373). *)
Definition extras (s : sst) (from task to : nat) : list (nat * rel) :=
  flat_map (fun x => match look xkey_eqb (s_extra s) (from, task, to, x) with Some R => [(x, R)] | None => [] end)
           (seq 0 (S (list_max (map (fun e => snd (fst e)) (s_extra s))))).

Section Aut.
  Variable P : problem.

  Definition n_actions : nat := length (p_cost P).
  Definition n_tasks : nat := length (p_prim P).

  (** methods_with_two_tasks (1171-1180) *)
  Definition twos : list (nat * method) :=
    filter (fun im => length (m_subs (snd im)) =? 2) (combine (seq 0 (length (p_methods P))) (p_methods P)).
  (** methods_with_two_tasks_vertex (1178) *)
  Definition vertex (m : nat) : nat := 2 + length (filter (fun im => fst im <? m) twos).
  Definition n_vertices : nat := 2 + length twos.
  (** tasks_per_method (1192-1203): the tasks are exchanged if the first ordering starts with 1 and does not end with 0. *)
  Definition tasks_of (m : method) : option (nat * nat) :=
    match m_subs m, m_ord m with
    | [a; b], (x, y) :: _ => Some (if (x =? 1) && negb (y =? 0) then (b, a) else (a, b))
    | _, _ => None
    end.

  (** image of a BDD over v and v'' under the action *)
  Definition image_of (a : nat) (R : rel) : option rel :=
    prec <- get (p_prec P) a ;; add <- get (p_add P) a ;; del <- get (p_del P) a ;;
    Some (map (fun x => (next_bst (fst x) add del, snd x)) (filter (fun x => all_bits (fst x) prec) R)).

  Section Layer.
    (** currentCost, currentDepthInAbstract *)
    Variables cc cd : nat.

    (** An action with positive costs (1242-1258). *)
    Definition costly (t : nat) : option bool :=
      if t <? n_actions then c <- get (p_cost P) t ;; Some (negb (c =? 0)) else Some false.
    (** addQ (1234-1265) *)
    Definition add_q (t to extra : nat) (ref : option nat) (only_nonempty : bool) (s : sst) : option sst :=
      let i := {| i_cost := cc; i_ref := ref; i_extra := extra |} in
      b <- costly t ;;
      if b : bool then
        c <- get (p_cost P) t ;;
        let k := (cc + extra + c, t, to) in
        let q := match look vkey_eqb (s_prim s) k with Some q => q | None => [] end in
        Some (with_prim s (store vkey_eqb (s_prim s) k (q ++ [i])))
      else
        let k := if extra =? 0 then (cc, cd + 1, t, to) else (cc + extra, 1, t, to) in
        let q := match look xkey_eqb (s_abst s) k with Some q => q | None => [] end in
        Some (with_abst s (store xkey_eqb (s_abst s) k (if negb only_nonempty || negb (is_zero q) then q ++ [i] else q))).

    (** Insertion of states reached with an extra cost (1387-1403, 1585-1611). *)
    Definition insert_later (t to extra : nat) (ref : nat) (R : rel) (s : sst) : option sst :=
      let k := (0, t, to, cc + extra, if extra =? 0 then cd else 0) in
      let s := ensure s k in
      R0 <- edge s k ;;
      if covered R R0 then add_q t to extra (Some ref) true s
      else s <- add_edge s k R ;; add_q t to extra (Some ref) false s.

    (** The loop over the extra costs (1373-1411): [tri] is addStateWithIntermediate. *)
    Fixpoint extra_loop (t2 to2 : nat) (xs : list (nat * rel)) (tri : list (bst * bst * bst)) (s : sst) : option (list (bst * bst * bst) * sst) :=
      match xs with
      | [] => Some (tri, s)
      | (x, X) :: r =>
          let part := filter (fun y => rmem (snd (fst y), snd y) X) tri in
          if is_zero part then extra_loop t2 to2 r tri s
          else
            s <- insert_later t2 to2 x x (map (fun y => (fst (fst y), snd y)) part) s ;;
            extra_loop t2 to2 r (filter (fun y => negb (rmem (snd (fst y), snd y) X)) tri) s
      end.

    (** One continuing edge (1358-1449); [lc], [ld] are lastCost and lastDepth. *)
    Definition continue_edge (lc ld : nat) (to : nat) (next : rel) (e : nat * nat) (s : sst) : option sst :=
      let '(t2, to2) := e in
      match edge s (to, t2, to2, lc, ld) with
      | None => Some s
      | Some B =>
          let k := (0, t2, to2, cc, cd) in
          let s := ensure s k in
          R0 <- edge s k ;;
          let tri := flat_map (fun x => map (fun y => (fst x, snd x, snd y)) (filter (fun y => bst_eqb (fst y) (snd x)) B)) next in
          let tri := filter (fun y => negb (rmem (fst (fst y), snd y) R0)) tri in
          if is_zero tri then Some s
          else
            '(tri, s) <- extra_loop t2 to2 (extras s to t2 to2) tri s ;;
            if is_zero tri then Some s
            else
              let add := map (fun y => (fst (fst y), snd y)) tri in
              R1 <- edge s k ;;
              if covered add R1 then Some s
              else
                s <- add_edge s k add ;;
                s <- add_q t2 to2 0 None false s ;;
                Some (with_ins s ((to, cc, cd) :: s_ins s))
      end.

    (** All pairs of a task and a vertex, in the order of the maps. *)
    Definition pairs : list (nat * nat) := list_prod (seq 0 n_tasks) (seq 0 n_vertices).

    (** An action on an edge from vertex 0 (1328-1469); the flag: a goal state is reached. *)
    Definition do_action (lc ld a to : nat) (R : rel) (s : sst) : option (bool * sst) :=
      next <- image_of a R ;;
      if is_zero next then Some (false, s)
      else
        E <- look vkey_eqb (s_eps s) (to, cc, cd) ;;
        if covered next E then Some (false, s)
        else
          let s := with_eps s (store vkey_eqb (s_eps s) (to, cc, cd) (union E next)) in
          s <- ofold (fun s e => continue_edge lc ld to next e s) pairs s ;;
          Some ((to =? 1) && existsb (fun x => all_bits (fst x) (p_goal P)) next, s).

    (** A method with one subtask (1481-1491) *)
    Definition do_unit (t to : nat) (R : rel) (s : sst) : option sst :=
      let k := (0, t, to, cc, cd) in
      let s := ensure s k in
      R0 <- edge s k ;;
      if covered R R0 then Some s else s <- add_edge s k R ;; add_q t to 0 None false s.

    (** The loop over the times at which the first task of the method has been finished before (1561-1622): [mv] is the vertex of the method,
        [sI] the states in sIntersect, [new_r] is actually_new_r_temp. *)
    Fixpoint eps_loop (mv snd_t to gh : nat) (new_r : rel) (times : list (nat * nat)) (sI : list bst) (s : sst) : option sst :=
      match times with
      | [] => Some s
      | (c, d) :: r =>
          if existsb (vkey_eqb (mv, c, d)) (s_ins s) then
            E <- look vkey_eqb (s_eps s) (mv, c, d) ;;
            let ei := filter (fun x => smem (snd x) sI) E in
            if is_zero ei then eps_loop mv snd_t to gh new_r r sI s
            else
              let ns := flat_map (fun x => map (fun y => (fst x, snd y)) (filter (fun y => bst_eqb (fst y) (snd x)) new_r)) ei in
              s <- insert_later snd_t to (c - gh) c ns s ;;
              let sI := filter (fun p => negb (smem p (map snd ei))) sI in
              if is_zero sI then Some s else eps_loop mv snd_t to gh new_r r sI s
          else eps_loop mv snd_t to gh new_r r sI s
      end.
    (** The costs and depths of that loop (1561-1562) *)
    Definition times (s : sst) (mv gh lc : nat) : list (nat * nat) :=
      flat_map (fun c => map (fun d => (c, d)) (seq 0 (length (filter (fun e => (fst (fst (fst e)) =? mv) && (snd (fst (fst e)) =? c)) (s_eps s)))))
               (seq gh (S lc - gh)).

    (** The loop over the depths at which the state can have occurred first (1534-1661) *)
    Fixpoint here_loop (mv fst_t snd_t to lc gh : nat) (new_r : rel) (ds : list nat) (known : list bst) (s : sst) : option (list bst * sst) :=
      match ds with
      | [] => Some (known, s)
      | d :: r =>
          let s := ensure s (0, fst_t, mv, gh, d) in
          X <- edge s (0, fst_t, mv, gh, d) ;;
          let inter := filter (fun p => rmem (p, p) X) known in
          if is_zero inter then here_loop mv fst_t snd_t to lc gh new_r r known s
          else
            s <- eps_loop mv snd_t to gh new_r (times s mv gh lc) inter s ;;
            let add := filter (fun y => smem (fst y) inter) new_r in
            let s := if is_zero add then s
                     else let k := (mv, snd_t, to, cc - gh) in
                          let X0 := match look xkey_eqb (s_extra s) k with Some X0 => X0 | None => [] end in
                          with_extra s (store xkey_eqb (s_extra s) k (union X0 add)) in
            let known := filter (fun p => negb (smem p inter)) known in
            if is_zero known then Some (known, s) else here_loop mv fst_t snd_t to lc gh new_r r known s
      end.
    (** The loop over the costs (1525-1662) *)
    Fixpoint known_loop (mv fst_t snd_t to lc : nat) (new_r : rel) (ghs : list nat) (known : list bst) (s : sst) : option sst :=
      match ghs with
      | [] => Some s
      | gh :: r =>
          match last_depth s 0 fst_t mv gh with
          | None => known_loop mv fst_t snd_t to lc new_r r known s
          | Some d =>
              '(known, s) <- here_loop mv fst_t snd_t to lc gh new_r (seq 0 (S (if gh =? cc then cd else d))) known s ;;
              known_loop mv fst_t snd_t to lc new_r r known s
          end
      end.

    (** A method with two subtasks (1493-1689); [m] is its number. *)
    Definition do_two (lc ld m : nat) (me : method) (to : nat) (R : rel) (s : sst) : option sst :=
      '(t1, t2) <- tasks_of me ;;
      let mv := vertex m in
      let ki := (mv, t2, to, cc, cd) in
      let s := ensure s ki in
      I0 <- edge s ki ;;
      let new_r := rminus R I0 in
      let kl := (0, t1, mv, lc, ld) in
      let s := ensure s kl in
      L <- edge s kl ;;
      let known := filter (fun p => rmem (p, p) L) (map fst R) in
      s <- (if is_zero known then Some s else known_loop mv t1 t2 to lc new_r (seq 0 (S lc)) known s) ;;
      s <- add_edge s ki R ;;
      let kc := (0, t1, mv, cc, cd) in
      let s := ensure s kc in
      C0 <- edge s kc ;;
      let ss := map (fun x => (fst x, fst x)) R in
      if covered ss C0 then add_q t1 mv 0 None true s
      else s <- add_edge s kc ss ;; add_q t1 mv 0 None false s.

    (** One method (1473-1690) *)
    Definition do_method (lc ld : nat) (to : nat) (R : rel) (s : sst) (im : nat * method) : option sst :=
      match m_subs (snd im) with
      | [] => Some s
      | [t] => do_unit t to R s
      | [_; _] => do_two lc ld (fst im) (snd im) to R s
      | _ => None
      end.
    (** taskToMethods (Model.cpp 1452-1480) *)
    Definition methods_of (t : nat) : list (nat * method) :=
      filter (fun im => m_task (snd im) =? t) (combine (seq 0 (length (p_methods P))) (p_methods P)).

    (** How the search ends. *)
    Inductive res := Go (s : sst) | Goal | EmptyState.

    (** One tracing entry of the queue (1282-1697); [done] are the handled costs. *)
    Definition do_entry (t to : nat) (i : info) (s : sst) : option res :=
      '(lc, ld) <- (if cd =? 0 then d <- last_depth s 0 t to (source i) ;; Some (source i, d) else Some (cc, cd - 1)) ;;
      R <- edge s (0, t, to, lc, ld) ;;
      if is_zero R then Some EmptyState
      else if t <? n_actions then
        '(g, s) <- do_action lc ld t to R s ;;
        Some (if g : bool then Goal else Go s)
      else s <- ofold (do_method lc ld to R) (methods_of t) s ;; Some (Go s).
    Fixpoint do_entries (t to : nat) (done : list nat) (is : list info) (s : sst) : option res :=
      match is with
      | [] => Some (Go s)
      | i :: r =>
          if memb (source i) done then do_entries t to done r s
          else x <- do_entry t to i s ;; match x with Go s => do_entries t to (source i :: done) r s | _ => Some x end
      end.
    (** The loop over the queue (1277-1698) *)
    Fixpoint do_queue (q : list (nat * nat * list info)) (s : sst) : option res :=
      match q with
      | [] => Some (Go s)
      | (t, to, is) :: r => x <- do_entries t to [] is s ;; match x with Go s => do_queue r s | _ => Some x end
      end.
  End Layer.

  (** The queues of a layer, in the order of the map. *)
  Definition prim_queue (s : sst) (c : nat) : list (nat * nat * list info) :=
    flat_map (fun e => match look vkey_eqb (s_prim s) (c, fst e, snd e) with Some is => [(e, is)] | None => [] end) pairs.
  Definition abst_queue (s : sst) (c d : nat) : list (nat * nat * list info) :=
    flat_map (fun e => match look xkey_eqb (s_abst s) (c, d, fst e, snd e) with Some is => [(e, is)] | None => [] end) pairs.
  Definition least (l : list nat) : option nat := match l with [] => None | x :: r => Some (fold_left Nat.min r x) end.
  (** The next layer (1712-1742): the next depth in abst_q[currentCost], or the next cost in prim_q; the outer [None]: the iterator behind the last entry of prim_q is dereferenced (1733);
      the inner [None]: no further layer, the problem is reported to be unsolvable. *)
  Definition next_layer (s : sst) (cc cd : nat) : option (option (nat * nat)) :=
    match least (map (fun e => snd (fst (fst (fst e)))) (filter (fun e => let '(c, d, _, _) := fst e in (c =? cc) && (cd <? d)) (s_abst s))) with
    | Some d => Some (Some (cc, d))
    | None =>
        match least (map (fun e => fst (fst (fst e))) (filter (fun e => cc <? fst (fst (fst e))) (s_prim s))) with
        | Some c => Some (Some (c, 0))
        | None => if existsb (fun e => let '(c, _, _, _) := fst e in cc <? c) (s_abst s) then None else Some None
        end
    end.
  (** Copying edges and eps to the new layer (1747-1761) *)
  Definition copy_layer (s : sst) (cc cd cc' cd' : nat) : option sst :=
    s <- ofold (fun s e => let '(a, b, c, d, e') := fst e in
                  if (d =? cc) && (e' =? cd) then let k := (a, b, c, cc', cd') in add_edge (ensure s k) k (snd e) else Some s) (s_edges s) s ;;
    ofold (fun s v => E <- look vkey_eqb (s_eps s) (v, cc, cd) ;; Some (with_eps s (store vkey_eqb (s_eps s) (v, cc', cd') E))) (seq 0 n_vertices) s.

  Inductive outcome := Length (c : nat) | Unsolvable | Stopped | OutOfFuel.
  (** The main loop (1276-1764) *)
  Fixpoint run (fuel cc cd : nat) (q : list (nat * nat * list info)) (s : sst) : option outcome :=
    match fuel with
    | 0 => Some OutOfFuel
    | S fuel =>
        x <- do_queue cc cd q s ;;
        match x with
        | Goal => Some (Length cc)
        | EmptyState => Some Stopped
        | Go s =>
            l <- next_layer s cc cd ;;
            match l with
            | None => Some Unsolvable
            | Some (cc', cd') =>
                s <- copy_layer s cc cd cc' cd' ;;
                run fuel cc' cd' (if cd' =? 0 then prim_queue s cc' else abst_queue s cc' cd') s
            end
        end
    end.

  Definition s0_bst : bst := map (fun f => memb f (p_s0 P)) (seq 0 (p_nfacts P)).
  (** Initial automaton (1206-1224) *)
  Definition start : sst :=
    {| s_edges := [((0, p_init P, 1, 0, 0), [(s0_bst, [])])]; s_extra := []; s_eps := map (fun v => ((v, 0, 0), [])) (seq 0 n_vertices); s_ins := [];
       s_prim := []; s_abst := [((0, 1, p_init P, 1), [{| i_cost := 0; i_ref := None; i_extra := 0 |}])] |}.
  (** tasks_per_method is filled for all methods with two subtasks (1192-1203). *)
  Definition plan_symbolic (fuel : nat) : option outcome :=
    _ <- omap (fun im => tasks_of (snd im)) twos ;;
    run fuel 0 0 [] start.
End Aut.
