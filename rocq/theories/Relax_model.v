(** Model of the delete-relaxation heuristics on a STRIPS model:
    src/heuristics/rcHeuristics/hsAddFF.cpp, hsFilter.cpp and hsLmCut.cpp.
    Simplifications: facts and operators are [nat]; heuristic values are natural numbers without overflow, [None] standing
    for UNREACHABLE (INT_MAX) resp. hUnreachable (so the "value has been cut" branches of hsAddFF 157-165 and 181-189 are
    absent); the sets [s] (bucketSet) and [g] (noDelIntSet) are duplicate-free lists in iteration order (C22, C25 prove
    the two containers to be such sets); arrays that are overwritten before being read in a call are not carried over,
    the others ([reachedBy]) start with arbitrary contents; assertions, output and the stored cuts' memory are left out.
    The priority queue is the model of IntPairHeap. An access outside an array is [None]. *)
From Verif Require Import Base Heap_model.

(** The part of class Model (Model.h) that is used: numStateBits, precLists, addLists, actionCosts, precToAction,
    precLessActions. numActions, numPrecs and numAdds are the lengths. *)
Record strips := {
  st_nf : nat;
  st_pre : list (list nat);
  st_add : list (list nat);
  st_cost : list nat;
  st_p2a : list (list nat);
  st_precless : list nat }.

Definition st_nops (m : strips) : nat := length (st_pre m).

(** RCModelFactory.cpp 244-267 createInverseMappings: for every fact the ascending list of the actions that have it as
    precondition (a std::set per fact). *)
Definition inverse_mapping (nf : nat) (pre : list (list nat)) : list (list nat) :=
  map (fun f => filter (fun i => memb f (nth i pre [])) (seq 0 (length pre))) (seq 0 nf).

(** Model.cpp 1668-1680 and RCModelFactory.cpp 146-157: the actions without precondition. *)
Definition precless (pre : list (list nat)) : list nat :=
  filter (fun i => Nat.eqb (length (nth i pre [])) 0) (seq 0 (length pre)).

(** [queue->add(key, val)]. *)
Definition pq_add (al : nat -> list Z) (h : heap) (k v : nat) : option heap := heap_add al h (Z.of_nat k) (Z.of_nat v).
(** [topKey], [topVal], [pop]. *)
Definition pq_pop (h : heap) : option (nat * nat * heap) :=
  k <- heap_topKey h ;;
  v <- heap_topVal h ;;
  h' <- heap_pop h ;;
  Some (Z.to_nat k, Z.to_nat v, h').

(** [v < w] where [w] may be UNREACHABLE. *)
Definition lt_unr (v : nat) (w : option nat) : bool := match w with None => true | Some x => Nat.ltb v x end.

(** ** hsAddFF *)

(** hsAddFF.h: the enumeration of the two heuristics. *)
Inductive aff_kind := sasAdd | sasFF.

(** hsAddFF.h: numSatPrecs, hValOp, hValProp, reachedBy ([None] = NOACTION) and queue. *)
Record aff := {
  a_unsat : list Z;
  a_op : list nat;
  a_hv : list (option nat);
  a_rb : list (option nat);
  a_q : heap }.

(** hsAddFF.cpp 121-125 *)
Definition aff_init_fact (al : nat -> list Z) (x : aff) (f : nat) : option aff :=
  q <- pq_add al (a_q x) 0 f ;;
  hv <- set (a_hv x) f (Some 0) ;;
  rb <- set (a_rb x) f None ;;
  Some {| a_unsat := a_unsat x; a_op := a_op x; a_hv := hv; a_rb := rb; a_q := q |}.

(** hsAddFF.cpp 127-135 *)
Definition aff_init_precless (al : nat -> list Z) (m : strips) (x : aff) (ac : nat) : option aff :=
  adds <- get (st_add m) ac ;;
  c <- get (st_cost m) ac ;;
  ofold (fun x f =>
    hv <- set (a_hv x) f (Some c) ;;
    rb <- set (a_rb x) f (Some ac) ;;
    q <- pq_add al (a_q x) c f ;;
    Some {| a_unsat := a_unsat x; a_op := a_op x; a_hv := hv; a_rb := rb; a_q := q |}) adds x.

(** hsAddFF.cpp 171-178: one add effect of an operator whose preconditions are all reached. *)
Definition aff_add (al : nat -> list Z) (op v : nat) (x : aff) (f : nat) : option aff :=
  h <- get (a_hv x) f ;;
  if lt_unr v h then
    hv <- set (a_hv x) f (Some v) ;;
    rb <- set (a_rb x) f (Some op) ;;
    q <- pq_add al (a_q x) v f ;;
    Some {| a_unsat := a_unsat x; a_op := a_op x; a_hv := hv; a_rb := rb; a_q := q |}
  else Some x.

(** hsAddFF.cpp 147-180: one operator that has the popped fact as precondition. *)
Definition aff_op (al : nat -> list Z) (m : strips) (k : aff_kind) (pVal : nat) (x : aff) (op : nat) : option aff :=
  h <- get (a_op x) op ;;
  c <- get (st_cost m) op ;;
  let newVal := match k with sasFF => Nat.max h (c + pVal) | sasAdd => h + pVal end in
  ops <- set (a_op x) op newVal ;;
  u <- get (a_unsat x) op ;;
  us <- set (a_unsat x) op (u - 1)%Z ;;
  let x1 := {| a_unsat := us; a_op := ops; a_hv := a_hv x; a_rb := a_rb x; a_q := a_q x |} in
  if Z.eqb (u - 1) 0 then
    adds <- get (st_add m) op ;;
    ofold (aff_add al op newVal) adds x1
  else Some x1.

(** intDataStructures/IntStack.cpp 26-28: push writes at the current position without a bound check; the array has
    numStateBits cells ([cap]). The stack is a list, top first. *)
Definition ff_push (cap : nat) (st : list nat) (f : nat) : option (list nat) :=
  if Nat.ltb (length st) cap then Some (f :: st) else None.

(** hsAddFF.cpp 80-95, the inner loop: [mf] = markedFs, [mo] = markedOps (noDelIntSets, in reverse insertion order).
    Every round takes one entry off the stack, and each fact is expanded once. *)
Fixpoint ff_loop (fuel : nat) (m : strips) (rb : list (option nat)) (st mf mo : list nat) : option (list nat * list nat) :=
  match st with
  | [] => Some (mf, mo)
  | f :: st' =>
      match fuel with
      | O => None
      | S n =>
          if memb f mf then ff_loop n m rb st' mf mo
          else
            r <- get rb f ;;
            match r with
            | None => ff_loop n m rb st' (f :: mf) mo
            | Some op =>
                ps <- get (st_pre m) op ;;
                st2 <- ofold (ff_push (st_nf m)) ps st' ;;
                ff_loop n m rb st2 (f :: mf) (if memb op mo then mo else op :: mo)
            end
      end
  end.

(** Enough rounds for [ff_loop]: every fact is expanded at most once. *)
Definition ff_fuel (m : strips) : nat := S (S (st_nf m) + st_nf m * list_sum (map (@length nat) (st_pre m))).

(** hsAddFF.cpp 72-105. markedOps.getSize() if all actions cost one, otherwise the sum of the costs. *)
Definition ff_extract (m : strips) (rb : list (option nat)) (g : list nat) : option (list nat) :=
  '(_, mo) <- ofold (fun '(mf, mo) f =>
      st <- ff_push (st_nf m) [] f ;;
      ff_loop (ff_fuel m) m rb st mf mo) g ([], []) ;;
  Some (rev mo).

Definition ff_value (m : strips) (ops : list nat) : option nat :=
  if forallb (Nat.eqb 1) (st_cost m) then Some (length ops)
  else cs <- omap (get (st_cost m)) ops ;; Some (list_sum cs).

(** hsAddFF.cpp 136-191: the main loop. The result is [Some None] for UNREACHABLE and [Some (Some v)] for the value
    v. *)
Fixpoint aff_loop (fuel : nat) (al : nat -> list Z) (m : strips) (k : aff_kind) (g : list nat) (numGoals : Z) (x : aff)
  : option (option nat) :=
  if heap_isEmpty (a_q x) then Some None
  else match fuel with
  | O => None
  | S n =>
      '(pVal, prop, q) <- pq_pop (a_q x) ;;
      let x1 := {| a_unsat := a_unsat x; a_op := a_op x; a_hv := a_hv x; a_rb := a_rb x; a_q := q |} in
      h <- get (a_hv x1) prop ;;
      if (match h with Some v => Nat.ltb v pVal | None => false end) then aff_loop n al m k g numGoals x1
      else
        let ng := if memb prop g then (numGoals - 1)%Z else numGoals in
        if memb prop g && Z.eqb ng 0 then
          match k with
          | sasAdd =>
              vs <- omap (fun f => h <- get (a_hv x1) f ;; h) g ;;
              Some (Some (list_sum vs))
          | sasFF =>
              ops <- ff_extract m (a_rb x1) g ;;
              v <- ff_value m ops ;;
              Some (Some v)
          end
        else
          ops <- get (st_p2a m) prop ;;
          x2 <- ofold (aff_op al m k pVal) ops x1 ;;
          aff_loop n al m k g ng x2
  end.

(** Enough rounds: every operator queues its add effects at most once. *)
Definition aff_fuel (m : strips) (s : list nat) : nat :=
  length s + list_sum (map (fun ac => length (nth ac (st_add m) [])) (st_precless m)) + list_sum (map (@length nat) (st_add m)).

(** hsAddFF.cpp 107-191. [q0]: the queue kept from the last call; [rb0]: the old contents of reachedBy. *)
Definition aff_value (al : nat -> list Z) (m : strips) (k : aff_kind) (q0 : heap) (rb0 : list (option nat)) (s g : list nat)
  : option (option nat) :=
  match g with
  | [] => Some (Some 0)
  | _ =>
      let x0 := {| a_unsat := map (fun l => Z.of_nat (length l)) (st_pre m);
                   a_op := st_cost m;
                   a_hv := repeat None (st_nf m);
                   a_rb := rb0;
                   a_q := heap_clear q0 |} in
      x1 <- ofold (aff_init_fact al) s x0 ;;
      x2 <- ofold (aff_init_precless al m) (st_precless m) x1 ;;
      aff_loop (aff_fuel m s) al m k g (Z.of_nat (length g)) x2
  end.

(** hsFilter.cpp 20-27 *)
Definition filter_value (al : nat -> list Z) (m : strips) (k : aff_kind) (q0 : heap) (rb0 : list (option nat)) (s g : list nat)
  : option (option nat) :=
  h <- aff_value al m k q0 rb0 s g ;;
  Some (match h with Some _ => Some 0 | None => None end).

(** ** hsLmCut: h^max *)

(** hsLmCut.h: unsatPrecs, maxPrec ([None] = UNREACHABLE), hVal, heap. *)
Record hmx := {
  m_unsat : list Z;
  m_maxp : list (option nat);
  m_hv : list (option nat);
  m_q : heap }.

(** hsLmCut.cpp 263-267 *)
Definition hm_init_fact (al : nat -> list Z) (x : hmx) (f : nat) : option hmx :=
  q <- pq_add al (m_q x) 0 f ;;
  hv <- set (m_hv x) f (Some 0) ;;
  Some {| m_unsat := m_unsat x; m_maxp := m_maxp x; m_hv := hv; m_q := q |}.

(** hsLmCut.cpp 269-276. The original costs are used here. *)
Definition hm_init_precless (al : nat -> list Z) (m : strips) (x : hmx) (op : nat) : option hmx :=
  adds <- get (st_add m) op ;;
  c <- get (st_cost m) op ;;
  ofold (fun x f =>
    hv <- set (m_hv x) f (Some c) ;;
    q <- pq_add al (m_q x) c f ;;
    Some {| m_unsat := m_unsat x; m_maxp := m_maxp x; m_hv := hv; m_q := q |}) adds x.

(** [hVal[maxPrec[op]]]; reading with an unset maxPrec is an access outside the array, and an unreachable maxPrec would
    make the sum below overflow. *)
Definition hm_prec_val (x : hmx) (op : nat) : option nat :=
  mp <- get (m_maxp x) op ;;
  p <- mp ;;
  h <- get (m_hv x) p ;;
  h.

(** hsLmCut.cpp 292-299: one add effect. [cs] is the array costs. *)
Definition hm_add (al : nat -> list Z) (cs : list nat) (op : nat) (x : hmx) (f : nat) : option hmx :=
  h <- get (m_hv x) f ;;
  pv <- hm_prec_val x op ;;
  c <- get cs op ;;
  if lt_unr (pv + c) h then
    hv <- set (m_hv x) f (Some (pv + c)) ;;
    q <- pq_add al (m_q x) (pv + c) f ;;
    Some {| m_unsat := m_unsat x; m_maxp := m_maxp x; m_hv := hv; m_q := q |}
  else Some x.

(** hsLmCut.cpp 284-301 *)
Definition hm_op (al : nat -> list Z) (m : strips) (cs : list nat) (prop : nat) (x : hmx) (op : nat) : option hmx :=
  mp <- get (m_maxp x) op ;;
  replace <- (match mp with
              | None => Some true
              | Some p =>
                  hp <- get (m_hv x) p ;;
                  hq <- get (m_hv x) prop ;;
                  Some (match hp with Some v => lt_unr v hq | None => false end)
              end) ;;
  mps <- (if replace : bool then set (m_maxp x) op (Some prop) else Some (m_maxp x)) ;;
  u <- get (m_unsat x) op ;;
  us <- set (m_unsat x) op (u - 1)%Z ;;
  let x1 := {| m_unsat := us; m_maxp := mps; m_hv := m_hv x; m_q := m_q x |} in
  if Z.eqb (u - 1) 0 then
    adds <- get (st_add m) op ;;
    ofold (hm_add al cs op) adds x1
  else Some x1.

(** hsLmCut.cpp 277-302 *)
Fixpoint hm_loop (fuel : nat) (al : nat -> list Z) (m : strips) (cs : list nat) (x : hmx) : option hmx :=
  if heap_isEmpty (m_q x) then Some x
  else match fuel with
  | O => None
  | S n =>
      '(pVal, prop, q) <- pq_pop (m_q x) ;;
      let x1 := {| m_unsat := m_unsat x; m_maxp := m_maxp x; m_hv := m_hv x; m_q := q |} in
      h <- get (m_hv x1) prop ;;
      if (match h with Some v => Nat.ltb v pVal | None => false end) then hm_loop n al m cs x1
      else
        ops <- get (st_p2a m) prop ;;
        x2 <- ofold (hm_op al m cs prop) ops x1 ;;
        hm_loop n al m cs x2
  end.

(** hsLmCut.cpp 304-314: the maximum over the goals; [Some None] = UNREACHABLE; otherwise value and maxPrecG. *)
Fixpoint hm_goal (hv : list (option nat)) (g : list nat) (acc : option (nat * nat)) : option (option (nat * nat)) :=
  match g with
  | [] => Some acc
  | f :: t =>
      h <- get hv f ;;
      match h with
      | None => Some None
      | Some v =>
          hm_goal hv t (match acc with
                        | None => Some (v, f)
                        | Some (r, mf) => if Nat.ltb r v then Some (v, f) else acc
                        end)
      end
  end.

(** hsLmCut.cpp 254-302 (the propagation) for a non-empty goal set. *)
Definition hm_run (al : nat -> list Z) (m : strips) (cs : list nat) (q0 : heap) (s : list nat) : option hmx :=
  let x0 := {| m_unsat := map (fun l => Z.of_nat (length l)) (st_pre m);
               m_maxp := repeat None (st_nops m);
               m_hv := repeat None (st_nf m);
               m_q := heap_clear q0 |} in
  x1 <- ofold (hm_init_fact al) s x0 ;;
  x2 <- ofold (hm_init_precless al m) (st_precless m) x1 ;;
  hm_loop (aff_fuel m s) al m cs x2.

(** hsLmCut.cpp 254-315 getHMax as a function of its own: [Some None] = UNREACHABLE. *)
Definition hmax_value (al : nat -> list Z) (m : strips) (cs : list nat) (q0 : heap) (s g : list nat) : option (option nat) :=
  match g with
  | [] => Some (Some 0)
  | _ =>
      x <- hm_run al m cs q0 s ;;
      r <- hm_goal (m_hv x) g None ;;
      Some (match r with None => None | Some (v, _) => Some v end)
  end.

(** ** hsLmCut: the cuts *)

(** hsLmCut.cpp 39-63: numAddToTask and addToTask, the ascending list of the operators adding a fact (an operator that
    lists an effect twice appears twice). *)
Definition add_to_task (m : strips) (f : nat) : list nat :=
  flat_map (fun i => repeat i (count_occ Nat.eq_dec (nth i (st_add m) []) f)) (seq 0 (length (st_add m))).

(** IntStack of numActions * 2 cells, top first. *)
Definition lm_push (m : strips) (st : list nat) (f : nat) : option (list nat) :=
  if Nat.ltb (length st) (st_nops m * 2) then Some (f :: st) else None.

(** goalZone (noDelIntSet), cut and precsOfCutNodes (bucketSets), as lists. *)
Record zone := { z_gz : list nat; z_cut : list nat; z_pcn : list nat; z_stack : list nat }.

Definition ins (x : nat) (l : list nat) : list nat := if memb x l then l else x :: l.
Definition del (x : nat) (l : list nat) : list nat := filter (fun y => negb (Nat.eqb x y)) l.

(** hsLmCut.cpp 190-208 *)
Definition gz_producer (m : strips) (cs : list nat) (x : hmx) (z : zone) (producer : nat) : option zone :=
  u <- get (m_unsat x) producer ;;
  if Z.ltb 0 u then Some z
  else
    mp <- get (m_maxp x) producer ;;
    p <- mp ;;
    if Nat.ltb p (st_nf m) then
      if memb p (z_gz z) then Some z
      else
        c <- get cs producer ;;
        if Nat.eqb c 0 then
          st <- lm_push m (z_stack z) p ;;
          Some {| z_gz := p :: z_gz z; z_cut := z_cut z; z_pcn := del p (z_pcn z); z_stack := st |}
        else Some {| z_gz := z_gz z; z_cut := ins producer (z_cut z); z_pcn := ins p (z_pcn z); z_stack := z_stack z |}
    else None.

(** hsLmCut.cpp 187-209 *)
Fixpoint gz_loop (fuel : nat) (m : strips) (cs : list nat) (x : hmx) (z : zone) : option zone :=
  match z_stack z with
  | [] => Some z
  | f :: st =>
      match fuel with
      | O => None
      | S n =>
          z' <- ofold (gz_producer m cs x) (add_to_task m f)
                  {| z_gz := z_gz z; z_cut := z_cut z; z_pcn := z_pcn z; z_stack := st |} ;;
          gz_loop n m cs x z'
      end
  end.

(** hsLmCut.cpp 183-210. Every fact enters the goal zone at most once. *)
Definition goal_zone (m : strips) (cs : list nat) (x : hmx) (maxPrecG : nat) : option zone :=
  st <- lm_push m [] maxPrecG ;;
  gz_loop (S (S (st_nf m))) m cs x {| z_gz := []; z_cut := []; z_pcn := []; z_stack := st |}.

(** hsLmCut.cpp 228-242: the operators adding a fact; [inl tt] when s0 has been reached. *)
Fixpoint fr_producers (m : strips) (x : hmx) (s gz : list nat) (ops : list nat) (vis st : list nat)
  : option (unit + (list nat * list nat)) :=
  match ops with
  | [] => Some (inr (vis, st))
  | op :: t =>
      u <- get (m_unsat x) op ;;
      if Z.ltb 0 u then fr_producers m x s gz t vis st
      else
        ps <- get (st_pre m) op ;;
        mp <- get (m_maxp x) op ;;
        p <- mp ;;
        if Nat.ltb p (st_nf m) then
          if memb p gz then fr_producers m x s gz t vis st
          else if Nat.eqb (length ps) 0 || memb p s then Some (inl tt)
          else if memb p vis then fr_producers m x s gz t vis st
          else st' <- lm_push m st p ;; fr_producers m x s gz t (p :: vis) st'
        else None
  end.

(** hsLmCut.cpp 226-245: backwards search for s0; [true] = reachedS0. *)
Fixpoint fr_loop (fuel : nat) (m : strips) (x : hmx) (s gz : list nat) (vis st : list nat) : option bool :=
  match st with
  | [] => Some false
  | f :: st' =>
      match fuel with
      | O => None
      | S n =>
          r <- fr_producers m x s gz (add_to_task m f) vis st' ;;
          match r with
          | inl _ => Some true
          | inr (vis', st2) => fr_loop n m x s gz vis' st2
          end
      end
  end.

(** hsLmCut.cpp 212-252. The set [remove] as a list, then the cut without the operators whose maxPrec is removed. *)
Definition forward_reach (m : strips) (x : hmx) (s : list nat) (z : zone) : option (list nat) :=
  rm <- ofold (fun rm f =>
          if memb f s then Some rm
          else
            st <- lm_push m [] f ;;
            r <- fr_loop (S (S (st_nf m))) m x s (z_gz z) [f] st ;;
            Some (if r : bool then rm else f :: rm)) (z_pcn z) [] ;;
  ofold (fun c op =>
    mp <- get (m_maxp x) op ;;
    p <- mp ;;
    if Nat.ltb p (st_nf m) then Some (if memb p rm then c else op :: c) else None) (z_cut z) [].

(** hsLmCut.cpp 155-160: minCosts; [None] inside = INT_MAX (empty cut). *)
Fixpoint min_costs (cs : list nat) (cut : list nat) (acc : option nat) : option (option nat) :=
  match cut with
  | [] => Some acc
  | op :: t =>
      c <- get cs op ;;
      min_costs cs t (match acc with None => Some c | Some a => if Nat.ltb c a then Some c else acc end)
  end.

(** hsLmCut.cpp 167-172 *)
Definition dec_costs (cs : list nat) (cut : list nat) (mc : nat) : option (list nat) :=
  ofold (fun cs op => c <- get cs op ;; set cs op (c - mc)) cut cs.

(** hsLmCut.cpp 129-180. An empty cut violates the assertions (with assertions off minCosts would be INT_MAX): [None].
    The result is the value and the cuts found, last first (the landmarks kept when storeCuts is set). *)
Fixpoint lmc_loop (fuel : nat) (al : nat -> list Z) (m : strips) (s g : list nat) (cs : list nat) (x : hmx) (hMax mpg : nat)
    (h : nat) (cuts : list (list nat)) : option (nat * list (list nat)) :=
  if Nat.eqb hMax 0 then Some (h, cuts)
  else match fuel with
  | O => None
  | S n =>
      z <- goal_zone m cs x mpg ;;
      cut <- forward_reach m x s z ;;
      mo <- min_costs cs cut None ;;
      mc <- mo ;;
      cs' <- dec_costs cs cut mc ;;
      x' <- hm_run al m cs' (m_q x) s ;;
      r <- hm_goal (m_hv x') g None ;;
      '(hMax', mpg') <- r ;;
      lmc_loop n al m s g cs' x' hMax' mpg' (h + mc) (cut :: cuts)
  end.

(** hsLmCut.cpp 93-181. [Some None] = UNREACHABLE. Each round makes an operator free, so numActions rounds suffice. *)
Definition lmcut_value (al : nat -> list Z) (m : strips) (q0 : heap) (s g : list nat)
  : option (option (nat * list (list nat))) :=
  match g with
  | [] => Some (Some (0, []))
  | _ =>
      x <- hm_run al m (st_cost m) q0 s ;;
      r <- hm_goal (m_hv x) g None ;;
      match r with
      | None => Some None
      | Some (hMax, mpg) =>
          r <- lmc_loop (S (st_nops m)) al m s g (st_cost m) x hMax mpg 0 [] ;;
          Some (Some r)
      end
  end.
