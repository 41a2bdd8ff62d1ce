(** Models of the integer containers of src/intDataStructures: noDelIntSet, bIntSet, bucketSet, delIterIntSet, IntStack,
    FlexIntStack. An [int] is a [Z] without overflow. Fresh memory is an argument [al] (contents by size). [None] is
    undefined behaviour. Assertions are not modelled (release build). Destructors are not modelled. *)
From Verif Require Import Base IntUtil_model.
Local Open Scope Z_scope.

(** Array accesses with an [int] index. *)
Definition zget {A} (l : list A) (i : Z) : option A := if Z.ltb i 0 then None else get l (Z.to_nat i).
Definition zset {A} (l : list A) (i : Z) (v : A) : option (list A) := if Z.ltb i 0 then None else set l (Z.to_nat i) v.

(** ** noDelIntSet.h / bIntSet.h: members; containerSize is the length of [ib]. *)
Record iset := { ib : list bool; ii : list Z; icur : nat; iiter : nat }.

(** noDelIntSet.cpp 19-27, bIntSet.cpp 21-29. iterI is -1 before the first getFirst; no operation here reads it before. *)
Definition is_init (al : nat -> list Z) (size : nat) : iset :=
  {| ib := repeat false size; ii := al size; icur := 0; iiter := 0 |}.

(** noDelIntSet.cpp 154-160, bIntSet.cpp 44-49 (append) *)
Definition is_insert (s : iset) (i : Z) : option iset :=
  b <- zget (ib s) i ;;
  if b then Some s
  else
    ib' <- zset (ib s) i true ;;
    ii' <- set (ii s) (icur s) i ;;
    Some {| ib := ib'; ii := ii'; icur := S (icur s); iiter := iiter s |}.

(** noDelIntSet.cpp 162-164, 173-175, 192-195 *)
Definition is_isEmpty (s : iset) : bool := Nat.eqb (icur s) 0.
Definition is_getSize (s : iset) : nat := icur s.
Definition is_get (s : iset) (i : Z) : option bool := zget (ib s) i.

(** noDelIntSet.cpp 177-182 *)
Definition is_getFirst (s : iset) : option (Z * iset) :=
  if Nat.eqb (icur s) 0 then Some (-1, s)
  else x <- get (ii s) 0 ;; Some (x, {| ib := ib s; ii := ii s; icur := icur s; iiter := 0 |}).

(** noDelIntSet.cpp 184-190 *)
Definition is_getNext (s : iset) : option (Z * iset) :=
  let s' := {| ib := ib s; ii := ii s; icur := icur s; iiter := S (iiter s) |} in
  if Nat.ltb (iiter s') (icur s) then x <- get (ii s) (iiter s') ;; Some (x, s') else Some (-1, s').

(** The idiom [for (int i = s.getFirst(); i >= 0; i = s.getNext()) body], the body not touching [s]. *)
Fixpoint is_loop {A} (fuel : nat) (body : A -> Z -> option A) (acc : A) (s : iset) (i : Z) : option (A * iset) :=
  match fuel with
  | O => None
  | S f =>
      if Z.ltb i 0 then Some (acc, s)
      else
        acc' <- body acc i ;;
        '(j, s') <- is_getNext s ;;
        is_loop f body acc' s' j
  end.
Definition is_foreach {A} (body : A -> Z -> option A) (acc : A) (s : iset) : option (A * iset) :=
  '(i, s') <- is_getFirst s ;; is_loop (S (S (icur s))) body acc s' i.

(** noDelIntSet.cpp 166-171, bIntSet.cpp 65-70: here the body writes the flags of the set iterated over; getFirst and getNext do
    not read them, so the flags are the accumulator. *)
Definition is_clear (s : iset) : option iset :=
  '(fl, s') <- is_foreach (fun fl i => zset fl i false) (ib s) s ;;
  Some {| ib := fl; ii := ii s'; icur := 0; iiter := iiter s' |}.

(** noDelIntSet.cpp 34-41. The iterated set is not returned (only its iterator position changes). *)
Definition is_clone (al : nat -> list Z) (s : iset) : option iset :=
  '(r, _) <- is_foreach is_insert (is_init al (length (ib s))) s ;; Some r.

(** noDelIntSet.cpp 43-58 *)
Definition is_union (al : nat -> list Z) (a b : iset) : option iset :=
  let '(less, more) := if Nat.ltb (length (ib b)) (length (ib a)) then (b, a) else (a, b) in
  that <- is_clone al more ;;
  '(r, _) <- is_foreach is_insert that less ;; Some r.

(** noDelIntSet.cpp 60-72; [result] is neither [a] nor [b]. *)
Definition is_union_into (result a b : iset) : option iset :=
  r0 <- is_clear result ;;
  '(r1, _) <- is_foreach is_insert r0 a ;;
  '(r2, _) <- is_foreach is_insert r1 b ;; Some r2.

(** noDelIntSet.cpp 97: the condition guarding the insertion *)
Definition inter_body (more : iset) (r : iset) (i : Z) : option iset :=
  if Z.leb (Z.of_nat (length (ib more))) i then
    b <- is_get more i ;; if b then is_insert r i else Some r
  else Some r.

(** noDelIntSet.cpp 74-101 *)
Definition is_inter (al : nat -> list Z) (a b : iset) : option iset :=
  let num := if Nat.ltb (length (ib b)) (length (ib a)) then length (ib a) else length (ib b) in
  let '(less, more) := if Nat.ltb (icur b) (icur a) then (b, a) else (a, b) in
  '(r, _) <- is_foreach (inter_body more) (is_init al num) less ;; Some r.

(** noDelIntSet.cpp 103-123 *)
Definition is_inter_into (result a b : iset) : option iset :=
  r0 <- is_clear result ;;
  let '(less, more) := if Nat.ltb (icur b) (icur a) then (b, a) else (a, b) in
  '(r, _) <- is_foreach (inter_body more) r0 less ;; Some r.

(** noDelIntSet.cpp 137 *)
Definition minus_body (second : iset) (r : iset) (i : Z) : option iset :=
  if Z.leb (Z.of_nat (length (ib second))) i then is_insert r i
  else b <- is_get second i ;; if b then Some r else is_insert r i.

(** noDelIntSet.cpp 125-141 *)
Definition is_minus (al : nat -> list Z) (a b : iset) : option iset :=
  let num := if Nat.ltb (length (ib b)) (length (ib a)) then length (ib a) else length (ib b) in
  '(r, _) <- is_foreach (minus_body b) (is_init al num) a ;; Some r.

(** noDelIntSet.cpp 143-152 *)
Definition is_minus_into (result a b : iset) : option iset :=
  r0 <- is_clear result ;;
  '(r, _) <- is_foreach (minus_body b) r0 a ;; Some r.

(** noDelIntSet.cpp 197-199, bIntSet.cpp 95-97 *)
Definition is_sort (s : iset) : option iset :=
  a <- sort (ii s) 0 (icur s) ;; Some {| ib := ib s; ii := a; icur := icur s; iiter := iiter s |}.

(** ** bIntSet.cpp: [is_insert] is append; the others as above. *)
Definition int_max : Z := 2147483647.

(** bIntSet.cpp 36-42 *)
Definition bs_insert (s : iset) (i : Z) : option iset :=
  b <- zget (ib s) i ;;
  if b then Some s else s' <- is_insert s i ;; is_sort s'.

(** bIntSet.cpp 51-59 *)
Definition bs_erase (s : iset) (i : Z) : option iset :=
  b <- zget (ib s) i ;;
  if b then
    ib' <- zset (ib s) i false ;;
    k <- indexOf (ii s) 0 (icur s) i ;;
    ii' <- zset (ii s) k int_max ;;
    a <- sort ii' 0 (icur s) ;;
    Some {| ib := ib'; ii := a; icur := (icur s - 1)%nat; iiter := iiter s |}
  else Some s.

(** ** bucketSet.h; containersize is the length of [kb], currentSize may in principle be negative. *)
Record bucket := { kb : list bool; kcur : Z; kiter : nat; knum : Z }.

(** bucketSet.cpp 46-53 *)
Definition k_clear (s : bucket) : bucket :=
  if Z.ltb 0 (kcur s) then {| kb := map (fun _ => false) (kb s); kcur := 0; kiter := kiter s; knum := knum s |} else s.

(** bucketSet.cpp 16-21; [alb] gives fresh memory. iIter and numIterated are 0 before they are first written. *)
Definition k_init (alb : nat -> list bool) (size : nat) : bucket :=
  k_clear {| kb := alb size; kcur := 1; kiter := 0; knum := 0 |}.

(** bucketSet.cpp 26-32 *)
Definition k_insert (s : bucket) (i : Z) : option bucket :=
  b <- zget (kb s) i ;;
  if b then Some s
  else kb' <- zset (kb s) i true ;; Some {| kb := kb'; kcur := kcur s + 1; kiter := kiter s; knum := knum s |}.

(** bucketSet.cpp 34-40 *)
Definition k_erase (s : bucket) (i : Z) : option bucket :=
  b <- zget (kb s) i ;;
  if b then kb' <- zset (kb s) i false ;; Some {| kb := kb'; kcur := kcur s - 1; kiter := kiter s; knum := knum s |}
  else Some s.

(** bucketSet.cpp 42-44, 55-57, 113-116 *)
Definition k_isEmpty (s : bucket) : bool := Z.eqb (kcur s) 0.
Definition k_getSize (s : bucket) : Z := kcur s.
Definition k_get (s : bucket) (i : Z) : option bool := zget (kb s) i.

(** The loops of bucketSet.cpp 62-68, 75-81, 88-95, 102-109: the first set position from [i] on. *)
Fixpoint find_true (l : list bool) (i : nat) : option nat :=
  match l with
  | [] => None
  | b :: r => match i with
              | O => if b then Some O else option_map S (find_true r 0)
              | S i' => option_map S (find_true r i')
              end
  end.

(** bucketSet.cpp 59-70 *)
Definition k_getFirst (s : bucket) : Z * bucket :=
  if Z.eqb (kcur s) 0 then (-1, s)
  else match find_true (kb s) 0 with
       | Some i => (Z.of_nat i, {| kb := kb s; kcur := kcur s; kiter := S i; knum := 1 |})
       | None => (-1, s)
       end.

(** bucketSet.cpp 72-83 *)
Definition k_getNext (s : bucket) : Z * bucket :=
  if Z.eqb (knum s) (kcur s) then (-1, s)
  else match find_true (kb s) (kiter s) with
       | Some i => (Z.of_nat i, {| kb := kb s; kcur := kcur s; kiter := S i; knum := knum s + 1 |})
       | None => (-1, s)
       end.

(** bucketSet.cpp 85-97, 99-111 *)
Definition k_remove_from (s : bucket) (start : nat) : option (Z * bucket) :=
  if Z.eqb (kcur s) 0 then Some (-1, s)
  else match find_true (kb s) start with
       | Some i => kb' <- set (kb s) i false ;;
                   Some (Z.of_nat i, {| kb := kb'; kcur := kcur s - 1; kiter := S i; knum := knum s |})
       | None => Some (-1, s)
       end.
Definition k_removeFirst (s : bucket) : option (Z * bucket) := k_remove_from s 0.
Definition k_removeNext (s : bucket) : option (Z * bucket) := k_remove_from s (kiter s).

(** ** delIterIntSet.h 13-19: list nodes live in a store indexed by allocation; [None] cells are freed nodes. [value], [prev] and
    [next] are zero/null initially ([new llInt()] value-initialises). *)
Record llnode := { lf : bool; ll : bool; lv : Z; lp : option nat; ln : option nat }.
Record dset := { db : list bool; dn : list (option llnode); dcur : Z; dfirst : option nat; dlast : option nat; dit : option nat }.

(** Dereferencing a pointer. *)
Definition deref (st : list (option llnode)) (p : option nat) : option llnode :=
  match p with None => None | Some k => match get st k with Some (Some n) => Some n | _ => None end end.
Definition upd (st : list (option llnode)) (p : option nat) (f : llnode -> llnode) : option (list (option llnode)) :=
  match p with None => None | Some k => n <- deref st p ;; set st k (Some (f n)) end.
Definition free (st : list (option llnode)) (p : option nat) : option (list (option llnode)) :=
  match p with None => None | Some k => _ <- deref st p ;; set st k None end.
Definition with_first n := {| lf := true; ll := ll n; lv := lv n; lp := lp n; ln := ln n |}.
Definition with_last n := {| lf := lf n; ll := true; lv := lv n; lp := lp n; ln := ln n |}.
Definition with_prev p n := {| lf := lf n; ll := ll n; lv := lv n; lp := p; ln := ln n |}.
Definition with_next p n := {| lf := lf n; ll := ll n; lv := lv n; lp := lp n; ln := p |}.

(** delIterIntSet.cpp 23-30 *)
Definition d_init (size : nat) : dset :=
  {| db := repeat false size; dn := []; dcur := 0; dfirst := None; dlast := None; dit := None |}.

(** delIterIntSet.cpp 36-54 *)
Definition d_insert (s : dset) (i : Z) : option dset :=
  b <- zget (db s) i ;;
  if b then Some s
  else
    db' <- zset (db s) i true ;;
    let e := Some (length (dn s)) in
    if Z.eqb (dcur s) 0 then
      Some {| db := db'; dn := dn s ++ [Some {| lf := true; ll := true; lv := i; lp := None; ln := None |}];
              dcur := dcur s + 1; dfirst := e; dlast := e; dit := dit s |}
    else
      let st := dn s ++ [Some {| lf := false; ll := false; lv := i; lp := None; ln := dlast s |}] in
      st' <- upd st (dlast s) (with_prev e) ;;
      Some {| db := db'; dn := st'; dcur := dcur s + 1; dfirst := dfirst s; dlast := e; dit := dit s |}.

(** delIterIntSet.cpp 67-72 *)
Definition d_getFirst (s : dset) : option (Z * dset) :=
  if Z.eqb (dcur s) 0 then Some (-1, s)
  else
    n <- deref (dn s) (dfirst s) ;;
    Some (lv n, {| db := db s; dn := dn s; dcur := dcur s; dfirst := dfirst s; dlast := dlast s; dit := dfirst s |}).

(** delIterIntSet.cpp 74-86 *)
Definition d_getNext (s : dset) : option (Z * dset) :=
  if Z.eqb (dcur s) 0 then Some (-1, s)
  else match dit s with
       | None => Some (-1, s)
       | Some _ =>
           n <- deref (dn s) (dit s) ;;
           if ll n then Some (-1, {| db := db s; dn := dn s; dcur := dcur s; dfirst := dfirst s; dlast := dlast s; dit := None |})
           else
             m <- deref (dn s) (ln n) ;;
             Some (lv m, {| db := db s; dn := dn s; dcur := dcur s; dfirst := dfirst s; dlast := dlast s; dit := ln n |})
       end.

(** delIterIntSet.cpp 88-125 *)
Definition d_delCurrentGetNext (s : dset) : option (Z * dset) :=
  if Z.eqb (dcur s) 0 then Some (-1, s)
  else match dit s with
       | None => Some (-1, s)
       | Some _ =>
           n <- deref (dn s) (dit s) ;;
           db' <- zset (db s) (lv n) false ;;
           if lf n then
             '(st, fi, la) <- (if Z.ltb 1 (dcur s) then
                                 st <- upd (dn s) (ln n) with_first ;; Some (st, ln n, dlast s)
                               else Some (dn s, None, None)) ;;
             st' <- free st (dit s) ;;
             Some (-1, {| db := db'; dn := st'; dcur := dcur s - 1; dfirst := fi; dlast := la; dit := dit s |})
           else if ll n then
             st <- upd (dn s) (lp n) with_last ;;
             st' <- free st (dit s) ;;
             Some (-1, {| db := db'; dn := st'; dcur := dcur s - 1; dfirst := dfirst s; dlast := lp n; dit := dit s |})
           else
             st <- upd (dn s) (lp n) (with_next (ln n)) ;;
             st1 <- upd st (ln n) (with_prev (lp n)) ;;
             st2 <- free st1 (dit s) ;;
             m <- deref st2 (ln n) ;;
             Some (lv m, {| db := db'; dn := st2; dcur := dcur s - 1; dfirst := dfirst s; dlast := dlast s; dit := ln n |})
       end.

(** ** IntStack.h, FlexIntStack.h; containerSize is the length of [si]. *)
Record stack := { si : list Z; scur : nat; siter : nat }.

(** IntStack.cpp 21-25, FlexIntStack.cpp 22-26 *)
Definition st_init (al : nat -> list Z) (size : nat) : stack := {| si := al size; scur := 0; siter := 0 |}.

(** IntStack.cpp 31-33 *)
Definition st_push (s : stack) (i : Z) : option stack :=
  a <- set (si s) (scur s) i ;; Some {| si := a; scur := S (scur s); siter := siter s |}.

(** FlexIntStack.cpp 32-42 *)
Definition fst_push (al : nat -> list Z) (s : stack) (i : Z) : option stack :=
  let a := if Nat.eqb (scur s) (length (si s))
           then si s ++ skipn (length (si s)) (al (length (si s) * 2)%nat) else si s in
  a' <- set a (scur s) i ;; Some {| si := a'; scur := S (scur s); siter := siter s |}.

(** IntStack.cpp 35-39, FlexIntStack.cpp 44-48 *)
Definition st_pop (s : stack) : option (Z * stack) :=
  match scur s with
  | O => Some (-1, s)
  | S n => x <- get (si s) n ;; Some (x, {| si := si s; scur := n; siter := siter s |})
  end.

(** IntStack.cpp 27-29, 40-46 (FlexIntStack.cpp 28-30, 49-55) *)
Definition st_getSize (s : stack) : nat := scur s.
Definition st_isEmpty (s : stack) : bool := Nat.eqb (scur s) 0.
Definition st_clear (s : stack) : stack := {| si := si s; scur := 0; siter := siter s |}.

(** IntStack.cpp 48-61 (FlexIntStack.cpp 57-70) *)
Definition st_getFirst (s : stack) : option (Z * stack) :=
  if Nat.eqb (scur s) 0 then Some (-1, s)
  else x <- get (si s) 0 ;; Some (x, {| si := si s; scur := scur s; siter := 0 |}).
Definition st_getNext (s : stack) : option (Z * stack) :=
  let s' := {| si := si s; scur := scur s; siter := S (siter s) |} in
  if Nat.ltb (siter s') (scur s) then x <- get (si s) (siter s') ;; Some (x, s') else Some (-1, s').
