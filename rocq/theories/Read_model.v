(** Model of the reader: src/Model.cpp 1542-1894 (readClassical, readHierarchical up to the orderings of the methods), 2083-2087 (read), 2102-2172
    (readConditionalIntList, readIntList), on the characters of the input. The streams of the C++ library are modelled as far as they are
    used: getline, operator>> for int and bool. A value that is read although it was never written is undefined behaviour.
    Left out: the names of facts, variables, tasks and methods, the conditions of conditional effects (they are stored but used nowhere) and all output. *)
From Coq Require Import Ascii.
From Verif Require Import Base Htn_problem Order_model.

(** Outcome: a value, a call of exit, or undefined behaviour (also a loop that does not end). *)
Inductive res (A : Type) := ROk (a : A) | RExit | RUndef.
Arguments ROk {A} a. Arguments RExit {A}. Arguments RUndef {A}.
Definition rbind {A B} (r : res A) (f : A -> res B) : res B := match r with ROk a => f a | RExit => RExit | RUndef => RUndef end.
Notation "x <~ e ;; k" := (rbind e (fun x => k)) (at level 61, e at next level, right associativity).
Notation "' p <~ e ;; k" := (rbind e (fun p => k)) (at level 61, p pattern, e at next level, right associativity).
Definition known {A} (o : option A) : res A := match o with Some a => ROk a | None => RUndef end.

Definition text := list ascii.

(** *** Streams of a line *)

Definition is_space (c : ascii) : bool := let n := nat_of_ascii c in Nat.eqb n 32 || (Nat.leb 9 n && Nat.leb n 13).
Definition digit (c : ascii) : option Z := let n := nat_of_ascii c in if Nat.leb 48 n && Nat.leb n 57 then Some (Z.of_nat (n - 48)) else None.

Fixpoint skip_space (s : text) : text := match s with c :: r => if is_space c then skip_space r else s | [] => [] end.

(** The digits at the front: whether there are any, their value, the rest. *)
Fixpoint digits (s : text) (any : bool) (v : Z) : bool * Z * text :=
  match s with
  | c :: r => match digit c with Some d => digits r true (10 * v + d)%Z | None => (any, v, s) end
  | [] => (any, v, [])
  end.

(** stringstream: what is left, and failbit *)
Record sstream := { s_rest : text; s_fail : bool }.
Definition sopen (s : text) : sstream := {| s_rest := s; s_fail := false |}.

Definition int_min : Z := -2147483648.
Definition int_max : Z := 2147483647.

(** operator>> for an int variable with the content [x] ([None]: not initialised): without a next character the variable keeps its content, without
    digits it becomes 0, values outside the range are clamped; the last three fail, and so does everything afterwards. *)
Definition extract (s : sstream) (x : option Z) : sstream * option Z :=
  if s_fail s then (s, x) else
  match skip_space (s_rest s) with
  | [] => ({| s_rest := []; s_fail := true |}, x)
  | c :: r =>
      let neg := Ascii.eqb c "-"%char in
      let body := if neg || Ascii.eqb c "+"%char then r else c :: r in
      let '(any, v, rest) := digits body false 0%Z in
      let z := (if neg then - v else v)%Z in
      if any then
        if (z <? int_min)%Z then ({| s_rest := rest; s_fail := true |}, Some int_min)
        else if (int_max <? z)%Z then ({| s_rest := rest; s_fail := true |}, Some int_max)
        else ({| s_rest := rest; s_fail := false |}, Some z)
      else ({| s_rest := rest; s_fail := true |}, Some 0%Z)
  end.

(** operator>> for a bool: a number other than 0 and 1 yields true. (Values outside the range of long are clamped to it; here to that of int.) *)
Definition extract_bool (s : sstream) (b : option bool) : sstream * option bool :=
  if s_fail s then (s, b) else
  match skip_space (s_rest s) with
  | [] => ({| s_rest := []; s_fail := true |}, b)
  | _ :: _ => let '(s', v) := extract s None in (s', option_map (fun z => negb (z =? 0)%Z) v)
  end.

(** Model.cpp 2152-2172. When the stream has failed, the variable changes only by [x++]: the loop does not end for x >= 0 and counts up to -1
    otherwise. Before that each iteration reads a character, so the length of the line is enough [fuel]. *)
Fixpoint int_list_loop (fuel : nat) (s : sstream) (x : option Z) (v : list Z) : res (list Z) :=
  match x with
  | None => RUndef
  | Some z =>
      if (z =? -1)%Z then ROk v
      else if s_fail s then
        if (z <? 0)%Z then ROk (v ++ map (fun k => z + 1 + Z.of_nat k)%Z (seq 0 (Z.to_nat (-1 - z)))) else RUndef
      else
        match fuel with
        | O => RUndef
        | S f => let '(s', x') := extract s (Some (if (z <? 0)%Z then z + 1 else z))%Z in int_list_loop f s' x' (v ++ [if (z <? 0)%Z then z + 1 else z])%Z
        end
  end.
Definition read_int_list (l : text) : res (list Z) :=
  let '(s, x) := extract (sopen l) None in int_list_loop (length l) s x [].

(** Model.cpp 2110-2114: [n] conditions *)
Fixpoint read_conds (n : nat) (s : sstream) : res (sstream * list Z) :=
  match n with
  | O => ROk (s, [])
  | S m => let '(s', y) := extract s None in y <~ known y ;; '(s'', c) <~ read_conds m s' ;; ROk (s'', y :: c)
  end.
(** Model.cpp 2102-2149: the unconditional and the conditional effects *)
Fixpoint cond_list_loop (fuel : nat) (s : sstream) (x : option Z) (v : list Z) (cs : list (list Z * Z)) : res (list Z * list (list Z * Z)) :=
  match x with
  | None => RUndef
  | Some z =>
      if (z <? 0)%Z then ROk (v, cs) else
      match fuel with
      | O => RUndef
      | S f =>
          '(s1, c) <~ read_conds (Z.to_nat z) s ;;
          let '(s2, x1) := extract s1 (Some z) in
          e <~ known x1 ;;
          let '(s3, x2) := extract s2 x1 in
          match c with
          | [] => cond_list_loop f s3 x2 (v ++ [e]) cs
          | _ :: _ => cond_list_loop f s3 x2 v (cs ++ [(c, e)])
          end
      end
  end.
Definition read_cond_list (l : text) : res (list Z * list (list Z * Z)) :=
  let '(s, x) := extract (sopen l) None in cond_list_loop (length l) s x [] [].

(** A line with one int: [*sStream >> x] for an uninitialised x *)
Definition read_int (l : text) : res Z := known (snd (extract (sopen l) None)).
(** As size of an array: [new] fails for negative sizes. *)
Definition read_size (l : text) : res nat := z <~ read_int l ;; if (z <? 0)%Z then RUndef else ROk (Z.to_nat z).

(** *** The file *)

Definition nl : ascii := "010"%char.
(** istream with the string that the lines are read to *)
Record file := { f_rest : text; f_eof : bool; f_line : text }.
Definition fopen (t : text) : file := {| f_rest := t; f_eof := false; f_line := [] |}.

Fixpoint upto_nl (t : text) : text * text * bool :=
  match t with
  | [] => ([], [], true)
  | c :: r => if Ascii.eqb c nl then ([], r, false) else let '(a, b, e) := upto_nl r in (c :: a, b, e)
  end.
(** getline: at the end of the file the string keeps its content. *)
Definition getline (f : file) : file :=
  if f_eof f then f else let '(a, b, e) := upto_nl (f_rest f) in {| f_rest := b; f_eof := e; f_line := a |}.
Fixpoint getlines (n : nat) (f : file) : file := match n with O => f | S m => getlines m (getline f) end.

(** [n] times: read something. *)
Fixpoint repeat_read {A} (n : nat) (g : file -> res (A * file)) (f : file) : res (list A * file) :=
  match n with
  | O => ROk ([], f)
  | S m => '(a, f') <~ g f ;; '(l, f'') <~ repeat_read m g f' ;; ROk (a :: l, f'')
  end.

(** Model.cpp 1568-1578: first and last index of a variable *)
Definition read_var (f : file) : res (Z * Z * file) :=
  let f := getline f in
  let '(s, a) := extract (sopen (f_line f)) None in
  let '(_, b) := extract s None in
  a <~ known a ;; b <~ known b ;; ROk (a, b, f).

(** Model.cpp 1580-1581: the bits of variable [i] *)
Definition mark_var (T : list (option nat)) (i : nat) (v : Z * Z) : res (list (option nat)) :=
  fold_left (fun T j => T <~ T ;; if (j <? 0)%Z then RUndef else known (set T (Z.to_nat j) (Some i)))
            (map (fun k => fst v + Z.of_nat k)%Z (seq 0 (Z.to_nat (snd v - fst v + 1)))) (ROk T).
Fixpoint mark_vars (T : list (option nat)) (i : nat) (vs : list (Z * Z)) : res (list (option nat)) :=
  match vs with [] => ROk T | v :: r => T' <~ mark_var T i v ;; mark_vars T' (S i) r end.

(** Model.cpp 1596-1599 *)
Definition read_list_line (f : file) : res (list Z * file) := let f := getline f in l <~ read_int_list (f_line f) ;; ROk (l, f).

(** Model.cpp 1592-1602: one of strict mutexes, mutexes, invariants *)
Definition read_info (f : file) : res (list (list Z) * file) :=
  let f := getline f in
  n <~ read_size (f_line f) ;;
  '(ls, f) <~ repeat_read n read_list_line f ;;
  ROk (ls, getlines 2 f).

Record raction := { ra_cost : Z; ra_prec : list Z; ra_add : list Z; ra_del : list Z }.

(** Model.cpp 1631-1655 *)
Definition read_action (f : file) : res (raction * file) :=
  let f := getline f in
  c <~ read_int (f_line f) ;;
  let f := getline f in
  p <~ read_int_list (f_line f) ;;
  let f := getline f in
  a <~ read_cond_list (f_line f) ;;
  let f := getline f in
  d <~ read_cond_list (f_line f) ;;
  ROk ({| ra_cost := c; ra_prec := p; ra_add := fst a; ra_del := fst d |}, f).

(** set<int> *)
Fixpoint zset_add (x : Z) (l : list Z) : list Z :=
  match l with
  | [] => [x]
  | y :: r => if (x <? y)%Z then x :: l else if (x =? y)%Z then l else y :: zset_add x r
  end.
Definition zset (l : list Z) : list Z := fold_left (fun s x => zset_add x s) l [].
(** Model.cpp 1683-1709: a precondition list with duplicates is replaced. *)
Definition dedup (a : raction) : raction :=
  let s := zset (ra_prec a) in
  {| ra_cost := ra_cost a; ra_prec := if Nat.ltb (length s) (length (ra_prec a)) then s else ra_prec a; ra_add := ra_add a; ra_del := ra_del a |}.

(** Model.cpp 1711-1753, 1800-1819: precToAction, addToAction, delToAction: [lists] are the facts of each action. The set of a fact contains
    the actions, inserted in increasing order. *)
Fixpoint to_action (nf i : nat) (lists : list (list Z)) (T : list (list nat)) : option (list (list nat)) :=
  match lists with
  | [] => Some T
  | l :: r =>
      T' <- ofold (fun T f => if (f <? 0)%Z then None else row <- get T (Z.to_nat f) ;; set T (Z.to_nat f) (if memb i row then row else row ++ [i])) l T ;;
      to_action nf (S i) r T'
  end.

Record classical := {
  cl_nf : nat; cl_varof : list (option nat); cl_strict : list (list Z); cl_mutex : list (list Z); cl_inv : list (list Z);
  cl_acts : list raction; cl_pre2a : list (list nat); cl_add2a : list (list nat); cl_del2a : list (list nat);
  cl_s0 : list Z; cl_goal : list Z; cl_prim : list bool }.

(** Model.cpp 1781-1795: the variable isAbstract is shared by the iterations. *)
Fixpoint read_tasks (n : nat) (b : option bool) (f : file) : res (list bool * file) :=
  match n with
  | O => ROk ([], f)
  | S m =>
      let f := getline f in
      match f_line f with
      | [] => RExit
      | _ :: _ =>
          let '(_, b') := extract_bool (sopen (f_line f)) b in
          v <~ known b' ;;
          '(l, f') <~ read_tasks m b' f ;;
          ROk (negb v :: l, f')
      end
  end.

(** Model.cpp 1542-1797 *)
Definition read_classical (f : file) : res (classical * file) :=
  let f := getline f in
  nf <~ read_size (f_line f) ;;
  let f := getlines nf f in
  let f := getlines 3 f in
  nv <~ read_size (f_line f) ;;
  '(vars, f) <~ repeat_read nv read_var f ;;
  varof <~ mark_vars (repeat None nf) 0 vars ;;
  let f := getlines 2 f in
  '(strict, f) <~ read_info f ;;
  '(mutex, f) <~ read_info f ;;
  '(inv, f) <~ read_info f ;;
  let f := getline f in
  na <~ read_size (f_line f) ;;
  '(acts, f) <~ repeat_read na read_action f ;;
  let acts := map dedup acts in
  p2a <~ known (to_action nf 0 (map ra_prec acts) (repeat [] nf)) ;;
  a2a <~ known (to_action nf 0 (map ra_add acts) (repeat [] nf)) ;;
  d2a <~ known (to_action nf 0 (map ra_del acts) (repeat [] nf)) ;;
  let f := getlines 3 f in
  s0 <~ read_int_list (f_line f) ;;
  let f := getlines 3 f in
  g <~ read_int_list (f_line f) ;;
  let f := getlines 3 f in
  nt <~ read_size (f_line f) ;;
  '(prim, f) <~ read_tasks nt None f ;;
  ROk ({| cl_nf := nf; cl_varof := varof; cl_strict := strict; cl_mutex := mutex; cl_inv := inv; cl_acts := acts; cl_pre2a := p2a; cl_add2a := a2a; cl_del2a := d2a;
          cl_s0 := s0; cl_goal := g; cl_prim := prim |}, f).

Record rmethod := { rm_task : Z; rm_subs : list Z; rm_ord : list nat }.

Definition nats (l : list Z) : option (list nat) := omap (fun z => if (z <? 0)%Z then None else Some (Z.to_nat z)) l.

(** Model.cpp 1863-1894 *)
Fixpoint read_methods (n : nat) (init : Z) (fl : flags) (f : file) : res (list rmethod * flags * file) :=
  match n with
  | O => ROk ([], fl, f)
  | S m =>
      let f := getline f in
      if f_eof f then RExit else
      let f := getline f in
      t <~ read_int (f_line f) ;;
      let f := getline f in
      subs <~ read_int_list (f_line f) ;;
      match subs with
      | [] => RExit
      | _ :: _ =>
          let f := getline f in
          o <~ read_int_list (f_line f) ;;
          o <~ known (nats o) ;;
          '(o', fl') <~ known (transChange false (length subs) (Z.eqb t init) o fl) ;;
          '(ms, fl'', f') <~ read_methods m init fl' f ;;
          ROk ({| rm_task := t; rm_subs := subs; rm_ord := o' |} :: ms, fl'', f')
      end
  end.

(** Model.cpp 1822-1935; [None]: not an HTN model *)
Definition read_hierarchical (f : file) : res (option (Z * list rmethod * flags)) :=
  let f := getline f in
  match f_line f with
  | _ :: _ => RExit
  | [] =>
      if f_eof f then ROk None else
      let f := getline f in
      if f_eof f then ROk None else
      let f := getline f in
      if f_eof f then ROk None else
      i <~ read_int (f_line f) ;;
      let f := getlines 3 f in
      n <~ read_size (f_line f) ;;
      '(ms, fl, _) <~ read_methods n i flags0 f ;;
      ROk (Some (i, ms, fl))
  end.

(** Model.cpp 2083-2087 *)
Definition read_file (t : text) : res (classical * option (Z * list rmethod * flags)) :=
  let f := getline (fopen t) in
  '(c, f) <~ read_classical {| f_rest := f_rest f; f_eof := f_eof f; f_line := [] |} ;;
  h <~ read_hierarchical {| f_rest := f_rest f; f_eof := f_eof f; f_line := [] |} ;;
  ROk (c, h).

(** The problem as used by the search: the arrays with natural numbers *)
Definition method_of (m : rmethod) : option method :=
  s <- nats (rm_subs m) ;; o <- pairs_of (rm_ord m) ;;
  if (rm_task m <? 0)%Z then None else Some {| m_task := Z.to_nat (rm_task m); m_subs := s; m_ord := o |}.
Definition problem_of (c : classical) (init : Z) (ms : list rmethod) : option problem :=
  pre <- omap (fun a => nats (ra_prec a)) (cl_acts c) ;;
  add <- omap (fun a => nats (ra_add a)) (cl_acts c) ;;
  del <- omap (fun a => nats (ra_del a)) (cl_acts c) ;;
  cost <- nats (map ra_cost (cl_acts c)) ;;
  s0 <- nats (cl_s0 c) ;;
  g <- nats (cl_goal c) ;;
  ml <- omap method_of ms ;;
  if (init <? 0)%Z then None else
  Some {| p_nfacts := cl_nf c; p_prim := cl_prim c; p_prec := pre; p_add := add; p_del := del; p_cost := cost; p_methods := ml; p_init := Z.to_nat init;
          p_s0 := s0; p_goal := g |}.
