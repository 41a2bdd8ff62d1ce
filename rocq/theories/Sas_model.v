(** Translation of totally ordered HTN problems to SAS+ problems (src/translation/htnToSAS.cpp, encoding "TO"): reordering of
    the subtasks, conversion of the facts to SAS+ variables, the stack encoding, and the file written for Fast Downward.

    Not modelled: the strings of facts and operators (an operator name is the structured value [oname], so formatting and
    parsing a name are the identity; a task or method whose own name contains "firstPrim", ": " or "]" would confuse the parser),
    the mutex groups in the output (they do not take part in the semantics of the operators), the metric flag, and the
    overflow of int. *)
From Verif Require Import Base Htn_problem.

(** ** reorderTasks (htnToSAS.cpp 304-418) *)

(** The inner loop over the already chosen subtasks (341-350): [k] and the first element [a] of an ordering are compared with
    [subs[0..j-1]] until one of them is found. *)
Inductive seen := SeenK | SeenFst | SeenNone.
Fixpoint chosen (subs : list nat) (k a : nat) : seen :=
  match subs with
  | [] => SeenNone
  | x :: r => if k =? x then SeenK else if a =? x then SeenFst else chosen r k a
  end.
(** The loop over the orderings (338-359): [notAlone]. *)
Fixpoint not_alone (ord : list (nat * nat)) (subs : list nat) (k : nat) : bool :=
  match ord with
  | [] => false
  | (a, b) :: r =>
      match chosen subs k a with
      | SeenK => true
      | SeenFst => not_alone r subs k
      | SeenNone => if b =? k then true else not_alone r subs k
      end
  end.
(** The loop over the candidates (336-368): the first one that is alone; [None]: subs[j] stays uninitialised. *)
Definition pick (n : nat) (ord : list (nat * nat)) (subs : list nat) : option nat :=
  find (fun k => negb (not_alone ord subs k)) (seq 0 n).
(** The loop over the positions (334-369). *)
Fixpoint picks (n : nat) (ord : list (nat * nat)) (j : nat) (subs : list nat) : option (list nat) :=
  match j with
  | 0 => Some subs
  | S j' => k <- pick n ord subs ;; picks n ord j' (subs ++ [k])
  end.

(** The number of leading primitive subtasks (379-386). *)
Fixpoint lead_prims (prim : list bool) (ts : list nat) : option nat :=
  match ts with
  | [] => Some 0
  | t :: r => b <- get prim t ;; if b : bool then n <- lead_prims prim r ;; Some (S n) else Some 0
  end.

(** subTasksInOrder[i] and firstNumTOPrimTasks[i] of one method (309-386). The rewritten orderings and hasNoLastTask (375-377, 388-415) are not
    used by the encoding for total orders. *)
Definition reorder (prim : list bool) (m : method) : option (list nat * nat) :=
  let n := length (m_subs m) in
  match m_subs m with
  | [] => Some ([], 0)
  | [t] => b <- get prim t ;; Some ([t], if b : bool then 1 else 0)
  | _ =>
      match m_ord m with
      | [] => Some (rev (m_subs m), 0)
      | _ =>
          subs <- picks n (m_ord m) n [] ;;
          s <- omap (fun k => get (m_subs m) (n - 1 - k)) subs ;;
          f <- lead_prims prim (m_subs m) ;;
          Some (s, f)
      end
  end.

(** ** sasPlus (htnToSAS.cpp 67-216) *)

(** A variable of the input: firstIndex and lastIndex. *)
Notation var := (nat * nat)%type.
Definition alone (v : var) : bool := fst v =? snd v.
Definition b2n (b : bool) : nat := if b then 1 else 0.

(** The loop 89-103: firstIndexSP and lastIndexSP; [off] is sasPlusOffset[i]. *)
Fixpoint sp_vars (off : nat) (V : list var) : list var :=
  match V with
  | [] => []
  | v :: r => (fst v + off, snd v + off + b2n (alone v)) :: sp_vars (off + b2n (alone v)) r
  end.

(** Writing a list of cells of an array. *)
Definition writes {A} (c : list A) (ws : list (nat * A)) : option (list A) := ofold (fun c w => set c (fst w) (snd w)) ws c.

(** The writes to bitsToSP (112-116) and to bitAlone (117-120). *)
Fixpoint sp_bits (off : nat) (V : list var) : list (nat * nat) :=
  match V with
  | [] => []
  | v :: r => map (fun j => (fst v + j, fst v + j + off)) (seq 0 (S (snd v) - fst v)) ++ sp_bits (off + b2n (alone v)) r
  end.
Definition sp_alone (V : list var) : list (nat * bool) := map (fun v => (fst v, true)) (filter alone V).

(** The additional add effects (152-155, 161-167). *)
Fixpoint no_adds (bits : list nat) (al : list bool) (dels : list nat) : option (list nat) :=
  match dels with
  | [] => Some []
  | d :: r =>
      a <- get al d ;; rest <- no_adds bits al r ;;
      if a : bool then b <- get bits d ;; Some (b + 1 :: rest) else Some rest
  end.

(** The while loop that looks for the variable of a fact of the initial state (176-182); [lim] is s0Size - j. *)
Fixpoint s0_find (V : list var) (lim b j : nat) : option nat :=
  let pred := match j with 0 => None | S j' => Some j' end in
  match lim with
  | 0 => pred
  | S lim' => match V with
              | [] => None
              | v :: r => if b <? fst v then pred else s0_find r lim' b (S j)
              end
  end.

(** The problem after sasPlus as far as it is used later (190-214). *)
Record sproblem := {
  sp_var : list var;
  sp_prec : list (list nat);
  sp_add : list (list nat);
  sp_s0 : list nat;
  sp_goal : list nat }.

Definition sas_plus (P : problem) (V : list var) : option sproblem :=
  match V with
  | [] => None (* lastIndexSP[-1] is read *)
  | _ =>
      if existsb alone V then
        let V' := sp_vars 0 V in
        bits <- writes (repeat 0 (p_nfacts P)) (sp_bits 0 V) ;;
        al <- writes (repeat false (p_nfacts P)) (sp_alone V) ;;
        precs <- omap (omap (get bits)) (p_prec P) ;;
        adds <- omap (fun ad => a <- omap (get bits) (fst ad) ;; d <- no_adds bits al (snd ad) ;; Some (a ++ d)) (combine (p_add P) (p_del P)) ;;
        s0 <- ofold (fun s b => j <- s0_find V (length (p_s0 P)) b 0 ;; b' <- get bits b ;; set s j b') (p_s0 P) (map snd V') ;;
        g <- omap (get bits) (p_goal P) ;;
        Some {| sp_var := V'; sp_prec := precs; sp_add := adds; sp_s0 := s0; sp_goal := g |}
      else Some {| sp_var := V; sp_prec := p_prec P; sp_add := p_add P; sp_s0 := p_s0 P; sp_goal := p_goal P |}
  end.

(** ** tohtnToStrips (htnToSAS.cpp 952-1166) *)

(** Operator names (1138-1164): primitive(id,head), method(id,head,subtasks,firstPrim). *)
Inductive oname :=
| NPrim (id head : nat)
| NMeth (id head : nat) (subs : list nat) (prims : list nat).

Record top := { o_name : oname; o_prec : list nat; o_add : list nat; o_cost : nat; o_ok : bool }.

Section Enc.
  Variables (P : problem) (S : sproblem) (pgb : nat).
  (** numTasks; numVars *)
  Definition ntasks : nat := length (p_prim P).
  (** firstIndexTrans[headIndex] (972); the translation of the facts keeps their numbers (967-970). *)
  Definition head0 : nat := match rev (sp_var S) with [] => 0 | v :: _ => Datatypes.S (snd v) end.
  (** firstIndexTrans[firstTaskIndex + j] (975-979), the running sums in closed form *)
  Definition task0 (j : nat) : nat := head0 + pgb + 1 + j * Datatypes.S ntasks.
  (** firstIndexTrans, lastIndexTrans (967-979) *)
  Definition tvars : list var :=
    sp_var S ++ [(head0, head0 + pgb)] ++ map (fun j => (task0 j, task0 j + ntasks)) (seq 0 pgb).
  (** s0ListTrans (1010-1016) and gListTrans (1019-1021) *)
  Definition ts0 : list nat := [head0 + 1; task0 0 + p_init P + 1] ++ map task0 (seq 1 (pgb - 1)).
  Definition tgoal : list nat := [head0].

  (** Translated actions (1031-1035, 1051-1056, 1095-1108, 1140-1144) *)
  Definition act_op (i : nat) (prec add : list nat) (cost j : nat) : top :=
    {| o_name := NPrim i j;
       o_prec := prec ++ [task0 j + 1 + i; head0 + 1 + j];
       o_add := add ++ [task0 j; head0 + j];
       o_cost := cost; o_ok := true |}.

  (** Translated methods (1036-1046, 1058-1074, 1109-1137, 1145-1164). [s] is subTasksInOrder[i], [f] is firstNumTOPrimTasks[i];
      taskToKill[i] is the number of the decomposed task plus one (1109-1114). *)
  Definition meth_op (i : nat) (m : method) (s : list nat) (f j : nat) : option top :=
    let r := length s - f in
    let prims := firstn f (rev s) in
    cs <- omap (get (p_cost P)) prims ;;
    Some {| o_name := NMeth i j (if r =? 0 then [] else map (fun k => j + k) (seq 0 r)) prims;
            o_prec := [head0 + 1 + j; task0 j + (m_task m + 1)];
            o_add := match r with
                     | 0 => [head0 + j; task0 j]
                     | 1 => map (fun t => task0 j + 1 + t) (firstn 1 s)
                     | _ => map (fun kt => task0 (j + fst kt) + 1 + snd kt) (combine (seq 0 r) s) ++ [head0 + j + r]
                     end;
            o_cost := list_sum cs;
            o_ok := r + j <=? pgb |}.

  (** All translated operators, actions first (firstMethodIndex, 1024-1025). *)
  Definition act_ops : option (list top) :=
    l <- omap (fun i => p <- get (sp_prec S) i ;; a <- get (sp_add S) i ;; c <- get (p_cost P) i ;;
                        Some (map (act_op i p a c) (seq 0 pgb))) (seq 0 (length (p_cost P))) ;;
    Some (concat l).
  Definition meth_ops : option (list top) :=
    l <- omap (fun im => '(s, f) <- reorder (p_prim P) (snd im) ;;
                         omap (meth_op (fst im) (snd im) s f) (seq 0 pgb))
              (combine (seq 0 (length (p_methods P))) (p_methods P)) ;;
    Some (concat l).
  Definition top_ops : option (list top) := a <- act_ops ;; m <- meth_ops ;; Some (a ++ m).
End Enc.

(** ** writeToFastDown (htnToSAS.cpp 2208-2509) *)

(** An operator in the file: prevail conditions, effects (variable, value before or -1, value after), cost (2439-2494). *)
Record fd_op := { f_prev : list (nat * nat); f_eff : list (nat * option nat * nat); f_cost : nat }.
(** A task in the file: sizes of the domains, initial values, goal, named operators. *)
Record fd_task := { fd_dom : list nat; fd_init : list nat; fd_goal : list (nat * nat); fd_ops : list (oname * fd_op) }.

(** convertMutexVars (2225-2249): number of the variable and of the value of each fact; uninitialised before. *)
Definition conv_writes (tv : list var) : list (nat * option (nat * nat)) :=
  concat (map (fun iv => map (fun j => (fst (snd iv) + j, Some (fst iv, j))) (seq 0 (S (snd (snd iv)) - fst (snd iv))))
              (combine (seq 0 (length tv)) tv)).
Definition nbits (tv : list var) : nat := match rev tv with [] => 0 | v :: _ => S (snd v) end.
Definition conv_array (tv : list var) : option (list (option (nat * nat))) := writes (repeat None (nbits tv)) (conv_writes tv).
Definition conv (c : list (option (nat * nat))) (b : nat) : option (nat * nat) := x <- get c b ;; x.

(** calculatePrecsAndAdds (218-301). [vals] is varChange: for every task the last precondition and the last effect on the variable. *)
Fixpoint last_on (v : nat) (l : list (nat * (nat * nat))) (acc : option nat) : option nat :=
  match l with
  | [] => acc
  | (b, (v', _)) :: r => last_on v r (if v' =? v then Some b else acc)
  end.
(** The loop over the tasks for one variable (267-285); [None]: not applicable in this order. *)
Fixpoint scan (l : list (option nat * option nat)) (start en : option nat) : option (option nat * option nat) :=
  match l with
  | [] => Some (start, en)
  | (p, a) :: r =>
      let en' := match a with Some _ => a | None => en end in
      match en with
      | None => scan r (match start with None => p | Some _ => start end) en'
      | Some e => match p with
                  | Some q => if e =? q then scan r start en' else None
                  | None => scan r start en'
                  end
      end
  end.
Definition opt_list {A} (o : option A) : list A := match o with Some a => [a] | None => [] end.
Fixpoint scan_all (vs : list nat) (tasks : list (list (nat * (nat * nat)) * list (nat * (nat * nat)))) : option (list nat * list nat) :=
  match vs with
  | [] => Some ([], [])
  | v :: r =>
      '(s, e) <- scan (map (fun t => (last_on v (fst t) None, last_on v (snd t) None)) tasks) None None ;;
      '(ps, es) <- scan_all r tasks ;;
      Some (opt_list s ++ ps, opt_list e ++ es)
  end.
(** The outer option is undefined behaviour, the inner one "not applicable". *)
Definition macro (c : list (option (nat * nat))) (S : sproblem) (tasks : list nat) : option (option (list nat * list nat)) :=
  match tasks with
  | [t] => p <- get (sp_prec S) t ;; a <- get (sp_add S) t ;; Some (Some (p, a))
  | _ =>
      l <- omap (fun t => p <- get (sp_prec S) t ;; a <- get (sp_add S) t ;;
                          p' <- omap (fun b => w <- conv c b ;; Some (b, w)) p ;;
                          a' <- omap (fun b => w <- conv c b ;; Some (b, w)) a ;; Some (p', a')) tasks ;;
      Some (scan_all (seq 0 (length (sp_var S))) l)
  end.

(** The value written as condition of an effect: that of the last precondition on the variable (2455-2460, 2467-2472). *)
Fixpoint last_val (v : nat) (l : list (nat * nat)) (acc : option nat) : option nat :=
  match l with
  | [] => acc
  | (v', d) :: r => last_val v r (if v' =? v then Some d else acc)
  end.
(** Writing one operator (2402-2494): a precondition is a prevail condition unless its variable is changed. *)
Definition write_op (ps es : list (nat * nat)) (cost : nat) : fd_op :=
  {| f_prev := filter (fun p => negb (existsb (fun e => fst p =? fst e) es)) ps;
     f_eff := map (fun e => (fst e, last_val (fst e) ps None, snd e)) es;
     f_cost := cost |}.
(** 2357-2400: the first primitive tasks of a method are added to the operator; if they are not applicable in this order
    an operator without conditions and effects is written. *)
Definition write_top (c : list (option (nat * nat))) (S : sproblem) (o : top) : option fd_op :=
  let prims := match o_name o with NPrim _ _ => [] | NMeth _ _ _ l => l end in
  pa <- match prims with [] => Some (Some ([], [])) | _ => macro c S prims end ;;
  match pa with
  | None => Some {| f_prev := []; f_eff := []; f_cost := 1 |}
  | Some (pp, pa) =>
      ps <- omap (conv c) (o_prec o ++ pp) ;;
      es <- omap (conv c) (o_add o ++ pa) ;;
      Some (write_op ps es (o_cost o))
  end.

Definition write_task (P : problem) (S : sproblem) (pgb : nat) (ops : list top) : option fd_task :=
  let tv := tvars P S pgb in
  c <- conv_array tv ;;
  i1 <- omap (conv c) (sp_s0 S) ;;
  i2 <- omap (conv c) (ts0 P S pgb) ;;
  g1 <- omap (conv c) (sp_goal S) ;;
  g2 <- omap (conv c) (tgoal S) ;;
  fs <- omap (fun o => f <- write_top c S o ;; Some (o_name o, f)) (filter o_ok ops) ;;
  Some {| fd_dom := map (fun v => Datatypes.S (snd v) - fst v) tv; fd_init := map snd (i1 ++ i2); fd_goal := g1 ++ g2; fd_ops := fs |}.

(** ** The pipeline for one bound (translationController.cpp 158-183, 219-222) *)
Definition translate (P : problem) (V : list var) (pgb : nat) : option fd_task :=
  S <- sas_plus P V ;;
  ops <- top_ops P S pgb ;;
  write_task P S pgb ops.

(** ** The actions printed for a plan (planToHddl, htnToSAS.cpp 2594-2664) *)
Definition printed (plan : list oname) : list nat :=
  concat (map (fun n => match n with NPrim i _ => [i] | NMeth _ _ _ l => l end) plan).
