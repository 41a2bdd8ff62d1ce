(** Translation of HTN problems whose initial task is split into sequences that run in parallel (src/translation/htnToSAS.cpp, htnPS, encoding
    "parallelseq"), and the written file.

    Simplifications as in Sas_model. The bounds in pgbList are all equal (translationController.cpp 192-203, 243-245) and given as one number. *)
From Verif Require Import Base Htn_problem Sas_model Push_model Strips_model.

(** ** htnPS (htnToSAS.cpp 1169-1479) *)
Section Enc.
  (** [n] is numSeq. *)
  Variables (P : problem) (S : sproblem) (n pgb : nat).

  (** The first facts of the variables for the initial task, heads, constraints and tasks (firstIndexTrans, 1181-1214), the running sums in closed form.
      The variable of position [j] of sequence [k] (taskIndezes[k] + j, 1208) has the number [k * pgb + j] among the variables for tasks. *)
  Definition ptop : nat := head0 S.
  Definition phd (k : nat) : nat := head0 S + 2 + k * (pgb + 1).
  Definition pcn (i : nat) : nat := phd n + 2 * i.
  Definition ptk (p : nat) : nat := pcn (n * (n - 1)) + p * (ntasks P + 1).
  (** firstIndexTrans, lastIndexTrans (1191-1214) *)
  Definition pvars : list var :=
    sp_var S ++ [(ptop, ptop + 1)] ++ map (fun k => (phd k, phd k + pgb)) (seq 0 n) ++ map (fun i => (pcn i, pcn i + 1)) (seq 0 (n * (n - 1))) ++
    map (fun p => (ptk p, ptk p + ntasks P)) (seq 0 (n * pgb)).
  (** s0ListTrans (1286-1291) and gListTrans (1294-1299) *)
  Definition ps0 : list nat := [ptop + 1] ++ map phd (seq 0 n) ++ map pcn (seq 0 (n * (n - 1))) ++ map ptk (seq 0 (n * pgb)).
  Definition pgoal : list nat := [ptop] ++ map phd (seq 0 n).

  (** No other sequence has to precede sequence [k] (1344-1349, 1440-1445) *)
  Definition before (k : nat) : list nat :=
    map (fun l => let off := if k <=? l then 1 else 0 in pcn ((l + off) * (n - 1) + (k + off - 1))) (seq 0 (n - 1)).
  (** Sequence [k] precedes no other sequence any more (1350-1352, 1446-1448) *)
  Definition release (k : nat) : list nat := map (fun l => pcn ((n - 1) * k + l)) (seq 0 (n - 1)).

  (** Actions (1321-1362) *)
  Definition pact_op (i : nat) (prec add : list nat) (cost j k : nat) : strop :=
    {| r_name := TPrim i (k * pgb + j);
       r_prec := prec ++ [phd k + 1 + j; ptk (k * pgb + j) + 1 + i] ++ before k;
       r_add := add ++ [phd k + j; ptk (k * pgb + j)] ++ (if j =? 0 then release k else []);
       r_cost := cost; r_ok := true |}.

  (** The constraints set by a method of the initial task (1409-1420). [o] are the rewritten orderings; [None]: write behind the end of addListsTrans[index]. *)
  Definition top_order (e : nat * nat) : nat := fst e * (n - 1) + snd e - (if fst e <? snd e then 1 else 0).
  Definition top_cons (o : list (nat * nat)) : option (list nat) :=
    ofold (fun cs e => set cs (top_order e) (pcn (top_order e) + 1)) o (map pcn (seq 0 (n * (n - 1)))).

  (** Methods (1374-1475). [s] is subTasksInOrder[i]; its length is numSubTasks[i]. The head of sequence 0 is changed for every empty method (1451). *)
  Definition pmeth_op (i : nat) (m : method) (s : list nat) (o : list (nat * nat)) (j k : nat) : option strop :=
    let invalid := {| r_name := TMeth i (k * pgb + j) []; r_prec := []; r_add := []; r_cost := 0; r_ok := false |} in
    let top := m_task m =? p_init P in
    if ((pgb <? length s + j) && negb top)%bool then Some invalid else
    if top then (* 1398-1434 *)
      if ((j =? 0) && (k =? 0))%bool then
        ts <- omap (fun l => t <- get s l ;; Some (ptk (l * pgb) + t + 1)) (seq 0 n) ;;
        cs <- top_cons o ;;
        Some {| r_name := TMeth i (k * pgb + j) (map (fun l => l * pgb) (seq 0 (length s)));
                r_prec := [ptop + 1]; r_add := [ptop] ++ map (fun l => phd l + 1) (seq 0 n) ++ ts ++ cs; r_cost := 0; r_ok := true |}
      else Some invalid
    else
      Some {| r_name := TMeth i (k * pgb + j) (map (fun l => k * pgb + j + l) (seq 0 (length s)));
              r_prec := [phd k + 1 + j; ptk (k * pgb + j) + (m_task m + 1)] ++ before k;
              r_add := match s with
                       | [] => [phd 0 + j; ptk (k * pgb + j)] ++ (if j =? 0 then release k else [])
                       | [t] => [ptk (k * pgb + j) + 1 + t]
                       | _ => map (fun lt => ptk (k * pgb + j + fst lt) + 1 + snd lt) (combine (seq 0 (length s)) s) ++ [phd k + j + length s]
                       end;
              r_cost := 0; r_ok := true |}.

  (** All operators: actions, then methods (1320-1323, 1373-1376) *)
  Definition pact_ops : option (list strop) :=
    l <- omap (fun i => p <- get (sp_prec S) i ;; a <- get (sp_add S) i ;; c <- get (p_cost P) i ;;
                        Some (concat (map (fun j => map (pact_op i p a c j) (seq 0 n)) (seq 0 pgb)))) (seq 0 (length (p_cost P))) ;;
    Some (concat l).
  Definition pmeth_ops : option (list strop) :=
    l <- omap (fun im => '(s, o) <- po_reorder (p_prim P) (snd im) ;;
                         l <- omap (fun j => omap (pmeth_op (fst im) (snd im) s o j) (seq 0 n)) (seq 0 pgb) ;;
                         Some (concat l))
              (combine (seq 0 (length (p_methods P))) (p_methods P)) ;;
    Some (concat l).
  Definition pseq_ops : option (list strop) := a <- pact_ops ;; m <- pmeth_ops ;; Some (a ++ m).
End Enc.

(** ** writeToFastDown (htnToSAS.cpp 2208-2509) without empty tasks and conditional effects *)
Definition write_pseq (P : problem) (S : sproblem) (n pgb : nat) (ops : list strop) : option ss_task :=
  let tv := pvars P S n pgb in
  c <- conv_array tv ;;
  i1 <- omap (conv c) (sp_s0 S) ;;
  i2 <- omap (conv c) (ps0 P S n pgb) ;;
  g1 <- omap (conv c) (sp_goal S) ;;
  g2 <- omap (conv c) (pgoal S n pgb) ;;
  fs <- omap (fun o => f <- write_strop c o ;; Some (r_name o, f)) (filter r_ok ops) ;;
  Some {| ss_dom := map (fun v => Datatypes.S (snd v) - fst v) tv; ss_init := map snd (i1 ++ i2); ss_goal := g1 ++ g2; ss_ops := fs |}.

(** ** The pipeline for one bound (translationController.cpp 18-62, 167, 190-203): the number of sequences is the number of subtasks of the first method
    of the initial task; [None]: there is no such method. The plans are printed as those of Strips_model ([strips_printed]). *)
Definition pseq_translate (P : problem) (V : list var) (pgb : nat) : option ss_task :=
  m <- find (fun m => m_task m =? p_init P) (p_methods P) ;;
  let n := length (m_subs m) in
  S <- sas_plus P V ;;
  ops <- pseq_ops P S n pgb ;;
  write_pseq P S n pgb ops.
