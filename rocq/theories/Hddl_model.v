(** The hierarchical plan printed for a plan of the written task (HTNToSASTranslation::planToHddl, src/translation/htnToSAS.cpp 2528-2734).

    The plan file is a list of operator names; as in Sas_model, a name is a structured value and reading the numbers
    back from it is the identity. The file ends with a line for the costs and an empty line, so that the bound linecount - 1 of the
    search (2704) does not cut off an operator. "move" lines do not occur in the encoding for total orders (2665-2681); thus
    subHeadsFixed (2602-2614) has no influence on the output and is left out (its cells are read uninitialised for methods
    without a "subtasks" part). *)
From Verif Require Import Base Htn_problem Sas_model.

(** Reading [n] numbers from a list separated by commas (2631-2640, 2650-2659): after the last one the last one is read again. *)
Definition read_list (l : list nat) (n : nat) : list nat := map (fun j => nth j l (last l 0)) (seq 0 n).

(** A line of the plan after the first pass: number (order[i] without the offset of methods), methIndex/primIndex, heads[i]; for methods
    firstPrimIndezes and subHeads; [None]: not allocated or uninitialised. *)
Inductive pline :=
| LPrim (num id head : nat)
| LMeth (num id head : nat) (first heads : option (list nat)).

(** A printed decomposition (2684-2730): number, decomposed task, method, numbers of the subtasks ([None]: -1). *)
Record hrow := { hr_id : nat; hr_task : nat; hr_meth : nat; hr_kids : list (option nat) }.

Section Print.
  Variable P : problem.
  (** subTasksInOrder and firstNumTOPrimTasks *)
  Variable ro : list (list nat * nat).

  (** primNumMax (2566-2578) *)
  Fixpoint prim_max (ls : list oname) : option nat :=
    match ls with
    | [] => Some 0
    | NPrim _ _ :: r => n <- prim_max r ;; Some (S n)
    | NMeth _ _ _ [] :: r => prim_max r
    | NMeth i _ _ _ :: r => '(_, f) <- get ro i ;; n <- prim_max r ;; Some (f + n)
    end.

  (** The loop over the lines (2594-2682) with the printed primitive tasks (number, task). *)
  Fixpoint pass (pn mn : nat) (ls : list oname) : option (list (nat * nat) * list pline) :=
    match ls with
    | [] => Some ([], [])
    | NPrim i h :: r => '(acts, ps) <- pass (S pn) mn r ;; Some ((pn, i) :: acts, LPrim pn i h :: ps)
    | NMeth i h subs prims :: r =>
        m <- get (p_methods P) i ;;
        '(_, f) <- get ro i ;;
        let n := match prims with [] => 0 | _ => f end in
        let first := match prims with [] => None | _ => Some (seq pn n) end in
        let heads := match subs with [] => None | _ => Some (read_list subs (length (m_subs m))) end in
        '(acts, ps) <- pass (pn + n) (S mn) r ;;
        Some (combine (seq pn n) (read_list prims n) ++ acts, LMeth mn i h first heads :: ps)
    end.

  (** The first of the lines with task [t] and head subHeads[i][j] (2703-2726). *)
  Fixpoint find_sub (pmax t : nat) (heads : option (list nat)) (j : nat) (ps : list pline) : option (option nat) :=
    match ps with
    | [] => Some None
    | LPrim n i h :: r =>
        if i =? t then hs <- heads ;; x <- get hs j ;; if h =? x then Some (Some n) else find_sub pmax t heads j r
        else find_sub pmax t heads j r
    | LMeth n i h _ _ :: r =>
        m <- get (p_methods P) i ;;
        if t =? m_task m then hs <- heads ;; x <- get hs j ;; if h =? x then Some (Some (n + pmax)) else find_sub pmax t heads j r
        else find_sub pmax t heads j r
    end.

  (** The decompositions (2684-2730). *)
  Fixpoint rows (pmax : nat) (ps : list pline) : option (list hrow) :=
    match ps with
    | [] => Some []
    | LPrim _ _ _ :: r => rows pmax r
    | LMeth n i _ first heads :: r =>
        m <- get (p_methods P) i ;;
        '(s, f) <- get ro i ;;
        let '(fi, nf) := match first with None => ([], 0) | Some l => (l, f) end in
        kids <- omap (fun j => t <- get s j ;; find_sub pmax t heads j r) (rev (seq 0 (length (m_subs m) - nf))) ;;
        rest <- rows pmax r ;;
        Some ({| hr_id := n + pmax; hr_task := m_task m; hr_meth := i; hr_kids := map Some fi ++ kids |} :: rest)
    end.
End Print.

(** The output: primitive tasks, root (2683), decompositions. *)
Definition plan_to_hddl (P : problem) (ls : list oname) : option (list (nat * nat) * nat * list hrow) :=
  ro <- omap (reorder (p_prim P)) (p_methods P) ;;
  pmax <- prim_max ro ls ;;
  '(acts, ps) <- pass P ro 0 0 ls ;;
  rs <- rows P ro pmax ps ;;
  Some (acts, pmax, rs).
